(** Proof automation shared by the proof files (no model content). *)
From Verif Require Import Machine TimeValue Spec.
From Coq Require Export ZifyBool.
Ltac Zify.zify_post_hook ::= Z.div_mod_to_equations.

(** Destruct the boolean tests of the goal, innermost first. *)
Ltac tests :=
  repeat match goal with
  | |- context [if ?b then _ else _] =>
      lazymatch b with context [if _ then _ else _] => fail | _ => idtac end;
      let E := fresh "T" in destruct b eqn:E
  end.
Ltac tests_in H :=
  repeat match type of H with
  | context [if ?b then _ else _] =>
      lazymatch b with context [if _ then _ else _] => fail | _ => idtac end;
      let E := fresh "T" in destruct b eqn:E
  end.

Ltac inv H := inversion H; clear H; subst.

Ltac mach :=
  unfold add64, sub64, mul64, neg64, abs64, div64, sat_div64, chk64, sat64, in_i64,
    addus, subus, mulus, chkus, add32, sub32, mul32, chk32, debug_assert, assert_,
    i64_min, i64_max, u32_max, usize_max in *.

Ltac pts :=
  unfold just_after, just_before, is_future_infinite, is_past_infinite, is_finite,
    from_ticks, tv_neg, INF, i64_max, valid, finite, clamp, oo in *.

(** keep integer expressions as written *)
Arguments Z.add : simpl never.
Arguments Z.sub : simpl never.
Arguments Z.opp : simpl never.
Arguments Z.mul : simpl never.
Arguments Z.max : simpl never.
Arguments Z.min : simpl never.
Arguments Z.ltb : simpl never.
Arguments Z.leb : simpl never.
Arguments Z.eqb : simpl never.
