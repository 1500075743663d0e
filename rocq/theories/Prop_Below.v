(** C04, C07: what the sub-second constructors give for every count of 64 bits. *)
From Verif Require Import Machine TimeValue Spec Tac TimeValueProofs Prop_TimeValue.

(** The number of 64 bits congruent to [v] *)
Definition modular (v r : Z) : Prop := - 2 ^ 63 <= r < 2 ^ 63 /\ exists k, v = r + 2 ^ 64 * k.

Lemma wrap64_modular : forall v, modular v (wrap64 v).
Proof.
  intros v. split; [apply wrap64_range|]. exists ((v + 2 ^ 63) / 2 ^ 64). unfold wrap64.
  pose proof (Z.div_mod (v + 2 ^ 63) (2 ^ 64) ltac:(lia)). lia.
Qed.
Lemma modular_unique : forall v r s, modular v r -> modular v s -> r = s.
Proof. intros v r s (A & k & E) (B & l & F). lia. Qed.

(** Below 8589934592 units of one second, for every [n]: the number rounded to zero, modulo 2^64.  In debug builds the call panics
    instead exactly if the whole seconds are congruent to -8589934592 modulo 2^34 and the rest has a tick. *)
Theorem C04_exactly : forall ctor u n p, In (ctor, u) (subsec_ctors p) -> in_i64 n = true -> n < 8589934592 * u ->
  exists v r, rounds_to_zero n u v /\ modular v r /\
    let lost := (exists k, Z.quot n u = - 8589934592 + 2 ^ 34 * k) /\ u <= Z.abs (Z.rem n u) * ticks_per_sec in
    (p = Release \/ ~ lost -> ctor n = Ret r) /\ (p = Debug -> lost -> ctor n = Panic).
Proof.
  intros ctor u n p H I L.
  assert (U : u = 1000 \/ u = 1000000 \/ u = 1000000000).
  { cbn in H. repeat destruct H as [H|H]; try (inv H; lia); contradiction. }
  assert (E : ctor n = from_fract p n u).
  { cbn in H. repeat destruct H as [H|H]; try (inv H; reflexivity); contradiction. }
  clear H. rewrite E. clear E ctor.
  assert (Hi : -9223372036854775808 <= n <= 9223372036854775807) by (unfold in_i64, i64_min, i64_max in I; lia).
  pose proof (Z.quot_rem n u ltac:(lia)) as Q.
  assert (R : (0 <= n -> 0 <= Z.rem n u < u) /\ (n <= 0 -> - u < Z.rem n u <= 0)).
  { split; intros; [apply Z.rem_bound_pos; lia|].  pose proof (Z.rem_opp_l n u ltac:(lia)). pose proof (Z.rem_bound_pos (- n) u ltac:(lia) ltac:(lia)). lia. }
  unfold from_fract. rewrite div64_pos by lia. cbn [bind].
  set (q := Z.quot n u) in *. set (f := Z.rem n u) in *.
  assert (Qs : q <= 8589934591) by (destruct U as [->|[->| ->]]; lia).
  unfold mul64. rewrite chk64_ok by (destruct U as [->|[->| ->]]; lia). cbn [bind].
  unfold sub64. rewrite chk64_ok by (destruct U as [->|[->| ->]]; lia). cbn [bind].
  rewrite MAX_SEC_val. destruct (8589934591 <? q) eqn:T; [lia|]. clear T.
  replace (n - q * u) with f by lia. rewrite !shl30.
  rewrite (wrap64_small (f * ticks_per_sec)) by (unfold ticks_per_sec; lia).
  rewrite div64_pos by lia. cbn [bind].
  pose proof (Z.quot_rem (f * ticks_per_sec) u ltac:(lia)) as G.
  assert (GR : (0 <= f -> 0 <= Z.rem (f * ticks_per_sec) u < u) /\ (f <= 0 -> - u < Z.rem (f * ticks_per_sec) u <= 0)).
  { unfold ticks_per_sec. split; intros; [apply Z.rem_bound_pos; lia|].
    pose proof (Z.rem_opp_l (f * 1073741824) u ltac:(lia)). pose proof (Z.rem_bound_pos (- (f * 1073741824)) u ltac:(lia) ltac:(lia)). lia. }
  set (e := Z.quot (f * ticks_per_sec) u) in *. set (h := Z.rem (f * ticks_per_sec) u) in *.
  clearbody q f e h.
  assert (Eb : (0 <= n -> 0 <= e < ticks_per_sec) /\ (n <= 0 -> - ticks_per_sec < e <= 0)).
  { unfold ticks_per_sec in *. destruct U as [->|[->| ->]]; lia. }
  assert (Ez : u <= Z.abs f * ticks_per_sec <-> e <> 0).
  { unfold ticks_per_sec in *. destruct U as [->|[->| ->]]; lia. }
  exists (q * ticks_per_sec + e), (wrap64 (q * ticks_per_sec + e)).
  split; [unfold rounds_to_zero, ticks_per_sec in *; destruct U as [->|[->| ->]]; lia|].
  split; [apply wrap64_modular|]. cbv zeta. unfold add64, chk64.
  pose proof (wrap64_modular (q * ticks_per_sec)) as (Wr & k & Wk). set (w := wrap64 (q * ticks_per_sec)) in *. clearbody w.
  assert (S : modular (q * ticks_per_sec + e) (w + e) \/ (w = - 2 ^ 63 /\ e < 0)).
  { assert (- 2 ^ 63 <= w + e < 2 ^ 63 \/ w = - 2 ^ 63 /\ e < 0).
    { assert (exists m, w = ticks_per_sec * m) as (m & ->).
      { exists (q - 2 ^ 34 * k). unfold ticks_per_sec in *. lia. }
      unfold ticks_per_sec in *. lia. }
    destruct H as [H|H]; [left|right; exact H]. split; [exact H|]. exists k. lia. }
  assert (Lo : (exists k, q = - 8589934592 + 2 ^ 34 * k) <-> w = - 2 ^ 63).
  { unfold ticks_per_sec in *. split; [intros (k' & ->); lia|]. intros ->. exists k. lia. }
  rewrite Lo, Ez.
  destruct S as [S|(S1 & S2)].
  - assert (N : in_i64 (w + e) = true) by (destruct S as (S & _); unfold in_i64, i64_min, i64_max; lia).
    rewrite N. split; [intros _; f_equal; eapply modular_unique; [exact S|apply wrap64_modular]|].
    intros _ (X & Y). exfalso. destruct S as (S & _).
    assert (e < 0). { destruct (Z_le_gt_dec 0 n); [|lia]. unfold ticks_per_sec in *.
      assert (0 <= q) by (destruct U as [->|[->| ->]]; lia). lia. }
    lia.
  - assert (N : in_i64 (w + e) = false) by (unfold in_i64, i64_min, i64_max; lia). rewrite N. split.
    + intros [->|X]; [|exfalso; apply X; lia]. f_equal. eapply modular_unique; [|apply wrap64_modular].
      pose proof (wrap64_modular (w + e)) as (A & m & B). split; [exact A|]. exists (k + m). lia.
    + intros -> _. reflexivity.
Qed.
(** Converting a chrono duration or a date-time is the constructor of nanoseconds, so the same holds for them. *)
Example C04_exactly_case :
  from_nanos Release (- 8600000000000000001) = Ret 9212564387309551615 /\ from_millis Debug (- 8589934592500) = Panic /\
  from_millis Release (- 8589934592500) = Ret 9223372036317904896 /\ from_millis Debug (- 8589934592000) = Ret (- 2 ^ 63).
Proof. repeat split; vm_compute; reflexivity. Qed.
Print Assumptions C04_exactly.
