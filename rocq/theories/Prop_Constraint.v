(** Sign tests (C62) and equivalence of constraints (C63). *)
From Verif Require Import Machine TimeValue Spec Tac TimeValueProofs Interval TimeSet SpecSets Graph SpecGraph.

(** ** C62 *)

(** The sign tests of a duration are the comparisons of a finite time point with the same
    one moved by the duration. *)
Theorem C62_moves : forall t d, finite t -> valid d -> exists r, tv_add t d = Ret r /\
  (is_positive d = true <-> t <= r) /\ (is_negative d = true <-> r <= t) /\
  (is_strictly_positive d = true <-> t < r) /\ (is_strictly_negative d = true <-> r < t) /\
  (is_zero d = true <-> r = t).
Proof.
  intros t d Ft Vd.
  unfold is_positive, is_negative, is_strictly_positive, is_strictly_negative, is_zero.
  rewrite tv_add_spec by (auto; unfold valid, finite in *; lia). unfold clamp, finite, valid, oo in *.
  tests; try (exfalso; lia); eexists; (split; [reflexivity|]); lia.
Qed.
(** They are exchanged by negation, exhaustive and exclusive. *)
Theorem C62_dual : forall d, valid d ->
  is_positive (tv_neg d) = is_negative d /\ is_strictly_positive (tv_neg d) = is_strictly_negative d /\
  is_zero (tv_neg d) = is_zero d /\ is_negative d = negb (is_strictly_positive d) /\
  is_positive d = negb (is_strictly_negative d) /\ is_zero d = is_positive d && is_negative d.
Proof.
  intros d V. unfold is_positive, is_negative, is_strictly_positive, is_strictly_negative, is_zero, tv_neg, valid, oo in *.
  repeat split; lia.
Qed.
Example C62_case : finite 10 /\ valid (-3) /\ tv_add 10 (-3) = Ret 7 /\ is_strictly_negative (-3) = true /\
  is_negative (-3) = true /\ is_positive (-3) = false /\ is_zero 0 = true /\ tv_add 10 (- oo) = Ret (- oo).
Proof. unfold finite, valid, oo. repeat split; lia. Qed.

(** ** C63 *)

(** Same solutions *)
Definition same_solutions (a b : kons) : Prop := forall t, sat a t <-> sat b t.
Theorem C63_sound : forall a b, valid (k_lo a) -> valid (k_up a) -> valid (k_lo b) -> valid (k_up b) ->
  k_equiv a b = true -> same_solutions a b.
Proof.
  intros [i j e lo up] [k l e' lo' up']. unfold k_equiv, same_solutions, sat. cbn [k_from k_to k_lo k_up].
  intros V1 V2 V3 V4 E t. unfold In_ext, tv_neg, valid in *. cbn [lower upper].
  destruct (i =? k) eqn:E1.
  - assert (i = k /\ j = l /\ lo = lo' /\ up = up') as (-> & -> & -> & ->) by lia. tauto.
  - destruct (i =? l) eqn:E2; [|discriminate]. assert (i = l /\ j = k /\ lo = - up' /\ up = - lo') as (-> & -> & -> & ->) by lia.
    lia.
Qed.
(** A constraint of two distinct instants, that may be satisfied and may be violated *)
Definition proper (k : kons) : Prop :=
  k_from k <> k_to k /\ wf_iv (mkI (k_lo k) (k_up k)) /\ (- oo < k_lo k \/ k_up k < oo).
Lemma proper_in k : proper k -> exists v, In_ext v (mkI (k_lo k) (k_up k)).
Proof.
  destruct k as [i j e lo up]. unfold proper, wf_iv, In_ext. cbn [k_from k_to k_lo k_up lower upper]. intros (_ & W & _).
  destruct (Z.eq_dec lo (- oo)) as [->|]; [|exists lo; lia]. destruct (Z.eq_dec up oo) as [->|]; [|exists up; lia].
  exists 0. unfold oo in *. lia.
Qed.
Lemma proper_out k : proper k -> exists v, ~ In_ext v (mkI (k_lo k) (k_up k)).
Proof.
  destruct k as [i j e lo up]. unfold proper, wf_iv, In_ext. cbn [k_from k_to k_lo k_up lower upper]. intros (_ & W & [A|A]).
  - exists (lo - 1). lia.
  - exists (up + 1). lia.
Qed.
Definition upd (t : Z -> Z) (x v : Z) : Z -> Z := fun y => if y =? x then v else t y.
Lemma same_instants a b x : proper a -> proper b -> same_solutions a b ->
  x = k_from a \/ x = k_to a -> x = k_from b \/ x = k_to b.
Proof.
  intros Pa Pb S Hx. destruct (Z.eq_dec x (k_from b)); auto. destruct (Z.eq_dec x (k_to b)); auto. exfalso.
  destruct (proper_in b Pb) as (v & Hv). destruct (proper_out a Pa) as (w & Hw).
  assert (Nb : k_from b <> k_to b) by apply Pb. assert (Na : k_from a <> k_to a) by apply Pa.
  set (t := upd (fun _ => 0) (k_to b) v).
  set (y := if x =? k_from a then t (k_to a) - w else t (k_from a) + w).
  assert (Sb : sat b (upd t x y)).
  { unfold sat. replace (upd t x y (k_to b)) with v.
    - replace (upd t x y (k_from b)) with 0; [rewrite Z.sub_0_r; auto|].
      unfold upd, t, upd. destruct (k_from b =? x) eqn:E1; [lia|]. destruct (k_from b =? k_to b) eqn:E2; lia.
    - unfold upd, t, upd. destruct (k_to b =? x) eqn:E1; [lia|]. rewrite Z.eqb_refl. auto. }
  apply S in Sb. apply Hw. unfold sat in Sb. replace w with (upd t x y (k_to a) - upd t x y (k_from a)); auto.
  unfold upd at 1 2. unfold y. destruct (x =? k_from a) eqn:E.
  - assert (x = k_from a) as -> by lia. rewrite Z.eqb_refl. destruct (k_to a =? k_from a) eqn:E2; lia.
  - assert (x = k_to a) as -> by lia. rewrite Z.eqb_refl. destruct (k_from a =? k_to a) eqn:E2; lia.
Qed.
Lemma same_bounds_of lo up lo' up' : lo <= up -> lo' <= up' -> - oo <= lo -> - oo <= lo' -> up <= oo -> up' <= oo ->
  lo < oo -> lo' < oo -> - oo < up -> - oo < up' ->
  (forall v, ((lo = - oo \/ lo <= v) /\ (up = oo \/ v <= up)) <-> ((lo' = - oo \/ lo' <= v) /\ (up' = oo \/ v <= up'))) ->
  lo = lo' /\ up = up'.
Proof.
  intros A1 A2 A3 A4 A5 A6 A7 A8 A9 A10 H. unfold oo in *. split.
  - pose proof (H (Z.min up (lo' - 1))). pose proof (H (Z.min up' (lo - 1))). clear H. lia.
  - pose proof (H (Z.max lo (up' + 1))). pose proof (H (Z.max lo' (up + 1))). clear H. lia.
Qed.
(** Constraints of an instant with itself and those that exclude nothing
    are left out, see below. *)
Theorem C63_complete : forall a b, proper a -> proper b -> same_solutions a b -> k_equiv a b = true.
Proof.
  intros a b Pa Pb S. assert (S' : same_solutions b a) by (intros t; symmetry; apply S).
  pose proof (same_instants a b (k_from a) Pa Pb S (or_introl eq_refl)) as I1.
  pose proof (same_instants a b (k_to a) Pa Pb S (or_intror eq_refl)) as I2.
  assert (D : forall v, exists t, t (k_to a) - t (k_from a) = v).
  { intros v. exists (upd (fun _ => 0) (k_to a) v). unfold upd. rewrite Z.eqb_refl. destruct Pa as (Na & _).
    destruct (k_from a =? k_to a) eqn:E; lia. }
  destruct a as [i j e lo up], b as [k l e' lo' up']. unfold proper, same_solutions, sat in *. cbn [k_from k_to k_lo k_up] in *.
  destruct Pa as (Na & Wa & Oa), Pb as (Nb & Wb & Ob). unfold k_equiv. cbn [k_from k_to k_lo k_up].
  unfold wf_iv, In_ext in *. cbn [lower upper] in *.
  assert (Q : (forall v, ((lo = - oo \/ lo <= v) /\ (up = oo \/ v <= up)) <-> ((lo' = - oo \/ lo' <= v) /\ (up' = oo \/ v <= up'))) ->
    lo = lo' /\ up = up').
  { clear - Wa Wb. intros H. apply (same_bounds_of lo up lo' up'); tauto. }
  assert (R : (forall v, ((lo = - oo \/ lo <= v) /\ (up = oo \/ v <= up)) <-> ((lo' = - oo \/ lo' <= - v) /\ (up' = oo \/ - v <= up'))) ->
    lo = - up' /\ up = - lo').
  { clear - Wa Wb. intros H. apply (same_bounds_of lo up (- up') (- lo')); [lia..|]. intros v. specialize (H v). lia. }
  destruct (i =? k) eqn:E1.
  - assert (i = k /\ j = l) as (-> & ->) by lia. destruct Q as (-> & ->); [|lia].
    intros v. destruct (D v) as (t & <-). apply S.
  - assert (i = l /\ j = k) as (-> & ->) by lia. destruct R as (-> & ->); [|rewrite Z.eqb_refl; unfold tv_neg; lia].
    intros v. destruct (D v) as (t & <-). rewrite Z.opp_sub_distr, Z.add_comm. apply S.
Qed.
(** A constraint of an instant with itself and one that excludes nothing are equivalent
    without being recognised. *)
Theorem C63_improper_unrecognised : exists a b, wf_iv (mkI (k_lo a) (k_up a)) /\ wf_iv (mkI (k_lo b) (k_up b)) /\
  same_solutions a b /\ k_equiv a b = false.
Proof.
  exists (mkK 3 3 false (-5) 7), (mkK 1 2 false (- oo) oo). unfold wf_iv, same_solutions, sat, In_ext.
  cbn [k_from k_to k_lo k_up lower upper]. split; [unfold oo; lia|]. split; [unfold oo; lia|]. split; [|reflexivity].
  intros t. lia.
Qed.
(** It is an equivalence relation on constraints with legal bounds. *)
Theorem C63_equivalence : forall a b c, valid (k_lo a) -> valid (k_up a) ->
  k_equiv a a = true /\ k_equiv a b = k_equiv b a /\ (k_equiv a b = true -> k_equiv b c = true -> k_from a <> k_to a -> k_equiv a c = true).
Proof.
  intros [i j e lo up] [k l e' lo' up'] [m n e'' lo'' up'']. unfold k_equiv, tv_neg, valid. cbn [k_from k_to k_lo k_up].
  intros V1 V2. split; [tests; lia|]. split.
  - tests; lia.
  - tests; lia.
Qed.
Example C63_case : k_equiv (mkK 1 2 false 3 8) (mkK 2 1 false (-8) (-3)) = true /\ proper (mkK 1 2 false 3 8) /\
  proper (mkK 2 1 false (-8) (-3)) /\ k_equiv (mkK 1 2 false 3 8) (mkK 2 1 false 3 8) = false /\
  k_equiv (mkK 1 2 false 3 oo) (mkK 2 1 false (- oo) (-3)) = true.
Proof. unfold proper, wf_iv, oo. cbn. repeat split; lia. Qed.
