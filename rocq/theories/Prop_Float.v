(** Float factors (properties C67, C68, C69). *)
From Verif Require Import Machine TimeValue Spec Tac TimeValueProofs Interval Iter TimeSet Relns SpecSets SetProofs
  CollectProofs Prop_Interval SetOpsProofs Prop_TimeSet Scaling Prop_Scaling Float SpecScale FloatProofs.

Ltac bx := repeat match goal with |- context [xorb ?a ?b] => destruct (xorb a b) end.
Lemma format_ok F : format F -> ok_fmt F.
Proof. intros [->| ->]; [apply ok_f32|apply ok_f64]. Qed.
Lemma format_digits F : format F -> 24 <= f_prec F <= 53 /\ f_prec F + 70 <= f_e F.
Proof. intros [->| ->]; cbn; lia. Qed.
Lemma value_nonneg F s u : value F (FFin s u) -> 0 <= u.
Proof. intros (R & _). now apply rep_nonneg in R. Qed.
Lemma valid_abs t : valid t -> 0 <= Z.abs t <= oo.
Proof. unfold valid, oo. lia. Qed.

(** ** C67 durations *)

Section C67.
Variable F : fmt.
Hypothesis Fm : format F.
Let Ok : ok_fmt F := format_ok F Fm.
Let p := f_prec F.
Let E := 2 ^ f_e F.
Lemma E_pos : 0 < E.
Proof. apply pe; auto. Qed.

Theorem C67_special : forall t, valid t -> tv_mul_f F t FNan = 0 /\
  (forall s, tv_mul_f F t (FFin s 0) = 0 /\ tv_mul_f F t (FInf s) = if t =? 0 then 0 else sg (xorb (t <? 0) s) oo).
Proof.
  intros t V. split; [apply mul_nan; auto|]. intros s. split; [|apply mul_inf; auto].
  rewrite mul_fin by (auto; lia). pose proof E_pos as P. unfold mag. fold E. rewrite Z.mul_0_r.
  rewrite (rnd_exact F Ok 0 E 0) by (try apply rep_0; auto; lia). rewrite Z.div_0_l by lia.
  unfold sg, oo. bx; reflexivity.
Qed.
Theorem C67_valid : forall t f, valid t -> value F f -> valid (tv_mul_f F t f).
Proof.
  intros t f V H. destruct f as [|s|s u].
  - rewrite mul_nan by auto. unfold valid, oo. lia.
  - rewrite mul_inf by auto. unfold valid, sg, oo. destruct (t =? 0); bx; lia.
  - pose proof (value_nonneg F s u H) as U. rewrite mul_fin by auto.
    pose proof (mag_nonneg F Ok (Z.abs t) u ltac:(lia) U). unfold valid, sg, oo. bx; lia.
Qed.
(** The opposite of either factor gives the opposite. *)
Theorem C67_opposite : forall t f, valid t -> value F f ->
  tv_mul_f F (- t) f = - tv_mul_f F t f /\ tv_mul_f F t (f_opp f) = - tv_mul_f F t f.
Proof.
  intros t f V H. assert (V' : valid (- t)) by (unfold valid in *; lia). destruct f as [|s|s u]; cbn [f_opp].
  - rewrite !mul_nan by auto. auto.
  - rewrite !mul_inf by auto. unfold sg. split; tests; cbn [xorb] in *; try lia; destruct s; cbn [xorb negb]; lia.
  - pose proof (value_nonneg F s u H) as U. rewrite !mul_fin by auto. rewrite Z.abs_opp.
    destruct (Z.eq_dec t 0) as [->|N].
    + cbn [Z.abs]. rewrite mag_0 by auto. split; unfold sg, oo; bx; reflexivity.
    + set (m := Z.min oo _). unfold sg. split; [|now destruct (t <? 0), s; cbn [xorb negb]; lia].
      destruct (t <? 0) eqn:T; [replace (- t <? 0) with false by lia|replace (- t <? 0) with true by lia];
        destruct s; cbn [xorb]; lia.
Qed.
Lemma mono_pos t t' f : valid t -> valid t' -> t <= t' -> value F f ->
  match f with FNan => True | FInf s | FFin s _ => s = false end -> tv_mul_f F t f <= tv_mul_f F t' f.
Proof.
  intros V V' H Hf S. destruct f as [|s|s u].
  - rewrite !mul_nan by auto. lia.
  - subst s. rewrite !mul_inf by auto. rewrite !xorb_false_r. unfold sg, oo. tests; lia.
  - subst s. pose proof (value_nonneg F false u Hf) as U. rewrite !mul_fin by auto. rewrite !xorb_false_r.
    pose proof (mag_nonneg F Ok (Z.abs t) u ltac:(lia) U). pose proof (mag_nonneg F Ok (Z.abs t') u ltac:(lia) U).
    pose proof (mag_mono F Ok (Z.abs t) (Z.abs t') u u). pose proof (mag_mono F Ok (Z.abs t') (Z.abs t) u u).
    unfold sg, oo. tests; lia.
Qed.
Lemma opp_value f : value F f -> value F (f_opp f).
Proof. destruct f; auto. Qed.
Lemma opp_opp f : f_opp (f_opp f) = f.
Proof. destruct f; cbn; rewrite ?negb_involutive; auto. Qed.
Lemma mono_neg t t' f : valid t -> valid t' -> t <= t' -> value F f ->
  match f with FNan => True | FInf s | FFin s _ => s = true end -> tv_mul_f F t' f <= tv_mul_f F t f.
Proof.
  intros V V' H Hf S. rewrite <- (opp_opp f). pose proof (opp_value f Hf) as Hf'.
  rewrite (proj2 (C67_opposite t (f_opp f) V Hf')), (proj2 (C67_opposite t' (f_opp f) V' Hf')).
  pose proof (mono_pos t t' (f_opp f) V V' H Hf'). destruct f as [|s|s u]; cbn [f_opp] in *; auto; subst; cbn [negb] in *.
  - rewrite !mul_nan by auto. lia.
  - specialize (H0 eq_refl). lia.
  - specialize (H0 eq_refl). lia.
Qed.
(** Order is preserved, or reversed by the factors below 0. *)
Theorem C67_monotone : forall t t' f, valid t -> valid t' -> t <= t' -> value F f ->
  (~ below_zero f -> tv_mul_f F t f <= tv_mul_f F t' f) /\
  (below_zero f -> tv_mul_f F t' f <= tv_mul_f F t f).
Proof.
  intros t t' f V V' H Hf. split; intros B.
  - destruct f as [|s|s u]; cbn in B.
    + apply mono_pos; auto.
    + apply mono_pos; auto. now destruct s.
    + destruct s; [|apply mono_pos; auto]. destruct (Z.eq_dec u 0) as [->|N]; [|tauto].
      rewrite (proj1 (proj2 (C67_special t V) true)), (proj1 (proj2 (C67_special t' V') true)). lia.
  - apply mono_neg; auto. destruct f as [|s|s u]; cbn in B; auto. apply B.
Qed.
(** Without any rounding the result is the product truncated towards 0. *)
Theorem C67_exact : forall t s u, valid t -> value F (FFin s u) -> Z.abs t <= 2 ^ p -> rep F (Z.abs t * u) ->
  tv_mul_f F t (FFin s u) = clamp (Z.quot (t * sg s u) (2 ^ f_e F)).
Proof.
  intros t s u V H S R. pose proof (value_nonneg F s u H) as U. pose proof E_pos as P. fold E.
  assert (R1 : rep F (Z.abs t * 2 ^ f_e F)) by (apply rep_small; auto; fold p; pose proof Ok as (_ & ? & _); lia).
  rewrite mul_fin by auto. rewrite mag_exact by (auto; lia). fold E.
  assert (Q : forall a, 0 <= a -> Z.quot a E = a / E) by (intros; apply Z.quot_div_nonneg; lia).
  assert (D : 0 <= Z.abs t * u / E) by (apply Z.div_pos; nia).
  unfold sg. destruct (t <? 0) eqn:T; destruct s; cbn [xorb].
  - replace (t * - u) with (Z.abs t * u) by nia. rewrite Q by nia. unfold clamp, oo in *. lia.
  - replace (t * u) with (- (Z.abs t * u)) by nia. rewrite Z.quot_opp_l, Q by nia. unfold clamp, oo in *. lia.
  - replace (t * - u) with (- (Z.abs t * u)) by nia. rewrite Z.quot_opp_l, Q by nia. unfold clamp, oo in *. lia.
  - replace (t * u) with (Z.abs t * u) by nia. rewrite Q by nia. unfold clamp, oo in *. lia.
Qed.
Lemma of_small n : Z.abs n <= 2 ^ p -> f_of F n = FFin (n <? 0) (Z.abs n * E) /\ value F (FFin (n <? 0) (Z.abs n * E)).
Proof.
  intros H. pose proof (format_digits F Fm) as D. fold p in D. pose proof Ok as (_ & He & Hm & _).
  assert (2 ^ p <= 2 ^ 53) by (apply Z.pow_le_mono_r; lia).
  assert (R : rep F (Z.abs n * E)) by (apply rep_small; auto; fold p; lia).
  rewrite f_of_valid by (auto; unfold valid, oo; lia). fold E.
  rewrite (rnd_exact F Ok (Z.abs n * E) 1 (Z.abs n * E)) by (auto; lia). split; auto. split; auto.
  assert (2 ^ 64 <= 2 ^ f_max F) by (apply Z.pow_le_mono_r; lia).
  rewrite Z.pow_add_r by lia. fold E. pose proof E_pos. nia.
Qed.
(** Integer factors: [t * (n as f64)] is [t * n]. *)
Theorem C67_integer : forall t n, Z.abs t <= 2 ^ p -> Z.abs n <= 2 ^ p -> Z.abs (t * n) <= 2 ^ p ->
  tv_mul_f F t (f_of F n) = t * n.
Proof.
  intros t n Ht Hn Hp. destruct (of_small n Hn) as (-> & Vf). pose proof E_pos as P.
  pose proof (format_digits F Fm) as D. fold p in D. pose proof Ok as (_ & He & _).
  assert (2 ^ p <= 2 ^ 53) by (apply Z.pow_le_mono_r; lia).
  rewrite C67_exact; auto.
  - fold E. replace (t * sg (n <? 0) (Z.abs n * E)) with (t * n * E).
    + rewrite Z.quot_mul by lia. unfold clamp, oo. lia.
    + unfold sg. destruct (n <? 0) eqn:T; nia.
  - unfold valid, oo. lia.
  - rewrite Z.mul_assoc, <- Z.abs_mul. apply rep_small; auto; fold p; lia.
Qed.
Lemma one_of : f_one F = f_of F 1.
Proof.
  destruct (of_small 1) as (-> & _); [|unfold f_one; fold E; change (Z.abs 1) with 1; now rewrite Z.mul_1_l]. pose proof (format_digits F Fm). fold p in H. change (Z.abs 1) with (2 ^ 0).
  apply Z.pow_le_mono_r; lia.
Qed.
Theorem C67_one : forall t, Z.abs t <= 2 ^ p -> tv_mul_f F t (f_one F) = t.
Proof.
  intros t H. rewrite one_of, C67_integer; try lia. change (Z.abs 1) with (2 ^ 0).
  apply Z.pow_le_mono_r; [lia|]. pose proof (format_digits F Fm). fold p in H0. lia.
Qed.
(** Factors at least 1 keep infinite durations. *)
Theorem C67_infinite : forall s u, value F (FFin s u) -> 2 ^ f_e F <= u ->
  tv_mul_f F oo (FFin s u) = sg s oo /\ tv_mul_f F (- oo) (FFin s u) = sg (negb s) oo.
Proof.
  intros s u H L. pose proof (value_nonneg F s u H) as U. pose proof E_pos as P. fold E in L. pose proof Ok as (_ & He & _).
  assert (M : oo <= mag F oo u).
  { unfold mag. fold E. unfold E at 1. rewrite rnd_oo by auto.
    apply Z.div_le_lower_bound; [lia|]. transitivity (2 ^ (63 + f_e F)).
    - rewrite Z.pow_add_r by lia. fold E. unfold oo. lia.
    - assert (0 < 2 ^ (63 + f_e F)) by (apply pow_pos; lia). apply rnd_lo; auto; [nia|apply rep_pow; auto; lia|].
      apply Z.mul_le_mono_nonneg_l; lia. }
  rewrite !mul_fin by (auto; unfold valid, oo; lia). rewrite Z.abs_opp. change (Z.abs oo) with oo. rewrite Z.min_l by auto.
  change (oo <? 0) with false. change (- oo <? 0) with true. split; destruct s; reflexivity.
Qed.

(** The result is near the product: the relative error is at most [2 ^ (2 - p)], plus one tick. *)
Lemma mag_accuracy n u : 0 <= n -> 0 <= u ->
  2 ^ (p - 2) * Z.abs (E * mag F n u - n * u) <= n * u + 2 ^ (p - 2) * E.
Proof.
  intros Hn Hu. pose proof E_pos as P. pose proof (format_digits F Fm) as D. fold p in D. pose proof Ok as (_ & He & _).
  assert (P2 : 2 ^ p = 4 * 2 ^ (p - 2)) by (rewrite (pow_split p 2) by lia; lia).
  assert (P1 : 2 ^ (p - 1) = 2 * 2 ^ (p - 2)) by (rewrite (pow_split (p - 1) 1) by lia; replace (p - 1 - 1) with (p - 2) by lia; lia).
  assert (PE : 2 ^ p <= E) by (apply Z.pow_le_mono_r; lia).
  set (A := 2 ^ (p - 2)) in *. assert (PA : 2 <= A) by (apply (Z.pow_le_mono_r 2 1); lia).
  destruct (Z.eq_dec n 0) as [->|N0].
  { rewrite mag_0 by auto. rewrite Z.mul_0_r, Z.mul_0_l. nia. }
  pose proof (rnd_error F Ok (n * E) 1 ltac:(nia) ltac:(lia)) as E1. fold p in E1.
  assert (R0 : 0 <= rnd F (n * E) 1) by (apply rnd_nonneg; auto; nia).
  unfold mag. fold E. set (r1 := rnd F (n * E) 1) in *.
  pose proof (rnd_error F Ok (r1 * u) E ltac:(nia) ltac:(lia)) as E2. fold p in E2.
  assert (R2 : 0 <= rnd F (r1 * u) E) by (apply rnd_nonneg; auto; nia).
  set (r := rnd F (r1 * u) E) in *.
  pose proof (Z.div_mod r E ltac:(lia)) as Dm. pose proof (Z.mod_pos_bound r E P) as Bm.
  set (M := r / E) in *. set (d := r mod E) in *. clearbody r r1 M d.
  rewrite P2, P1 in *. clearbody A.
  assert (X1 : 4 * A * Z.abs (r1 - n * E) <= n * E) by nia.
  assert (B1 : r1 <= 2 * (n * E)) by nia.
  assert (X2 : 4 * A * Z.abs (E * r - r1 * u) <= 2 * (n * E) * u + E * (2 * A)) by nia.
  assert (X3 : 4 * A * (u * Z.abs (r1 - n * E)) <= u * (n * E)) by nia.
  assert (T : E * Z.abs (E * M - n * u) <= E * d + Z.abs (E * r - r1 * u) + u * Z.abs (r1 - n * E)).
  { replace (E * Z.abs (E * M - n * u)) with (Z.abs (E * (E * M - n * u))) by (rewrite Z.abs_mul; lia).
    replace (u * Z.abs (r1 - n * E)) with (Z.abs (u * (r1 - n * E))) by (rewrite Z.abs_mul; lia).
    replace (E * (E * M - n * u)) with (- (E * d) + (E * r - r1 * u) + u * (r1 - n * E)) by (rewrite Dm; ring).
    assert (0 <= E * d) by nia. lia. }
  assert (Q : E * (4 * A * Z.abs (E * M - n * u)) <= E * (4 * (n * u + A * E))) by nia.
  assert (Q' : 4 * A * Z.abs (E * M - n * u) <= 4 * (n * u + A * E)) by (apply Z.mul_le_mono_pos_l in Q; lia).
  lia.
Qed.
Theorem C67_accuracy : forall t s u, valid t -> value F (FFin s u) -> Z.abs t * u <= 2 ^ 62 * 2 ^ f_e F ->
  2 ^ (p - 2) * Z.abs (2 ^ f_e F * tv_mul_f F t (FFin s u) - t * sg s u) <= Z.abs t * u + 2 ^ (p - 2) * 2 ^ f_e F.
Proof.
  intros t s u V H L. pose proof (value_nonneg F s u H) as U. pose proof E_pos as P. fold E in L |- *.
  pose proof (mag_accuracy (Z.abs t) u ltac:(lia) U) as A. pose proof (format_digits F Fm) as D. fold p in D.
  pose proof (mag_nonneg F Ok (Z.abs t) u ltac:(lia) U) as M0. rewrite mul_fin by auto.
  assert (K : 16 <= 2 ^ (p - 2)) by (apply (Z.pow_le_mono_r 2 4); lia).
  set (C := 2 ^ (p - 2)) in *. set (m := mag F (Z.abs t) u) in *.
  assert (M1 : m <= oo).
  { assert (X : 16 * Z.abs (E * m - Z.abs t * u) <= Z.abs t * u + 16 * E).
    { destruct (Z_le_gt_dec (16 * Z.abs (E * m - Z.abs t * u)) (Z.abs t * u + 16 * E)) as [|G]; auto. exfalso.
      assert (0 <= Z.abs t * u) by nia. set (w := Z.abs (E * m - Z.abs t * u)) in *. assert (0 <= w) by (unfold w; lia).
      clearbody w. assert (C * (w - E) <= Z.abs t * u) by nia. assert (16 * (w - E) > Z.abs t * u) by lia. nia. }
    assert (E * m <= E * (2 ^ 62 + 2 ^ 58 + 1)) by lia. apply Z.mul_le_mono_pos_l in H0; auto. unfold oo. lia. }
  rewrite Z.min_r by auto. clearbody m C.
  replace (Z.abs (E * sg (xorb (t <? 0) s) m - t * sg s u)) with (Z.abs (E * m - Z.abs t * u)); auto.
  unfold sg. destruct (t <? 0) eqn:T; destruct s; cbn [xorb].
  - replace (Z.abs t) with (- t) by lia. f_equal. lia.
  - replace (Z.abs t) with (- t) by lia. rewrite <- Z.abs_opp. f_equal. lia.
  - replace (Z.abs t) with t by lia. rewrite <- Z.abs_opp. f_equal. lia.
  - replace (Z.abs t) with t by lia. f_equal.
Qed.

(** *** Division *)

Lemma inv_value f : value F f -> value F (finv F f).
Proof.
  intros H. pose proof Ok as (_ & He & Hm & _). destruct f as [|s|s u]; cbn [finv]; auto.
  - split; [apply rep_0; auto|]. apply pow_pos. lia.
  - pose proof (value_nonneg F s u H) as U. destruct (u =? 0) eqn:T; [exact I|]. unfold mkfl.
    destruct (_ <=? _) eqn:B; [exact I|]. split; [|lia]. apply rnd_rep; auto; [|lia]. pose proof (pow_pos (2 * f_e F) ltac:(lia)). lia.
Qed.
Theorem C67_div_valid : forall t f, valid t -> value F f -> valid (tv_div_f F t f).
Proof. intros t f V H. apply C67_valid; auto. now apply inv_value. Qed.
(** Zero and infinite divisors; nothing panics. *)
Theorem C67_div_special : forall t s, valid t -> tv_div_f F t FNan = 0 /\ tv_div_f F t (FInf s) = 0 /\
  tv_div_f F t (FFin s 0) = if t =? 0 then 0 else sg (xorb (t <? 0) s) oo.
Proof. intros t s V. unfold tv_div_f. cbn [finv]. destruct (C67_special t V) as (A & B). split; auto. split; apply B. Qed.
Theorem C67_div_opposite : forall t f, valid t -> value F f -> tv_div_f F (- t) f = - tv_div_f F t f.
Proof. intros t f V H. apply C67_opposite; auto. now apply inv_value. Qed.
Lemma inv_sign f : match f with FNan => True | FInf s | FFin s _ => s = false end ->
  match finv F f with FNan => True | FInf s | FFin s _ => s = false end.
Proof. destruct f as [|s|s u]; cbn [finv]; auto. unfold mkfl. destruct (u =? 0); auto. destruct (_ <=? _); auto. Qed.
Lemma inv_sign_neg f : match f with FNan => True | FInf s | FFin s _ => s = true end ->
  match finv F f with FNan => True | FInf s | FFin s _ => s = true end.
Proof. destruct f as [|s|s u]; cbn [finv]; auto. unfold mkfl. destruct (u =? 0); auto. destruct (_ <=? _); auto. Qed.
(** Order is preserved by the divisors above 0, and reversed by those below 0. *)
Theorem C67_div_monotone : forall t t' f, valid t -> valid t' -> t <= t' -> value F f ->
  (below_zero (f_opp f) -> tv_div_f F t f <= tv_div_f F t' f) /\
  (below_zero f -> tv_div_f F t' f <= tv_div_f F t f).
Proof.
  intros t t' f V V' H Hf. pose proof (inv_value f Hf). split; intros B.
  - apply mono_pos; auto. apply inv_sign. destruct f as [|s|s u]; cbn in *; auto; now destruct s.
  - apply mono_neg; auto. apply inv_sign_neg. destruct f as [|s|s u]; cbn in *; auto. apply B.
Qed.
(** Powers of two: the truncated quotient *)
Theorem C67_div_pow2 : forall t j, Z.abs t <= 2 ^ p -> 0 <= j <= 23 -> tv_div_f F t (f_of F (2 ^ j)) = Z.quot t (2 ^ j).
Proof.
  intros t j Ht Hj. pose proof (format_digits F Fm) as D. fold p in D. pose proof Ok as (_ & He & Hm & _). pose proof E_pos as P.
  assert (Pj : 0 < 2 ^ j) by (apply pow_pos; lia). assert (2 ^ p <= 2 ^ 53) by (apply Z.pow_le_mono_r; lia).
  destruct (of_small (2 ^ j)) as (-> & _). { rewrite Z.abs_eq by lia. apply Z.pow_le_mono_r; lia. }
  replace (2 ^ j <? 0) with false by lia. rewrite (Z.abs_eq (2 ^ j)) by lia.
  assert (Ei : E = 2 ^ (f_e F - j) * 2 ^ j) by (apply pow_split; lia).
  assert (Pi : 0 < 2 ^ (f_e F - j)) by (apply pow_pos; lia).
  assert (Ri : rep F (2 ^ (f_e F - j))) by (apply rep_pow; auto; lia).
  unfold tv_div_f. cbn [finv]. replace (2 ^ j * E =? 0) with false by nia. unfold mkfl.
  rewrite (rnd_exact F Ok _ (2 ^ j * E) (2 ^ (f_e F - j))).
  2: nia. 2: auto. 2: { replace (2 * f_e F) with (f_e F + f_e F) by lia. rewrite Z.pow_add_r by lia. fold E. rewrite Ei at 1. ring. }
  assert (L : 2 ^ (f_e F - j) < 2 ^ (f_max F + f_e F)) by (apply Z.pow_lt_mono_r; lia).
  replace (2 ^ (f_max F + f_e F) <=? 2 ^ (f_e F - j)) with false by lia.
  rewrite C67_exact; auto.
  - unfold sg. fold E. rewrite Ei. rewrite (Z.mul_comm (2 ^ (f_e F - j)) (2 ^ j)), Z.quot_mul_cancel_r by lia.
    pose proof (Z.quot_abs t (2 ^ j) ltac:(lia)) as Q. pose proof (Z.quot_le_upper_bound (Z.abs t) (Z.abs (2 ^ j)) (2 ^ p)) as Q1.
    unfold clamp, oo. assert (Z.abs (Z.quot t (2 ^ j)) <= 2 ^ p). { rewrite <- Q. apply Q1; nia. } lia.
  - unfold valid, oo. lia.
  - split; auto.
  - apply rep_small; auto; fold p; lia.
Qed.
(** The quotient is near: the relative error is at most [2 ^ (4 - p)], plus two ticks. *)
Theorem C67_div_accuracy : forall t s u, valid t -> value F (FFin s u) -> 0 < u -> Z.abs t * 2 ^ f_e F <= 2 ^ 61 * u ->
  2 ^ (p - 4) * Z.abs (u * tv_div_f F t (FFin s u) - sg s t * 2 ^ f_e F) <= Z.abs t * 2 ^ f_e F + 2 ^ (p - 3) * u.
Proof.
  intros t s u V H U L. pose proof E_pos as P. fold E in L |- *. pose proof (format_digits F Fm) as D. fold p in D.
  pose proof Ok as (_ & He & Hm & _).
  destruct (Z.eq_dec t 0) as [->|N0].
  { replace (tv_div_f F 0 (FFin s u)) with 0.
    - rewrite Z.mul_0_r. replace (sg s 0) with 0 by (destruct s; reflexivity). rewrite Z.mul_0_l. cbn [Z.abs Z.sub Z.add Z.opp].
      rewrite Z.mul_0_l, Z.mul_0_r. pose proof (pow_pos (p - 3) ltac:(lia)). nia.
    - pose proof (C67_div_opposite 0 (FFin s u) V H) as X. change (- 0) with 0 in X. lia. }
  assert (E2 : 2 ^ (2 * f_e F) = E * E) by (replace (2 * f_e F) with (f_e F + f_e F) by lia; apply Z.pow_add_r; lia).
  unfold tv_div_f. cbn [finv]. replace (u =? 0) with false by lia. unfold mkfl. rewrite E2.
  pose proof (rnd_error F Ok (E * E) u ltac:(nia) U) as X. fold p in X.
  assert (Rv : rep F (rnd F (E * E) u)) by (apply rnd_rep; auto; nia).
  pose proof (rep_nonneg F _ Rv) as V0. set (v := rnd F (E * E) u) in *.
  (* sizes *)
  assert (P4 : 2 ^ p = 16 * 2 ^ (p - 4)) by (rewrite (pow_split p 4) by lia; lia).
  assert (P3 : 2 ^ (p - 3) = 2 * 2 ^ (p - 4)) by (rewrite (pow_split (p - 3) 1) by lia; replace (p - 3 - 1) with (p - 4) by lia; lia).
  assert (P2 : 2 ^ (p - 2) = 4 * 2 ^ (p - 4)) by (rewrite (pow_split (p - 2) 2) by lia; replace (p - 2 - 2) with (p - 4) by lia; lia).
  assert (P1 : 2 ^ (p - 1) = 8 * 2 ^ (p - 4)) by (rewrite (pow_split (p - 1) 3) by lia; replace (p - 1 - 3) with (p - 4) by lia; lia).
  assert (PE : 2 ^ 70 * 2 ^ p <= E) by (rewrite <- Z.pow_add_r by lia; apply Z.pow_le_mono_r; lia).
  set (A := 2 ^ (p - 4)) in *. assert (PA : 2 ^ 20 <= A) by (apply Z.pow_le_mono_r; lia).
  rewrite P1, P4 in *. set (n := Z.abs t) in *. assert (Hn : 1 <= n <= 2 ^ 63) by (unfold n, valid, oo in *; lia).
  assert (K : u * v <= 2 * (E * E) \/ (u * v <= 8 * A * u /\ 16 * A * Z.abs (u * v - E * E) <= 8 * A * u /\ E * E < 8 * A * u)).
  { destruct (Z_le_gt_dec (8 * A * u) (E * E)) as [G|G].
    - left. rewrite Z.max_l in X by lia. nia.
    - right. rewrite Z.max_r in X by lia. split; [|lia].
      assert (X' : 8 * A * (2 * Z.abs (u * v - E * E)) <= 8 * A * u) by lia. apply Z.mul_le_mono_pos_l in X'; [|lia].
      assert (X2 : u * (2 * v) < u * (16 * A + 1)) by lia. apply Z.mul_lt_mono_pos_l in X2; auto.
      rewrite (Z.mul_comm _ u). apply Z.mul_le_mono_nonneg_l; lia. }
  assert (Ov : v < 2 ^ (f_max F + f_e F)).
  { rewrite Z.pow_add_r by lia. fold E. assert (2 ^ 64 <= 2 ^ f_max F) by (apply Z.pow_le_mono_r; lia).
    assert (v < 2 ^ 64 * E); [|nia]. destruct K as [K|(K & _)].
    - assert (E * n <= 2 ^ 61 * u) by lia. assert (E <= 2 ^ 61 * u) by nia. assert (u * v <= 2 * (2 ^ 61 * u) * E) by nia.
      assert (v <= 2 * 2 ^ 61 * E) by nia. lia.
    - assert (v <= 8 * A) by nia. lia. }
  replace (2 ^ (f_max F + f_e F) <=? v) with false by lia.
  assert (Nv : n * v <= 2 ^ 62 * E).
  { destruct K as [K|(K & _)].
    - assert (X1 : u * v * n <= 2 * (E * E) * n) by nia. assert (X2 : 2 * E * (E * n) <= 2 * E * (2 ^ 61 * u)) by nia. nia.
    - assert (v <= 8 * A) by nia. nia. }
  pose proof (C67_accuracy t s v V ltac:(split; auto) ltac:(fold E; auto)) as Ac. fold E n in Ac. rewrite P2 in Ac.
  set (r := tv_mul_f F t (FFin s v)) in *. rewrite P3. clearbody A v r.
  assert (T : E * Z.abs (u * r - sg s t * E) <= u * Z.abs (E * r - t * sg s v) + n * Z.abs (u * v - E * E)).
  { replace (E * Z.abs (u * r - sg s t * E)) with (Z.abs (E * (u * r - sg s t * E))) by (rewrite Z.abs_mul; lia).
    replace (u * Z.abs (E * r - t * sg s v)) with (Z.abs (u * (E * r - t * sg s v))) by (rewrite Z.abs_mul; lia).
    replace (n * Z.abs (u * v - E * E)) with (Z.abs (sg s t * (u * v - E * E))).
    2: { rewrite Z.abs_mul. f_equal. unfold sg, n. destruct s; lia. }
    replace (E * (u * r - sg s t * E)) with (u * (E * r - t * sg s v) + sg s t * (u * v - E * E)) by (unfold sg; destruct s; ring). lia. }
  set (a := Z.abs (u * r - sg s t * E)) in *. set (b := Z.abs (E * r - t * sg s v)) in *. set (c := Z.abs (u * v - E * E)) in *.
  assert (Ha : 0 <= a) by (unfold a; lia). assert (Hb : 0 <= b) by (unfold b; lia). assert (Hc : 0 <= c) by (unfold c; lia).
  clearbody a b c n.
  assert (Y1 : 16 * A * (u * b) <= 4 * u * (n * v + 4 * A * E)) by nia.
  assert (Y : E * (16 * A * a) <= 4 * u * (n * v + 4 * A * E) + n * (16 * A * c)) by nia.
  assert (Q : E * (16 * A * a) <= E * (16 * (n * E + 2 * A * u))).
  { destruct K as [K|(K & K2 & K3)].
    - destruct (Z_le_gt_dec (8 * A * u) (E * E)) as [G|G].
      + rewrite Z.max_l in X by lia. assert (n * (16 * A * c) <= n * (E * E)) by nia. nia.
      + rewrite Z.max_r in X by lia. assert (n * (16 * A * c) <= n * (8 * A * u)) by nia.
        assert (n * (8 * A * u) <= E * (A * u)) by nia. nia.
    - assert (Z1 : n * (16 * A * c) <= n * (8 * A * u)) by nia. assert (Z2 : n * (8 * A * u) <= E * (A * u)) by nia.
      assert (Z3 : 4 * u * (n * v) <= 4 * n * (8 * A * u)) by nia. assert (Z4 : 4 * n * (8 * A * u) <= 4 * E * (A * u)) by nia. nia. }
  apply Z.mul_le_mono_pos_l in Q; lia.
Qed.
End C67.
