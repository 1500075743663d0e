(** Proofs about [TimeValue.v] and [Convert.v]. *)
From Verif Require Import Machine TimeValue Convert Spec Tac.

(** ** The pure and machine versions agree on legal values *)
Lemma INF_oo : INF = oo. Proof. reflexivity. Qed.

Lemma wrap64_small z : - 2 ^ 63 <= z < 2 ^ 63 -> wrap64 z = z.
Proof. unfold wrap64; intros; rewrite Z.mod_small; lia. Qed.

Lemma wrap64_range z : - 2 ^ 63 <= wrap64 z < 2 ^ 63.
Proof. unfold wrap64. pose proof (Z.mod_pos_bound (z + 2 ^ 63) (2 ^ 64)). lia. Qed.

Lemma is_past_infinite_m_ok p t : valid t -> is_past_infinite_m p t = Ret (is_past_infinite t).
Proof.
  intros V. unfold is_past_infinite_m, is_past_infinite. mach; pts.
  destruct p; cbn; tests; cbn; try reflexivity; lia.
Qed.

Lemma is_finite_m_ok p t : valid t -> is_finite_m p t = Ret (is_finite t).
Proof.
  intros V. unfold is_finite_m, is_finite. mach; pts.
  tests; cbn; try reflexivity; lia.
Qed.

Lemma just_after_m_ok p t : valid t -> just_after_m p t = Ret (just_after t).
Proof.
  intros V. unfold just_after_m. rewrite is_finite_m_ok by auto. cbn.
  unfold just_after. destruct (is_finite t) eqn:E; auto.
  mach; pts. tests; try reflexivity; lia.
Qed.

Lemma just_before_m_ok p t : valid t -> just_before_m p t = Ret (just_before t).
Proof.
  intros V. unfold just_before_m. rewrite is_finite_m_ok by auto. cbn.
  unfold just_before. destruct (is_finite t) eqn:E; auto.
  mach; pts. tests; try reflexivity; lia.
Qed.

Lemma tv_neg_m_ok p t : valid t -> tv_neg_m p t = Ret (tv_neg t).
Proof.
  intros V. unfold tv_neg_m, tv_neg. mach; pts. tests; try reflexivity; lia.
Qed.

Lemma tv_add_m_ok p a b : valid a -> valid b -> tv_add_m p a b = tv_add a b.
Proof.
  intros Va Vb. unfold tv_add_m, tv_add.
  rewrite !is_past_infinite_m_ok, is_finite_m_ok by auto. cbn. reflexivity.
Qed.

(** ** Addition *)
Lemma tv_add_spec a b : valid a -> valid b ->
  tv_add a b =
    if ((a =? oo) && (b =? -oo)) || ((a =? -oo) && (b =? oo)) then Panic
    else if (a =? oo) || (b =? oo) then Ret oo
    else if (a =? -oo) || (b =? -oo) then Ret (- oo)
    else Ret (clamp (a + b)).
Proof.
  intros Va Vb. unfold tv_add. mach; pts.
  tests; try reflexivity; try (f_equal; lia); try lia.
Qed.

Lemma tv_add_finite a b : finite a -> finite b -> tv_add a b = Ret (clamp (a + b)).
Proof.
  intros Va Vb. unfold tv_add. mach; pts. tests; try (f_equal; lia); lia.
Qed.

Lemma clamp_valid z : valid (clamp z).
Proof. pts. lia. Qed.

Lemma clamp_id z : valid z -> clamp z = z.
Proof. pts. lia. Qed.

Lemma tv_add_valid a b c : valid a -> valid b -> tv_add a b = Ret c -> valid c.
Proof.
  intros Va Vb. rewrite tv_add_spec by auto.
  tests; intros H; inv H; auto using clamp_valid; pts; lia.
Qed.

Lemma tv_add_panic_iff a b : valid a -> valid b ->
  (tv_add a b = Panic <-> (a = oo /\ b = - oo) \/ (a = - oo /\ b = oo)).
Proof.
  intros Va Vb. rewrite tv_add_spec by auto.
  split; intros H.
  - tests_in H; try discriminate; pts; lia.
  - replace (((a =? oo) && (b =? -oo)) || ((a =? -oo) && (b =? oo))) with true; auto.
    pts; lia.
Qed.

Lemma tv_add_comm a b : valid a -> valid b -> tv_add a b = tv_add b a.
Proof.
  intros Va Vb. rewrite !tv_add_spec by auto. rewrite (Z.add_comm b a).
  tests; try reflexivity; pts; lia.
Qed.

Lemma tv_add_0_r a : valid a -> tv_add a 0 = Ret a.
Proof.
  intros Va. rewrite tv_add_spec by (auto; pts; lia).
  rewrite Z.add_0_r. tests; try (f_equal; pts; lia); pts; lia.
Qed.

Lemma tv_add_mono a b c x y : valid a -> valid b -> valid c -> a <= b ->
  tv_add a c = Ret x -> tv_add b c = Ret y -> x <= y.
Proof.
  intros Va Vb Vc L. rewrite !tv_add_spec by auto.
  intros H1 H2. tests_in H1; try discriminate; inv H1; tests_in H2; try discriminate;
    inv H2; pts; lia.
Qed.

Lemma tv_neg_valid a : valid a -> valid (tv_neg a).
Proof. pts; lia. Qed.

Lemma tv_sub_finite a b : finite a -> finite b -> tv_sub a b = Ret (clamp (a - b)).
Proof.
  intros. unfold tv_sub. rewrite tv_add_finite by (auto; pts; lia). f_equal.
Qed.

Lemma tv_add_shift a d : valid a -> finite d -> tv_add a d = Ret (shift a d).
Proof.
  intros Va Fd. rewrite tv_add_spec by (auto; pts; lia). unfold shift.
  destruct (a =? oo) eqn:E1; [|destruct (a =? - oo) eqn:E2];
    replace (d =? - oo) with false by (pts; lia); replace (d =? oo) with false by (pts; lia);
    rewrite ?E2, ?Bool.andb_false_r; cbn; try reflexivity.
Qed.
Lemma tv_sub_shift a d : valid a -> finite d -> tv_sub a d = Ret (shift a (- d)).
Proof. intros. unfold tv_sub. rewrite tv_add_shift; auto. pts; lia. Qed.

(** ** Successor, predecessor *)
Lemma just_after_spec t : valid t ->
  just_after t = if (t =? oo) || (t =? - oo) then t else t + 1.
Proof. intros. pts. tests; lia. Qed.
Lemma just_before_spec t : valid t ->
  just_before t = if (t =? oo) || (t =? - oo) then t else t - 1.
Proof. intros. pts. tests; lia. Qed.

(** ** Sums *)
Fixpoint partial_sums (acc : Z) (l : list Z) : list Z :=
  match l with [] => [] | x :: r => (acc + x) :: partial_sums (acc + x) r end.

Lemma tv_sum_acc l : forall acc, finite acc -> Forall finite l ->
  Forall finite (partial_sums acc l) ->
  ofold tv_add acc l = Ret (fold_left Z.add l acc).
Proof.
  induction l as [|x r IH]; cbn; intros acc Ha Hl Hp; auto.
  inv Hl; inv Hp. rewrite tv_add_finite by auto. cbn.
  rewrite clamp_id by (pts; lia). apply IH; auto.
Qed.

Lemma tv_sum_finite_no_panic l : forall acc, valid acc -> Forall finite l ->
  exists r, ofold tv_add acc l = Ret r /\ valid r.
Proof.
  induction l as [|x r IH]; cbn; intros acc Ha Hl; eauto.
  inv Hl. destruct (tv_add acc x) eqn:E.
  - cbn. apply IH; auto. apply (tv_add_valid acc x); auto. pts; lia.
  - exfalso. apply tv_add_panic_iff in E; auto; pts; lia.
  - rewrite tv_add_spec in E by (auto; pts; lia). tests_in E; discriminate.
  - rewrite tv_add_spec in E by (auto; pts; lia). tests_in E; discriminate.
Qed.

Lemma tv_sum_nonneg l : forall acc, 0 <= acc <= oo -> Forall (fun x => 0 <= x <= oo) l ->
  ofold tv_add acc l = Ret (Z.min oo (fold_left Z.add l acc)).
Proof.
  induction l as [|x r IH]; cbn; intros acc Ha Hl.
  - f_equal. lia.
  - inv Hl. rewrite tv_add_spec by (pts; lia).
    assert (G : forall l a, Forall (fun x => 0 <= x <= oo) l -> a <= fold_left Z.add l a).
    { clear. induction l; cbn; intros; [lia|]. inv H. specialize (IHl (a0 + a) H3). lia. }
    assert (E : tv_add acc x = Ret (Z.min oo (acc + x))).
    { rewrite tv_add_spec by (pts; lia). tests; try (pts; lia); f_equal; pts; lia. }
    rewrite <- tv_add_spec by (pts; lia). rewrite E. cbn [bind].
    rewrite IH by (auto; lia). f_equal.
    destruct (Z_le_gt_dec (acc + x) oo).
    + rewrite (Z.min_r oo (acc + x)) by lia. reflexivity.
    + rewrite (Z.min_l oo (acc + x)) by lia.
      pose proof (G r oo H2). pose proof (G r (acc + x) H2).
      assert (M : forall l a b, a <= b -> fold_left Z.add l a <= fold_left Z.add l b).
      { clear. induction l; cbn; intros; [lia|]. apply IHl. lia. }
      lia.
Qed.

(** ** Constructors *)
Lemma MAX_SEC_val : MAX_SEC = 8589934591. Proof. reflexivity. Qed.
Lemma MASK_val : SUBSEC_BITMASK = 1073741823. Proof. reflexivity. Qed.

Lemma shl30 x : shl64 x SUBSEC_BITLEN = wrap64 (x * ticks_per_sec).
Proof.
  unfold shl64, SUBSEC_BITLEN, ticks_per_sec.
  now rewrite Z.shiftl_mul_pow2 by lia.
Qed.

Lemma from_secs_exact n : -8589934592 <= n <= MAX_SEC -> from_secs n = n * ticks_per_sec.
Proof.
  rewrite MAX_SEC_val. intros H. unfold from_secs. rewrite MAX_SEC_val.
  destruct (8589934591 <? n) eqn:E; [lia|].
  rewrite shl30. apply wrap64_small. unfold ticks_per_sec. lia.
Qed.

Lemma from_secs_above n : MAX_SEC < n -> from_secs n = oo.
Proof. unfold from_secs. intros. destruct (MAX_SEC <? n) eqn:E; [reflexivity|lia]. Qed.

(** clamped exact value for every number of seconds not below -(2^33-1) *)
Lemma from_secs_clamp n : -8589934591 <= n -> from_secs n = clamp (n * ticks_per_sec).
Proof.
  intros L. destruct (Z_le_gt_dec n MAX_SEC) as [H|H].
  - rewrite from_secs_exact by lia. rewrite MAX_SEC_val in H.
    unfold ticks_per_sec. pts. lia.
  - rewrite from_secs_above by lia. rewrite MAX_SEC_val in H.
    unfold ticks_per_sec. pts. lia.
Qed.

Lemma from_secs_low n : n <= -8589934592 -> from_secs n = wrap64 (n * ticks_per_sec).
Proof.
  intros. unfold from_secs. rewrite MAX_SEC_val.
  destruct (8589934591 <? n) eqn:E; [lia|]. apply shl30.
Qed.

Lemma from_unit_clamp u n : 0 < u -> in_i64 n = true -> -8589934591 <= n * u ->
  from_secs (sat64 (n * u)) = clamp (n * u * ticks_per_sec).
Proof.
  intros U I L. unfold in_i64, sat64, i64_min, i64_max in *.
  destruct (Z_le_gt_dec (n * u) 9223372036854775807).
  - replace (Z.max _ _) with (n * u) by lia. apply from_secs_clamp; auto.
  - replace (Z.max _ _) with 9223372036854775807 by lia.
    rewrite from_secs_above by (rewrite MAX_SEC_val; lia).
    unfold ticks_per_sec. pts. lia.
Qed.

Lemma quot_bounds a b : 0 < b ->
  (0 <= a -> 0 <= Z.quot a b /\ b * Z.quot a b <= a < b * Z.quot a b + b) /\
  (a <= 0 -> Z.quot a b <= 0 /\ b * Z.quot a b - b < a <= b * Z.quot a b).
Proof.
  intros B. split; intros A.
  - pose proof (Z.quot_rem' a b). pose proof (Z.rem_bound_pos a b).
    pose proof (Z.quot_pos a b). lia.
  - assert (Q : Z.quot a b = - ((- a) / b)).
    { rewrite <- (Z.opp_involutive a) at 1. rewrite Z.quot_opp_l by lia.
      now rewrite Z.quot_div_nonneg by lia. }
    rewrite Q. pose proof (Z.div_mod (- a) b). pose proof (Z.mod_pos_bound (- a) b).
    pose proof (Z.div_pos (- a) b). generalize dependent ((- a) / b).
    generalize dependent ((- a) mod b). intros. lia.
Qed.

Lemma from_fract_exact p t u : 1 < u <= 1000000000 -> in_i64 t = true ->
  - 8589934591 * u <= t ->
  from_fract p t u =
    Ret (if MAX_SEC <? Z.quot t u then oo else Z.quot (t * ticks_per_sec) u).
Proof.
  intros U I L. unfold from_fract.
  assert (Hi : -9223372036854775808 <= t <= 9223372036854775807).
  { unfold in_i64, i64_min, i64_max in I. lia. }
  assert (D : div64 t u = Ret (Z.quot t u)).
  { unfold div64. destruct ((u =? 0) || ((t =? i64_min) && (u =? -1))) eqn:E; [lia|auto]. }
  rewrite D. cbn [bind].
  destruct (quot_bounds t u) as [QP QN]; [lia|].
  set (q := Z.quot t u) in *.
  assert (Hm : mul64 p q u = Ret (q * u)).
  { unfold mul64, chk64, in_i64, i64_min, i64_max.
    destruct ((-9223372036854775808 <=? q * u) && (q * u <=? 9223372036854775807)) eqn:E; auto.
    nia. }
  rewrite Hm. cbn [bind].
  assert (Hs : sub64 p t (q * u) = Ret (t - q * u)).
  { unfold sub64, chk64, in_i64, i64_min, i64_max.
    destruct ((-9223372036854775808 <=? t - q * u) && (t - q * u <=? 9223372036854775807)) eqn:E; auto.
    nia. }
  rewrite Hs. cbn [bind].
  destruct (MAX_SEC <? q) eqn:EM; [reflexivity|].
  rewrite MAX_SEC_val in EM.
  set (f := t - q * u).
  assert (Hf : - u < f < u) by (unfold f; destruct (Z_le_gt_dec 0 t); nia).
  rewrite !shl30. rewrite (wrap64_small (f * ticks_per_sec)) by (unfold ticks_per_sec; nia).
  assert (Hq : -8589934591 <= q <= 8589934591).
  { split; [|lia]. destruct (Z_le_gt_dec 0 t); [lia|]. nia. }
  rewrite (wrap64_small (q * ticks_per_sec)) by (unfold ticks_per_sec; lia).
  assert (Dv : div64 (f * ticks_per_sec) u = Ret (Z.quot (f * ticks_per_sec) u)).
  { unfold div64. destruct ((u =? 0) || ((f * ticks_per_sec =? i64_min) && (u =? -1))) eqn:E; [lia|auto]. }
  rewrite Dv. cbn [bind].
  assert (Hv : q * ticks_per_sec + Z.quot (f * ticks_per_sec) u = Z.quot (t * ticks_per_sec) u).
  { replace (t * ticks_per_sec) with (f * ticks_per_sec + (q * ticks_per_sec) * u) by (unfold f; ring).
    rewrite Z.quot_add; [lia|lia|].
    unfold f. destruct (Z_le_gt_dec 0 t).
    - apply Z.mul_nonneg_nonneg; unfold ticks_per_sec; nia.
    - assert (t - q * u <= 0) by nia. assert (q <= 0) by nia. unfold ticks_per_sec; nia. }
  destruct (quot_bounds (f * ticks_per_sec) u) as [P1 P2]; [lia|].
  unfold add64, chk64, in_i64, i64_min, i64_max. rewrite Hv.
  match goal with |- (if ?b then _ else _) = _ => destruct b eqn:E end; auto.
  exfalso. rewrite <- Hv in E. unfold ticks_per_sec in *.
  destruct (Z_le_gt_dec 0 f); nia.
Qed.

(** ** Seconds and sub-seconds *)
Lemma as_secs_floor t : as_secs t = t / ticks_per_sec.
Proof. unfold as_secs, shr64, SUBSEC_BITLEN, ticks_per_sec. now rewrite Z.shiftr_div_pow2 by lia. Qed.

Lemma land_mask t : Z.land t SUBSEC_BITMASK = t mod ticks_per_sec.
Proof.
  rewrite MASK_val. change 1073741823 with (Z.ones 30).
  rewrite Z.land_ones by lia. reflexivity.
Qed.

Definition nanos_of_frac (m : Z) : Z := (m * 10000000000 + 5000000000) / ticks_per_sec / 10.

Lemma nanos_of_frac_range m : 0 <= m < ticks_per_sec -> 0 <= nanos_of_frac m < 1000000000.
Proof. unfold nanos_of_frac, ticks_per_sec. intros. lia. Qed.

Lemma subsec_nanos_eq p t : subsec_nanos p t = Ret (nanos_of_frac (t mod ticks_per_sec)).
Proof.
  unfold subsec_nanos. rewrite land_mask.
  assert (H : 0 <= t mod ticks_per_sec < ticks_per_sec)
    by (apply Z.mod_pos_bound; unfold ticks_per_sec; lia).
  pose proof (nanos_of_frac_range _ H) as R.
  set (m := t mod ticks_per_sec) in *. clearbody m.
  unfold mulus, addus, chkus, usize_max.
  replace ((0 <=? m * 10000000000) && (m * 10000000000 <=? 18446744073709551615)) with true
    by (unfold ticks_per_sec in *; lia).
  cbn [bind].
  replace ((0 <=? m * 10000000000 + 5000000000) && (m * 10000000000 + 5000000000 <=? 18446744073709551615))
    with true by (unfold ticks_per_sec in *; lia).
  cbn [bind]. f_equal.
  unfold SUBSEC_BITLEN. rewrite Z.shiftr_div_pow2 by lia.
  fold ticks_per_sec. change (2 ^ 30) with ticks_per_sec. fold (nanos_of_frac m).
  unfold wrap32. rewrite Z.mod_small; lia.
Qed.

Lemma nanos_of_frac_mono m1 m2 : m1 <= m2 -> nanos_of_frac m1 <= nanos_of_frac m2.
Proof.
  intros. unfold nanos_of_frac, ticks_per_sec.
  apply Z.div_le_mono; [lia|]. apply Z.div_le_mono; lia.
Qed.

(** exact value of the fraction in ns is m*10^9/2^30 *)
Lemma nanos_of_frac_close m : 0 <= m < ticks_per_sec ->
  (nanos_of_frac m) * ticks_per_sec <= m * 1000000000 + 500000000 /\
  m * 1000000000 < (nanos_of_frac m + 1) * ticks_per_sec.
Proof. unfold nanos_of_frac, ticks_per_sec. intros. lia. Qed.

Lemma nanos_round_trip n : 0 <= n < 1000000000 ->
  let back := nanos_of_frac (Z.quot (n * ticks_per_sec) 1000000000) in
  back = n \/ back = n - 1.
Proof.
  intros H. cbv zeta. rewrite Z.quot_div_nonneg by (unfold ticks_per_sec; lia).
  unfold nanos_of_frac, ticks_per_sec. lia.
Qed.

(** ** floor and ceil *)
Lemma in_i64_true z : - 2 ^ 63 <= z < 2 ^ 63 -> in_i64 z = true.
Proof. unfold in_i64, i64_min, i64_max. lia. Qed.

Lemma chk64_ok p z : - 2 ^ 63 <= z < 2 ^ 63 -> chk64 p z = Ret z.
Proof. intros. unfold chk64. now rewrite in_i64_true. Qed.

Lemma div64_pos x y : 0 < y -> div64 x y = Ret (Z.quot x y).
Proof.
  intros. unfold div64.
  destruct ((y =? 0) || ((x =? i64_min) && (y =? -1))) eqn:E; [lia|auto].
Qed.

Lemma quot_nonneg_div a b : 0 <= a -> 0 < b -> Z.quot a b = a / b.
Proof. intros. apply Z.quot_div_nonneg; lia. Qed.
Lemma quot_nonpos_div a b : a <= 0 -> 0 < b -> Z.quot a b = - ((- a) / b).
Proof.
  intros. rewrite <- (Z.opp_involutive a) at 1. rewrite Z.quot_opp_l by lia.
  now rewrite Z.quot_div_nonneg by lia.
Qed.

Lemma tv_floor_ok p t u : valid t -> 0 < u <= oo ->
  - 2 ^ 63 <= u * (t / u) -> tv_floor p t u = Ret (u * (t / u)).
Proof.
  intros V U L. unfold tv_floor. pts.
  destruct (0 <=? t) eqn:E.
  - rewrite div64_pos by lia. cbn [bind]. rewrite quot_nonneg_div by lia.
    unfold mul64. rewrite Z.mul_comm. apply chk64_ok.
    pose proof (Z.mul_div_le t u). lia.
  - unfold add64 at 1. rewrite chk64_ok by lia. cbn [bind].
    rewrite div64_pos by lia. cbn [bind].
    rewrite quot_nonpos_div by lia.
    assert (Q : - ((- (t + 1)) / u) - 1 = t / u).
    { replace (- (t + 1)) with (- t - 1) by lia.
      pose proof (Z.div_mod t u). pose proof (Z.mod_pos_bound t u).
      apply (Z.div_unique_pos t u _ (u - 1 - ((- t - 1) mod u))).
      - pose proof (Z.mod_pos_bound (- t - 1) u). lia.
      - pose proof (Z.div_mod (- t - 1) u). lia. }
    unfold sub64. rewrite chk64_ok.
    + cbn [bind]. rewrite Q. unfold mul64. rewrite Z.mul_comm. apply chk64_ok.
      pose proof (Z.mul_div_le t u). lia.
    + rewrite Q. pose proof (Z.mul_div_le t u). pose proof (Z.div_mod t u).
      pose proof (Z.mod_pos_bound t u). nia.
Qed.

(** upward rounding [- ((- t) / u) * u] *)
Lemma tv_ceil_pos p t u : 0 < t <= oo -> 0 < u <= oo ->
  u * (- ((- t) / u)) < 2 ^ 63 -> tv_ceil p t u = Ret (u * (- ((- t) / u))).
Proof.
  intros V U L. unfold tv_ceil. pts.
  destruct (0 <? t) eqn:E; [|lia].
  unfold sub64. rewrite chk64_ok by lia. cbn [bind].
  rewrite div64_pos by lia. cbn [bind]. rewrite quot_nonneg_div by lia.
  assert (Q : (t - 1) / u + 1 = - ((- t) / u)).
  { symmetry. enough ((- t) / u = - ((t - 1) / u) - 1) by lia.
    symmetry. apply (Z.div_unique_pos _ u _ (u - 1 - ((t - 1) mod u))).
    - pose proof (Z.mod_pos_bound (t - 1) u). lia.
    - pose proof (Z.div_mod (t - 1) u). lia. }
  unfold add64. rewrite Q. rewrite chk64_ok.
  - cbn [bind]. unfold mul64. rewrite Z.mul_comm. apply chk64_ok.
    pose proof (Z.mul_div_le (- t) u). lia.
  - pose proof (Z.mul_div_le (- t) u). pose proof (Z.div_mod (- t) u).
    pose proof (Z.mod_pos_bound (- t) u). nia.
Qed.

Lemma tv_ceil_nonpos p t u : - oo <= t <= 0 -> 0 < u <= oo ->
  - 2 ^ 63 <= u * (- ((1 - t) / u)) ->
  tv_ceil p t u = Ret (u * (- ((1 - t) / u))).
Proof.
  intros V U L. unfold tv_ceil. pts.
  destruct (0 <? t) eqn:E; [lia|].
  unfold sub64. rewrite chk64_ok by lia. cbn [bind].
  rewrite div64_pos by lia. cbn [bind]. rewrite quot_nonpos_div by lia.
  replace (- (t - 1)) with (1 - t) by lia.
  unfold mul64. rewrite Z.mul_comm. apply chk64_ok.
  assert (0 <= (1 - t) / u) by (apply Z.div_pos; lia). nia.
Qed.
