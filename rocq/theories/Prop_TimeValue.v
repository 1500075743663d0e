(** Property theorems C01-C10: time values and timestamps. *)
From Verif Require Import Machine TimeValue Convert Spec Tac TimeValueProofs.

(** * C01 — addition is exact or saturates, never wraps *)

(** What the documentation promises for [a + b]. *)
Definition sum_spec (a b r : Z) : Prop :=
  (finite a -> finite b -> finite (a + b) -> r = a + b) /\
  (finite a -> finite b -> oo <= a + b -> r = oo) /\
  (finite a -> finite b -> a + b <= - oo -> r = - oo) /\
  (a = oo \/ b = oo -> r = oo) /\
  (a = - oo \/ b = - oo -> r = - oo).

Theorem C01_add_exact_or_saturating : forall p a b, valid a -> valid b ->
  (tv_add_m p a b = Panic /\ ((a = oo /\ b = - oo) \/ (a = - oo /\ b = oo))) \/
  (exists r, tv_add_m p a b = Ret r /\ valid r /\ sum_spec a b r /\
     ~ ((a = oo /\ b = - oo) \/ (a = - oo /\ b = oo))).
Proof.
  intros p a b Va Vb. rewrite tv_add_m_ok by auto.
  destruct (tv_add a b) as [r| | |] eqn:E.
  - right. exists r. split; [auto|]. split; [eapply (tv_add_valid a b); eauto|].
    split.
    + rewrite tv_add_spec in E by auto. unfold sum_spec.
      tests_in E; inv E; pts; lia.
    + intros H. apply (proj2 (tv_add_panic_iff a b Va Vb)) in H. congruence.
  - left. split; auto. now apply tv_add_panic_iff.
  - rewrite tv_add_spec in E by auto. tests_in E; discriminate.
  - rewrite tv_add_spec in E by auto. tests_in E; discriminate.
Qed.
Print Assumptions C01_add_exact_or_saturating.
Example C01_ex : tv_add_m Debug (oo - 5) 3 = Ret (oo - 2) /\ tv_add_m Release (oo - 5) 7 = Ret oo
  /\ tv_add_m Debug (- oo) 12 = Ret (- oo) /\ tv_add_m Release oo (- oo) = Panic.
Proof. vm_compute. auto. Qed.

Theorem C01_add_commutative : forall p a b, valid a -> valid b ->
  tv_add_m p a b = tv_add_m p b a.
Proof. intros. rewrite !tv_add_m_ok by auto. now apply tv_add_comm. Qed.
Print Assumptions C01_add_commutative.

Theorem C01_add_zero : forall p a, valid a -> tv_add_m p a 0 = Ret a.
Proof. intros. rewrite tv_add_m_ok by (auto; pts; lia). now apply tv_add_0_r. Qed.
Print Assumptions C01_add_zero.

Theorem C01_add_monotone : forall p a b c x y,
  valid a -> valid b -> valid c -> a <= b ->
  tv_add_m p a c = Ret x -> tv_add_m p b c = Ret y -> x <= y.
Proof. intros p a b c x y Va Vb Vc. rewrite !tv_add_m_ok by auto. now apply tv_add_mono. Qed.
Print Assumptions C01_add_monotone.

(** [a - b] is [a + (-b)]; adding then subtracting is the identity if nothing saturates. *)
Theorem C01_sub_exact : forall a b, finite a -> finite b -> finite (a - b) ->
  tv_sub a b = Ret (a - b).
Proof. intros. rewrite tv_sub_finite by auto. f_equal. pts; lia. Qed.
Print Assumptions C01_sub_exact.

Theorem C01_add_sub_cancel : forall a b s, finite a -> finite b -> finite (a + b) ->
  tv_add a b = Ret s -> tv_sub s b = Ret a.
Proof.
  intros a b s Fa Fb Fs H. rewrite tv_add_finite in H by auto. inv H.
  rewrite clamp_id by (pts; lia). rewrite tv_sub_finite by auto. f_equal. pts; lia.
Qed.
Print Assumptions C01_add_sub_cancel.

(** Negation never overflows on a legal value and is an involution. *)
Theorem C01_neg : forall p t, valid t ->
  tv_neg_m p t = Ret (- t) /\ valid (- t) /\ (finite t <-> finite (- t)).
Proof. intros. rewrite tv_neg_m_ok by auto. unfold tv_neg. split; auto. pts; lia. Qed.
Print Assumptions C01_neg.

(** * C02 — successor and predecessor *)

Theorem C02_just_after : forall p t, valid t ->
  exists r, just_after_m p t = Ret r /\ valid r /\
    (finite t -> t < r /\ forall x, valid x -> t < x -> r <= x) /\
    (~ finite t -> r = t).
Proof.
  intros p t V. exists (just_after t). rewrite just_after_m_ok by auto.
  rewrite just_after_spec by auto. split; auto. tests; pts; intuition lia.
Qed.
Print Assumptions C02_just_after.

Theorem C02_just_before : forall p t, valid t ->
  exists r, just_before_m p t = Ret r /\ valid r /\
    (finite t -> r < t /\ forall x, valid x -> x < t -> x <= r) /\
    (~ finite t -> r = t).
Proof.
  intros p t V. exists (just_before t). rewrite just_before_m_ok by auto.
  rewrite just_before_spec by auto. split; auto. tests; pts; intuition lia.
Qed.
Print Assumptions C02_just_before.

Theorem C02_inverse : forall t, finite t ->
  (t + 1 <> oo -> just_before (just_after t) = t) /\
  (t - 1 <> - oo -> just_after (just_before t) = t).
Proof. intros t F. pts. split; intros; tests; lia. Qed.
Print Assumptions C02_inverse.
Example C02_ex : just_after_m Debug (oo - 1) = Ret oo /\ just_before_m Debug oo = Ret oo
  /\ just_after_m Debug 41 = Ret 42.
Proof. vm_compute. auto. Qed.

(** * C03 — whole-second constructors *)

(** The seven constructors, with the length of their unit in seconds as the
    documentation gives it: a year is 146097/400 days, a month a twelfth of it. *)
Definition unit_ctors : list ((Z -> Z) * Z) :=
  [ (from_secs, 1); (from_mins, 60); (from_hours, 3600); (from_days, 86400);
    (from_weeks, 604800); (from_months, 2629746); (from_years, 31556952) ].

Example C03_units : 31556952 * 400 = 146097 * 86400 /\ 2629746 * 12 = 31556952.
Proof. vm_compute. auto. Qed.

(** Full claim: [ctor n = clamp (n * u * 2^30)] for every [i64] [n].  It is proved for
    all [n] whose value is above -(2^33) seconds; it is false below (see the
    [_refuted] theorem), where the model (like the code) wraps around. *)
Theorem C03_unit_constructors_partial : forall ctor u n,
  In (ctor, u) unit_ctors -> in_i64 n = true -> -8589934591 <= n * u ->
  ctor n = clamp (n * u * ticks_per_sec) /\ valid (ctor n).
Proof.
  intros ctor u n H I L.
  assert (E : ctor n = clamp (n * u * ticks_per_sec)).
  { cbn in H. repeat destruct H as [H|H]; try (inv H; now apply from_unit_clamp); try contradiction.
    inv H. rewrite Z.mul_1_r in *. now apply from_secs_clamp. }
  split; [auto|]. rewrite E. apply clamp_valid.
Qed.
Print Assumptions C03_unit_constructors_partial.
Example C03_ex : from_days 3 = 3 * 86400 * ticks_per_sec /\ from_years 300 = oo
  /\ from_hours (-5) = -5 * 3600 * ticks_per_sec.
Proof. vm_compute. auto. Qed.

(** A very negative number of seconds gives a positive duration; -2^33 s gives the
    illegal value [i64::MIN]; same for -300 years. *)
Theorem C03_unit_constructors_refuted :
  (exists n, in_i64 n = true /\ n < 0 /\ 0 < from_secs n) /\
  (exists n, in_i64 n = true /\ ~ valid (from_secs n)) /\
  (exists n, in_i64 n = true /\ n < 0 /\ from_years n <> - oo /\ 0 < from_years n).
Proof.
  split; [exists (-8589934593)|split; [exists (-8589934592)|exists (-300)]];
    unfold valid; vm_compute; intuition congruence.
Qed.
Print Assumptions C03_unit_constructors_refuted.

(** What happens below the range, exactly: two's complement wrap around. *)
Theorem C03_below_range_wraps : forall n, n <= -8589934592 ->
  from_secs n = (n * ticks_per_sec + 2 ^ 63) mod 2 ^ 64 - 2 ^ 63.
Proof. exact from_secs_low. Qed.
Print Assumptions C03_below_range_wraps.

(** * C04 — sub-second constructors *)

Definition subsec_ctors (p : profile) : list ((Z -> outcome Z) * Z) :=
  [ (from_millis p, 1000); (from_micros p, 1000000); (from_nanos p, 1000000000) ].

(** [r] is the rational [n*2^30/u] rounded toward zero. *)
Definition rounds_to_zero (n u r : Z) : Prop :=
  (0 <= n -> r * u <= n * ticks_per_sec < (r + 1) * u) /\
  (n <= 0 -> (r - 1) * u < n * ticks_per_sec <= r * u).

(** Partial: false below - 8589934591 seconds, where the value wraps around. *)
Theorem C04_subsec_constructors_partial : forall p ctor u n,
  In (ctor, u) (subsec_ctors p) -> in_i64 n = true -> - 8589934591 * u <= n ->
  exists r, ctor n = Ret r /\ valid r /\
    (n < 8589934592 * u -> rounds_to_zero n u r) /\
    (8589934592 * u <= n -> r = oo).
Proof.
  intros p ctor u n H I L.
  assert (U : 1 < u <= 1000000000).
  { cbn in H. repeat destruct H as [H|H]; try (inv H; lia); contradiction. }
  assert (E : ctor n = from_fract p n u).
  { cbn in H. repeat destruct H as [H|H]; try (inv H; reflexivity); contradiction. }
  rewrite E, from_fract_exact by auto. eexists. split; [reflexivity|].
  destruct (quot_bounds n u) as [P N]; [lia|].
  destruct (quot_bounds (n * ticks_per_sec) u) as [P' N']; [lia|].
  rewrite MAX_SEC_val. unfold rounds_to_zero, ticks_per_sec in *.
  destruct (8589934591 <? n ÷ u) eqn:T.
  - split; [pts; lia|]. split; [|auto]. intros. nia.
  - assert (-9223372036854775807 <= n * 1073741824 ÷ u <= 9223372036854775807).
    { destruct (Z_le_gt_dec 0 n); nia. }
    split; [pts; lia|]. split.
    + intros. split; intros; nia.
    + intros. nia.
Qed.
Print Assumptions C04_subsec_constructors_partial.

(** Partial: same limit as C04_subsec_constructors_partial. *)
Theorem C04_subsec_monotone_partial : forall p ctor u n m r s,
  In (ctor, u) (subsec_ctors p) -> in_i64 n = true -> in_i64 m = true ->
  - 8589934591 * u <= n -> n <= m -> ctor n = Ret r -> ctor m = Ret s -> r <= s.
Proof.
  intros p ctor u n m r s H I J L LE R S.
  destruct (C04_subsec_constructors_partial p ctor u n H I L) as (r' & R' & V & A & B).
  destruct (C04_subsec_constructors_partial p ctor u m H J ltac:(lia)) as (s' & S' & V' & A' & B').
  assert (r' = r) by congruence. assert (s' = s) by congruence. subst.
  assert (U : 1 < u <= 1000000000).
  { cbn in H. repeat destruct H as [H|H]; try (inv H; lia); contradiction. }
  destruct (Z_lt_le_dec m (8589934592 * u)).
  - specialize (A ltac:(lia)). specialize (A' ltac:(lia)).
    unfold rounds_to_zero, ticks_per_sec in *. destruct (Z_le_gt_dec 0 n), (Z_le_gt_dec 0 m); nia.
  - specialize (B' ltac:(lia)). subst. pts; lia.
Qed.
Print Assumptions C04_subsec_monotone_partial.
Example C04_ex : from_millis Debug 1500 = Ret (ticks_per_sec + ticks_per_sec / 2) /\
  from_nanos Debug 13 = Ret 13 /\ from_nanos Debug (-1) = Ret (-1) /\
  from_nanos Release i64_max = Ret oo.
Proof. vm_compute. auto. Qed.

(** In release mode the most negative number of nanoseconds is a positive duration. *)
Theorem C04_subsec_constructors_refuted :
  exists n r, in_i64 n = true /\ n < 0 /\ from_nanos Release n = Ret r /\ 0 < r.
Proof. exists i64_min. eexists. vm_compute. intuition congruence. Qed.
Print Assumptions C04_subsec_constructors_refuted.

(** * C05 — floor and ceil *)

Definition is_floor (u t r : Z) : Prop := (exists k, r = u * k) /\ r <= t < r + u.
Definition is_ceil (u t r : Z) : Prop := (exists k, r = u * k) /\ t <= r < t + u.

Theorem C05_floor : forall p t u r, valid t -> 0 < u <= oo ->
  is_floor u t r -> valid r -> tv_floor p t u = Ret r.
Proof.
  intros p t u r V U [[k ->] B] Vr.
  assert (t / u = k) by (symmetry; apply (Z.div_unique_pos t u k (t - u * k)); lia).
  subst k. apply tv_floor_ok; auto. pts; lia.
Qed.
Print Assumptions C05_floor.

(** Full claim for [ceil]: as for [floor].  It holds for positive [t]; for [t <= 0] it
    holds iff the period does not divide [1 - t]; otherwise the result is [t - 1]. *)
Theorem C05_ceil_partial : forall p t u r, valid t -> 0 < u <= oo ->
  is_ceil u t r -> valid r -> (0 < t \/ (1 - t) mod u <> 0) -> tv_ceil p t u = Ret r.
Proof.
  intros p t u r V U [[k ->] B] Vr H.
  destruct (Z_lt_le_dec 0 t).
  - assert (- ((- t) / u) = k).
    { enough ((- t) / u = - k) by lia. symmetry.
      apply (Z.div_unique_pos (- t) u (- k) (u * k - t)); lia. }
    subst k. apply tv_ceil_pos; auto; pts; lia.
  - destruct H as [H|H]; [lia|].
    assert (Q : (1 - t) / u = - k).
    { symmetry. apply (Z.div_unique_pos (1 - t) u (- k) (1 - t + u * k)); [|lia].
      split; [lia|]. destruct (Z.eq_dec (1 - t + u * k) u) as [E|E]; [|lia].
      exfalso. apply H. replace (1 - t) with ((1 - k) * u) by lia. apply Z.mod_mul. lia. }
    rewrite tv_ceil_nonpos by (auto; rewrite ?Q; pts; lia).
    f_equal. rewrite Q. lia.
Qed.
Print Assumptions C05_ceil_partial.

Theorem C05_ceil_wrong_exactly : forall p t u, - oo <= t <= 0 -> 0 < u <= oo ->
  (1 - t) mod u = 0 -> tv_ceil p t u = Ret (t - 1).
Proof.
  intros p t u V U H. pose proof (Z.div_mod (1 - t) u ltac:(lia)) as D.
  rewrite H in D. rewrite tv_ceil_nonpos by (auto; pts; lia). f_equal. lia.
Qed.
Print Assumptions C05_ceil_wrong_exactly.

Theorem C05_ceil_refuted : exists t u r,
  valid t /\ 0 < u <= oo /\ tv_ceil Debug t u = Ret r /\ r < t.
Proof. exists (-14), 5, (-15). unfold valid, oo. vm_compute. intuition congruence. Qed.
Print Assumptions C05_ceil_refuted.
Example C05_ex : is_floor 5 (-13) (-15) /\ tv_floor Debug (-13) 5 = Ret (-15) /\
  is_ceil 5 (-13) (-10) /\ (1 - -13) mod 5 <> 0 /\ tv_ceil Debug (-13) 5 = Ret (-10) /\
  tv_ceil Debug 0 1 = Ret (-1).
Proof.
  unfold is_floor, is_ceil.
  split; [split; [exists (-3)|]; lia|]. split; [reflexivity|].
  split; [split; [exists (-2)|]; lia|]. split; [discriminate|]. split; reflexivity.
Qed.

(** * C06 — accessors *)

Theorem C06_as_secs : forall t, as_secs t * ticks_per_sec <= t < (as_secs t + 1) * ticks_per_sec.
Proof. intros. rewrite as_secs_floor. unfold ticks_per_sec. lia. Qed.
Print Assumptions C06_as_secs.

(** Fractional ticks. *)
Definition frac_ticks (t : Z) : Z := t - ticks_per_sec * as_secs t.

Lemma frac_ticks_mod t : frac_ticks t = t mod ticks_per_sec.
Proof. unfold frac_ticks. rewrite as_secs_floor. rewrite Z.mod_eq; unfold ticks_per_sec; lia. Qed.

(** never panics, in range, and within one nanosecond of the exact fraction:
    n <= frac*10^9/2^30 + 0.4657 and frac*10^9/2^30 < n + 1 *)
Theorem C06_subsec_nanos : forall p t, exists n, subsec_nanos p t = Ret n /\
  0 <= n < 1000000000 /\
  n * ticks_per_sec <= frac_ticks t * 1000000000 + 500000000 /\
  frac_ticks t * 1000000000 < (n + 1) * ticks_per_sec.
Proof.
  intros. rewrite subsec_nanos_eq. eexists. split; [reflexivity|].
  rewrite frac_ticks_mod.
  assert (H : 0 <= t mod ticks_per_sec < ticks_per_sec)
    by (apply Z.mod_pos_bound; unfold ticks_per_sec; lia).
  split; [now apply nanos_of_frac_range|]. now apply nanos_of_frac_close.
Qed.
Print Assumptions C06_subsec_nanos.

Theorem C06_subsec_micros_millis : forall p t n, subsec_nanos p t = Ret n ->
  subsec_micros p t = Ret (n / 1000) /\ 0 <= n / 1000 < 1000000 /\
  subsec_millis p t = Ret (n / 1000000) /\ 0 <= n / 1000000 < 1000.
Proof.
  intros p t n H. destruct (C06_subsec_nanos p t) as (m & E & R & _).
  assert (m = n) by congruence. subst. unfold subsec_micros, subsec_millis, omap.
  rewrite H. cbn. rewrite !Z.quot_div_nonneg by lia. repeat split; try reflexivity; lia.
Qed.
Print Assumptions C06_subsec_micros_millis.

Theorem C06_subsec_monotone : forall p t u n m, frac_ticks t <= frac_ticks u ->
  subsec_nanos p t = Ret n -> subsec_nanos p u = Ret m -> n <= m.
Proof.
  intros p t u n m L. rewrite !subsec_nanos_eq, !frac_ticks_mod in *.
  intros E F. inv E; inv F. now apply nanos_of_frac_mono.
Qed.
Print Assumptions C06_subsec_monotone.

(** Round trip through nanoseconds: exact or one nanosecond less. *)
Theorem C06_nanos_round_trip : forall p n, 0 <= n < 1000000000 ->
  exists t m, from_nanos p n = Ret t /\ subsec_nanos p t = Ret m /\ (m = n \/ m = n - 1).
Proof.
  intros p n H. unfold from_nanos. rewrite from_fract_exact; try lia.
  2:{ apply in_i64_true. lia. }
  rewrite MAX_SEC_val. rewrite (Z.quot_div_nonneg n) by lia.
  destruct (8589934591 <? n / 1000000000) eqn:E; [lia|].
  eexists. eexists. split; [reflexivity|]. rewrite subsec_nanos_eq. split; [reflexivity|].
  rewrite (Z.mod_small _ ticks_per_sec).
  - now apply nanos_round_trip.
  - rewrite Z.quot_div_nonneg by (unfold ticks_per_sec; lia). unfold ticks_per_sec. lia.
Qed.
Print Assumptions C06_nanos_round_trip.

(** It is not always exact. *)
Theorem C06_nanos_exact_round_trip_refuted : exists n t m, 0 <= n < 1000000000 /\
  from_nanos Debug n = Ret t /\ subsec_nanos Debug t = Ret m /\ m <> n.
Proof. exists 13, 13, 12. vm_compute. intuition congruence. Qed.
Print Assumptions C06_nanos_exact_round_trip_refuted.

(** * C07 — std and chrono durations *)

Theorem C07_to_chrono_floor : forall t, valid t ->
  to_chrono t * ticks_per_sec <= t * 1000000000 < (to_chrono t + 1) * ticks_per_sec /\
  in_i64 (to_chrono t) = true.
Proof.
  intros t V. unfold to_chrono, SUBSEC_BITLEN.
  rewrite Z.shiftr_div_pow2 by lia. change (2 ^ 30) with ticks_per_sec.
  assert (R : - 8589934592000000000 <= t * 1000000000 / ticks_per_sec <= 8589934592000000000)
    by (unfold ticks_per_sec; pts; lia).
  rewrite wrap64_small by lia. split; [unfold ticks_per_sec; lia|]. apply in_i64_true. lia.
Qed.
Print Assumptions C07_to_chrono_floor.

(** From chrono, in the range of time values: truncation toward zero. *)
(** Partial: false below - 8589934591 seconds, where the value wraps around. *)
Theorem C07_of_chrono_partial : forall p ns,
  - 8589934591000000000 <= ns ->
  exists r, of_chrono p ns = Ret r /\ valid r /\
    (ns < 8589934592000000000 -> rounds_to_zero ns 1000000000 r) /\
    (8589934592000000000 <= ns -> r = oo).
Proof.
  intros p ns L. unfold of_chrono. destruct (in_i64 ns) eqn:I.
  - destruct (C04_subsec_constructors_partial p (from_nanos p) 1000000000 ns) as (r & E & V & A & B);
      [cbn; auto | auto | lia |].
    exists r. split; auto.
  - exists oo. split; [reflexivity|]. unfold in_i64, i64_min, i64_max in I.
    split; [pts; lia|]. split; intros; [lia|auto].
Qed.
Print Assumptions C07_of_chrono_partial.

(** Very negative chrono durations become +oo (they should be -oo). *)
Theorem C07_of_chrono_refuted : exists ns, ns < 0 /\ of_chrono Debug ns = Ret oo.
Proof. exists (-9223372036854775809). vm_compute. auto. Qed.
Print Assumptions C07_of_chrono_refuted.

(** Round trip TimeValue -> chrono -> TimeValue loses at most two ticks, downward. *)
Theorem C07_chrono_round_trip : forall p t, - 8589934591 * ticks_per_sec <= t < oo ->
  exists r, of_chrono p (to_chrono t) = Ret r /\ t - 2 <= r <= t.
Proof.
  intros p t V.
  destruct (C07_to_chrono_floor t) as [F I]; [unfold ticks_per_sec in *; pts; lia|].
  set (ns := to_chrono t) in *. clearbody ns.
  assert (L : - 8589934591000000000 <= ns) by (unfold ticks_per_sec in *; lia).
  assert (U : ns < 8589934592000000000) by (unfold ticks_per_sec in *; pts; lia).
  destruct (C07_of_chrono_partial p ns L) as (r & E & _ & A & _).
  exists r. split; auto. specialize (A U). unfold rounds_to_zero, ticks_per_sec in *.
  destruct (Z_le_gt_dec 0 ns); lia.
Qed.
Print Assumptions C07_chrono_round_trip.

(** ... but an infinite duration does not come back infinite. *)
Theorem C07_chrono_infinite_refuted : exists r, of_chrono Debug (to_chrono oo) = Ret r /\ r <> oo.
Proof. eexists. vm_compute. intuition congruence. Qed.
Print Assumptions C07_chrono_infinite_refuted.

(** To std: panics exactly on negatives. *)
Theorem C07_to_std : forall p t, valid t ->
  (t < 0 -> to_std p t = Panic) /\
  (0 <= t -> exists s n, to_std p t = Ret (s, n) /\ 0 <= s /\ 0 <= n < 1000000000 /\
     s * ticks_per_sec <= t < (s + 1) * ticks_per_sec /\
     (* less than one nanosecond below, less than half above *)
     (s * 1000000000 + n) * ticks_per_sec <= t * 1000000000 + 500000000 /\
     t * 1000000000 < (s * 1000000000 + n + 1) * ticks_per_sec).
Proof.
  intros p t V. unfold to_std, assert_. split; intros S.
  - destruct (0 <=? t) eqn:E; [lia|reflexivity].
  - destruct (0 <=? t) eqn:E; [|lia]. cbn [bind].
    destruct (C06_subsec_nanos p t) as (n & N & R & B). rewrite N. cbn [bind].
    exists (as_secs t), n. split; [reflexivity|].
    pose proof (C06_as_secs t). unfold frac_ticks, ticks_per_sec in *. lia.
Qed.
Print Assumptions C07_to_std.

(** From std: exact truncation up to 2^31-1 seconds; beyond, infinite. *)
Theorem C07_of_std_partial : forall p s ns, 0 <= s -> 0 <= ns < 1000000000 ->
  (s <= 2147483647 -> exists r, of_std p s ns = Ret r /\ finite r /\
      rounds_to_zero (s * 1000000000 + ns) 1000000000 r) /\
  (2147483647 < s -> of_std p s ns = Ret oo).
Proof.
  intros p s ns S N. unfold of_std, i32_max. split; intros L.
  - destruct (2147483647 <? s) eqn:E; [lia|].
    rewrite !shl30, !wrap64_small by (unfold ticks_per_sec; lia).
    rewrite div64_pos by lia. cbn [bind].
    rewrite Z.quot_div_nonneg by (unfold ticks_per_sec; lia).
    unfold add64. eexists. rewrite chk64_ok by (unfold ticks_per_sec; lia).
    split; [reflexivity|]. unfold rounds_to_zero, ticks_per_sec; pts; lia.
  - destruct (2147483647 <? s) eqn:E; [reflexivity|lia].
Qed.
Print Assumptions C07_of_std_partial.

(** The documented range goes to about 2^33 seconds, but a standard duration of
    2^31 seconds (68 years; so also any date after January 2038 given by the
    system clock) is already infinite. *)
Theorem C07_of_std_refuted : exists s, 0 <= s < 8589934591 /\
  finite (s * ticks_per_sec) /\ of_std Debug s 0 = Ret oo.
Proof. exists 2147483648. unfold finite, oo. vm_compute. intuition congruence. Qed.
Print Assumptions C07_of_std_refuted.
Example C07_ex : to_std Debug 1610612736 = Ret (1, 500000000) /\ of_std Debug 1 500000000 = Ret 1610612736
  /\ to_chrono (-1) = -1 /\ of_chrono Debug (-1) = Ret (-1).
Proof. vm_compute. auto. Qed.

(** Date-times: converting any legal timestamp to a chrono date-time never panics, and
    coming back loses at most one nanosecond's worth of ticks. *)
Theorem C07_to_datetime_total : forall p t, valid t ->
  exists n, ts_to_datetime p t = Ret (as_secs t, n) /\ 0 <= n < 1000000000.
Proof.
  intros p t V. unfold ts_to_datetime.
  destruct (C06_subsec_nanos p t) as (n & N & R & B). rewrite N. cbn [bind].
  exists n. pose proof (C06_as_secs t). unfold ticks_per_sec, chrono_max_secs in *. pts.
  destruct ((n <? 2000000000) && (0 <=? n) && (Z.abs (as_secs t) <=? 8000000000000)) eqn:E;
    [auto|lia].
Qed.
Print Assumptions C07_to_datetime_total.

Theorem C07_datetime_round_trip : forall p t s n, - 8589934591 * ticks_per_sec <= t < oo ->
  ts_to_datetime p t = Ret (s, n) ->
  exists r, ts_of_datetime p s n = Ret r /\ t - 2 <= r <= t + 1.
Proof.
  intros p t s n V H.
  destruct (C07_to_datetime_total p t) as (n' & H' & R); [unfold ticks_per_sec in *; pts; lia|].
  rewrite H' in H. inv H.
  unfold ts_to_datetime in H'. destruct (C06_subsec_nanos p t) as (m & N & R2 & B).
  rewrite N in H'. cbn [bind] in H'. tests_in H'; inv H'.
  pose proof (C06_as_secs t) as S.
  set (s := as_secs t) in *. unfold frac_ticks in B. fold s in B.
  unfold ts_of_datetime.
  rewrite in_i64_true by (unfold ticks_per_sec in *; pts; lia).
  destruct (C04_subsec_constructors_partial p (from_nanos p) 1000000000 (s * 1000000000 + n))
    as (r & E & _ & A & _).
  { cbn; auto. } { apply in_i64_true. unfold ticks_per_sec in *; pts; lia. }
  { unfold ticks_per_sec in *; pts; lia. }
  exists r. split; auto. specialize (A ltac:(unfold ticks_per_sec in *; pts; lia)).
  unfold rounds_to_zero, ticks_per_sec in *. clearbody s. clear E N V R T.
  destruct (Z_le_gt_dec 0 (s * 1000000000 + n)); lia.
Qed.
Print Assumptions C07_datetime_round_trip.
Example C07_datetime_ex : ts_to_datetime Debug (-1) = Ret (-1, 999999999)
  /\ ts_of_datetime Debug (-1) 999999999 = Ret (-1).
Proof. vm_compute. auto. Qed.

(** * C08 — truncation to a unit *)

(** The multiple of [u] nearest to [t] on the zero side. *)
Definition is_trunc (u t r : Z) : Prop :=
  (exists k, r = u * k) /\ (0 <= t -> r <= t < r + u /\ 0 <= r) /\
  (t <= 0 -> r - u < t <= r /\ r <= 0).

Definition unit_truncs (p : profile) : list ((Z -> outcome Z) * Z) :=
  [ (tv_years p, 31556952 * ticks_per_sec); (tv_weeks p, 604800 * ticks_per_sec);
    (tv_days p, 86400 * ticks_per_sec); (tv_hours p, 3600 * ticks_per_sec);
    (tv_mins p, 60 * ticks_per_sec); (tv_millis p, 1073741); (tv_micros p, 1073);
    (tv_nanos p, 1) ].

Lemma unit_truncs_def p f u : In (f, u) (unit_truncs p) ->
  0 < u <= oo /\ forall t, f t = trunc_unit p t u.
Proof.
  cbn. intros H.
  repeat destruct H as [H|H]; try contradiction; inv H; (split; [vm_compute; intuition congruence|]);
    intros; try reflexivity; unfold tv_millis, tv_micros, tv_nanos, from_millis, from_micros, from_nanos;
    rewrite from_fract_exact by (try lia; reflexivity); reflexivity.
Qed.

(** Holds for non-negative durations, and for negative ones unless the unit divides
    [1 - t] (then the result is [t - 1], see C05). *)
Theorem C08_trunc_partial : forall p f u t, In (f, u) (unit_truncs p) -> valid t ->
  (0 <= t \/ (1 - t) mod u <> 0) ->
  exists r, f t = Ret r /\ is_trunc u t r.
Proof.
  intros p f u t H V C. destruct (unit_truncs_def p f u H) as [U E]. rewrite E.
  unfold trunc_unit, is_strictly_negative. destruct (t <? 0) eqn:S.
  - destruct C as [C|C]; [lia|].
    set (r := u * (- ((- t) / u))).
    assert (IC : is_ceil u t r).
    { split; [exists (- ((- t) / u)); reflexivity|]. unfold r.
      pose proof (Z.div_mod (- t) u). pose proof (Z.mod_pos_bound (- t) u). lia. }
    assert (0 <= (- t) / u) by (apply Z.div_pos; lia).
    assert (R0 : r <= 0) by (unfold r; nia).
    exists r. split.
    + apply (C05_ceil_partial p t u r); auto. unfold is_ceil in IC. pts; lia.
    + destruct IC as [K B]. split; auto. lia.
  - set (r := u * (t / u)).
    assert (IF : is_floor u t r).
    { split; [exists (t / u); reflexivity|]. unfold r.
      pose proof (Z.div_mod t u). pose proof (Z.mod_pos_bound t u). lia. }
    assert (0 <= t / u) by (apply Z.div_pos; lia).
    assert (R0 : 0 <= r) by (unfold r; nia).
    exists r. split.
    + apply (C05_floor p t u r); auto. unfold is_floor in IF. pts; lia.
    + destruct IF as [K B]. split; auto. lia.
Qed.
Print Assumptions C08_trunc_partial.

(** [secs] truncates downward (floor), also for negative durations. *)
Theorem C08_secs : forall t, is_floor ticks_per_sec t (tv_secs t).
Proof.
  intros t. unfold tv_secs.
  assert (E : Z.land t (Z.lnot SUBSEC_BITMASK) = t - t mod ticks_per_sec).
  { rewrite <- land_mask. rewrite <- Z.ldiff_land.
    enough (Z.ldiff t SUBSEC_BITMASK + Z.land t SUBSEC_BITMASK = t) by lia.
    rewrite Z.add_nocarry_lxor.
    - apply Z.bits_inj'. intros n Hn. rewrite Z.lxor_spec, Z.ldiff_spec, Z.land_spec.
      destruct (Z.testbit t n), (Z.testbit SUBSEC_BITMASK n); reflexivity.
    - apply Z.bits_inj'. intros n Hn. rewrite Z.land_spec, Z.ldiff_spec, Z.land_spec, Z.bits_0.
      destruct (Z.testbit t n), (Z.testbit SUBSEC_BITMASK n); reflexivity. }
  rewrite E. unfold is_floor. split.
  - exists (t / ticks_per_sec). unfold ticks_per_sec. lia.
  - unfold ticks_per_sec. lia.
Qed.
Print Assumptions C08_secs.

(** [months] truncates to years; negative durations may be moved away from zero; a whole
    second is not a whole number of "milliseconds". *)
Theorem C08_trunc_refuted :
  (exists t, valid t /\ 0 <= t /\ (exists k, t = k * from_months 1) /\ tv_months Debug t <> Ret t) /\
  (exists t r, valid t /\ t < 0 /\ tv_nanos Debug t = Ret r /\ r < t) /\
  (exists t r, t = from_secs 1 /\ tv_millis Debug t = Ret r /\ r <> t).
Proof.
  split; [|split].
  - exists (from_months 1). unfold valid, oo.
    split; [vm_compute; intuition congruence|]. split; [vm_compute; congruence|].
    split; [exists 1; reflexivity|]. vm_compute; congruence.
  - exists (-5), (-6). unfold valid, oo. vm_compute. intuition congruence.
  - eexists. eexists. split; [reflexivity|]. vm_compute. intuition congruence.
Qed.
Print Assumptions C08_trunc_refuted.

(** What [months] truncates to is a whole number of years, with the limits of [C08_trunc_partial]. *)
Theorem C08_months_partial : forall p t, valid t ->
  (0 <= t \/ (1 - t) mod (31556952 * ticks_per_sec) <> 0) ->
  exists r, tv_months p t = Ret r /\ is_trunc (31556952 * ticks_per_sec) t r.
Proof.
  intros p t V C. change (tv_months p t) with (tv_years p t).
  apply (C08_trunc_partial p (tv_years p) (31556952 * ticks_per_sec)); auto. simpl. auto.
Qed.
Print Assumptions C08_months_partial.
Example C08_months_case : tv_months Debug (40000000 * ticks_per_sec) = Ret (31556952 * ticks_per_sec) /\
  tv_months Debug (-40000000 * ticks_per_sec) = Ret (-31556952 * ticks_per_sec).
Proof. vm_compute. auto. Qed.
Example C08_ex : tv_hours Debug (3700 * ticks_per_sec) = Ret (3600 * ticks_per_sec) /\
  tv_hours Debug (-3700 * ticks_per_sec) = Ret (-3600 * ticks_per_sec) /\ tv_secs (-1) = - ticks_per_sec.
Proof. vm_compute. auto. Qed.

(** Integers of any width are clamped to [i64], hence keep their value or saturate. *)
Theorem C08_integer_clamp : forall x,
  clamp_i128 x = Z.max i64_min (Z.min i64_max x) /\
  (0 <= x -> clamp_unsigned_big x = Z.min i64_max x).
Proof.
  intros x. unfold clamp_i128, clamp_unsigned_big, i64_min, i64_max.
  split; intros; tests; lia.
Qed.
Print Assumptions C08_integer_clamp.

(** * C09 — timestamps and durations *)

Theorem C09_torsor : forall t u d e,
  finite t -> finite u -> finite d -> finite e ->
  (finite (t + d) -> exists s, ts_add_tv t d = Ret s /\ s = t + d /\ ts_sub_ts s t = Ret d /\
                     ts_sub_tv s d = Ret t /\ tv_add_ts d t = Ret s) /\
  (finite (u - t) -> exists x, ts_sub_ts u t = Ret x /\ ts_add_tv t x = Ret u /\
                     ts_sub_ts t u = Ret (- x)) /\
  (finite (t + d) -> finite (d + e) -> exists s x, ts_add_tv t d = Ret s /\ tv_add d e = Ret x /\
                     ts_add_tv s e = ts_add_tv t x) /\
  (finite (d - t) -> tv_sub_ts d t = Ret (d - t)).
Proof.
  intros t u d e Ft Fu Fd Fe. unfold ts_add_tv, ts_sub_ts, ts_sub_tv, tv_add_ts, tv_sub_ts, ts_neg.
  unfold ts_add_tv.
  repeat split; intros.
  - exists (t + d). rewrite tv_add_finite, clamp_id by (auto; pts; lia).
    rewrite !tv_sub_finite by auto.
    repeat split; f_equal; pts; lia.
  - exists (u - t). rewrite !tv_sub_finite by auto. rewrite clamp_id by (pts; lia).
    rewrite tv_add_finite by auto. repeat split; f_equal; pts; lia.
  - exists (t + d), (d + e). rewrite !(tv_add_finite t d), !(tv_add_finite d e), !clamp_id by (auto; pts; lia).
    repeat split; auto. rewrite !tv_add_finite by auto. f_equal. pts; lia.
  - rewrite tv_add_finite by (auto; pts; lia). f_equal. pts; lia.
Qed.
Print Assumptions C09_torsor.

Theorem C09_translation_order : forall t u d a b, finite t -> finite u -> finite d ->
  finite (t + d) -> finite (u + d) ->
  ts_add_tv t d = Ret a -> ts_add_tv u d = Ret b -> (t < u <-> a < b) /\ (t = u <-> a = b).
Proof.
  intros t u d a b Ft Fu Fd F1 F2. unfold ts_add_tv. rewrite !tv_add_finite by auto.
  intros A B; inv A; inv B. pts; lia.
Qed.
Print Assumptions C09_translation_order.
Example C09_ex : ts_add_tv 1000 (-300) = Ret 700 /\ ts_sub_ts 700 1000 = Ret (-300)
  /\ tv_sub_ts 5 1000 = Ret (-995).
Proof. vm_compute. auto. Qed.

(** * C10 — sums *)

Theorem C10_sum_exact : forall l, Forall finite l -> Forall finite (partial_sums 0 l) ->
  tv_sum l = Ret (fold_right Z.add 0 l).
Proof.
  intros l F P. unfold tv_sum. rewrite tv_sum_acc; auto; [|pts; lia].
  f_equal. symmetry. rewrite <- fold_left_rev_right.
  rewrite <- (rev_involutive l) at 1.
  assert (G : forall l, fold_right Z.add 0 (rev l) = fold_right Z.add 0 l).
  { clear. induction l; cbn; auto. rewrite fold_right_app. cbn.
    rewrite <- IHl. clear IHl. generalize (rev l). intros m.
    induction m; cbn; lia. }
  rewrite !G. rewrite <- (G l). clear. induction (rev l); cbn; lia.
Qed.
Print Assumptions C10_sum_exact.

(** A list of finite durations never panics (it may saturate). *)
Theorem C10_sum_no_panic : forall l, Forall finite l -> exists r, tv_sum l = Ret r /\ valid r.
Proof. intros. apply tv_sum_finite_no_panic; auto. pts; lia. Qed.
Print Assumptions C10_sum_no_panic.

(** Non-negative durations, possibly infinite: the clamped exact total, in any order. *)
Theorem C10_sum_nonneg : forall l, Forall (fun x => 0 <= x <= oo) l ->
  tv_sum l = Ret (clamp (fold_left Z.add l 0)).
Proof.
  intros l F. unfold tv_sum. rewrite tv_sum_nonneg; auto; [|pts; lia]. f_equal.
  assert (G : forall l a, Forall (fun x => 0 <= x <= oo) l -> a <= fold_left Z.add l a).
  { clear. induction l; cbn; intros; [lia|]. inv H. specialize (IHl (a0 + a) H3). lia. }
  specialize (G l 0 F). pts; lia.
Qed.
Print Assumptions C10_sum_nonneg.
Example C10_ex : Forall finite [oo - 1; -5; 3] /\ Forall finite (partial_sums 0 [oo - 1; -5; 3])
  /\ tv_sum [oo - 1; -5; 3] = Ret (oo - 3) /\ tv_sum [oo; - oo] = Panic.
Proof.
  split; [|split; [|split; reflexivity]].
  - repeat constructor.
  - repeat constructor.
Qed.
