(** Proofs about the rounding of [Float]. *)
From Verif Require Import Machine TimeValue Spec Tac TimeValueProofs Interval Iter TimeSet Scaling Float SpecSets SpecScale.

(** ** Nearest integer *)

Lemma rne_near a d : 0 < d -> 2 * a - d <= 2 * (d * rne a d) <= 2 * a + d.
Proof.
  intros Hd. unfold rne. pose proof (Z.div_mod a d ltac:(lia)) as E. pose proof (Z.mod_pos_bound a d Hd).
  set (q := a / d) in *. set (r := a mod d) in *. tests; lia.
Qed.
Lemma rne_lo a d m : 0 < d -> m * d <= a -> m <= rne a d.
Proof.
  intros Hd H. assert (m <= a / d) by (apply Z.div_le_lower_bound; lia). unfold rne. tests; lia.
Qed.
Lemma rne_hi a d m : 0 < d -> a <= m * d -> rne a d <= m.
Proof.
  intros Hd H. unfold rne. pose proof (Z.div_mod a d ltac:(lia)) as E. pose proof (Z.mod_pos_bound a d Hd).
  set (q := a / d) in *. set (r := a mod d) in *.
  assert (q < m \/ q = m \/ m < q) as [X|[X|X]] by lia.
  - tests; lia.
  - assert (r = 0) by nia. tests; lia.
  - exfalso. nia.
Qed.
Lemma rne_mono a a' d : 0 < d -> a <= a' -> rne a d <= rne a' d.
Proof.
  intros Hd H. pose proof (Z.div_le_mono a a' d Hd H) as Q.
  pose proof (Z.div_mod a d ltac:(lia)) as E. pose proof (Z.mod_pos_bound a d Hd).
  pose proof (Z.div_mod a' d ltac:(lia)) as E'. pose proof (Z.mod_pos_bound a' d Hd).
  unfold rne. set (q := a / d) in *. set (r := a mod d) in *. set (q' := a' / d) in *. set (r' := a' mod d) in *.
  destruct (Z.eq_dec q q') as [<-|N].
  - assert (r <= r') by nia. tests; lia.
  - tests; lia.
Qed.

(** ** Numbers of a format *)

Definition ok_fmt (F : fmt) : Prop := 2 <= f_prec F < 63 /\ 64 <= f_e F /\ 64 <= f_max F /\ f_prec F <= f_e F.

Lemma pow_pos k : 0 <= k -> 0 < 2 ^ k.
Proof. intros. apply Z.pow_pos_nonneg; lia. Qed.
Lemma pow_split a b : 0 <= b <= a -> 2 ^ a = 2 ^ (a - b) * 2 ^ b.
Proof. intros. rewrite <- Z.pow_add_r by lia. f_equal. lia. Qed.

Section Fmt.
Variable F : fmt.
Hypothesis Ok : ok_fmt F.
Let p := f_prec F.
Lemma p_pos : 2 <= p.
Proof. unfold p. apply Ok. Qed.

Lemma rnd_k a b : 0 <= a -> 0 < b -> exists k, 0 <= k /\ rnd F a b = rne a (b * 2 ^ k) * 2 ^ k /\
  a < b * 2 ^ (p + k) /\ (k = 0 \/ b * 2 ^ (p + k - 1) <= a).
Proof.
  intros Ha Hb. pose proof p_pos as P. pose proof (Z.div_pos a b Ha Hb) as Q.
  pose proof (Z.div_mod a b ltac:(lia)) as E. pose proof (Z.mod_pos_bound a b Hb).
  exists (Z.max 0 (Z.log2 (a / b) + 1 - p)). split; [lia|]. split; [reflexivity|].
  destruct (Z.eq_dec (a / b) 0) as [E0|N0].
  - rewrite E0. change (Z.log2 0) with 0. rewrite Z.max_l by lia. split; [|auto].
    pose proof (pow_pos (p + 0) ltac:(lia)). nia.
  - destruct (Z.log2_spec (a / b)) as (L1 & L2); [lia|]. pose proof (Z.log2_nonneg (a / b)) as L0.
    set (q := a / b) in *. set (g := Z.log2 q) in *.
    assert (X : a < b * 2 ^ (Z.succ g)) by nia.
    assert (Y : b * 2 ^ g <= a) by nia.
    destruct (Z_le_gt_dec (g + 1) p) as [G|G].
    + rewrite Z.max_l by lia. split; [|auto]. eapply Z.lt_le_trans; [exact X|].
      apply Z.mul_le_mono_nonneg_l; [lia|]. apply Z.pow_le_mono_r; lia.
    + rewrite Z.max_r by lia. replace (p + (g + 1 - p)) with (Z.succ g) by lia.
      split; auto. right. replace (Z.succ g - 1) with g by lia. auto.
Qed.


Lemma rep_pow k : 0 <= k -> rep F (2 ^ k).
Proof.
  intros Hk. pose proof p_pos. exists 1, k. split; [|lia]. split; [lia|].
  fold p. apply Z.pow_gt_1; lia.
Qed.
Lemma rep_0 : rep F 0.
Proof. pose proof p_pos. exists 0, 0. split; [|lia]. split; [lia|]. apply pow_pos. fold p. lia. Qed.
Lemma rep_nonneg v : rep F v -> 0 <= v.
Proof. intros (m & j & Hm & Hj & ->). pose proof (pow_pos j Hj). nia. Qed.
(** Integers of at most [p] digits, the bound included, in units of [2 ^ j] *)
Lemma rep_small m j : 0 <= m <= 2 ^ p -> 0 <= j -> rep F (m * 2 ^ j).
Proof.
  intros Hm Hj. pose proof p_pos. destruct (Z.eq_dec m (2 ^ p)) as [->|N].
  - rewrite <- Z.pow_add_r by lia. apply rep_pow. lia.
  - exists m, j. fold p. split; [lia|auto].
Qed.

Lemma rnd_rep a b : 0 <= a -> 0 < b -> rep F (rnd F a b).
Proof.
  intros Ha Hb. destruct (rnd_k a b Ha Hb) as (k & Hk & -> & H1 & _). pose proof p_pos. pose proof (pow_pos k Hk).
  apply rep_small; auto. split.
  - apply rne_lo; nia.
  - apply rne_hi; [nia|]. rewrite Z.pow_add_r in H1 by lia. nia.
Qed.
Lemma rnd_lo a b v : 0 <= a -> 0 < b -> rep F v -> v * b <= a -> v <= rnd F a b.
Proof.
  intros Ha Hb (m & j & Hm & Hj & ->) H. destruct (rnd_k a b Ha Hb) as (k & Hk & -> & H1 & H2).
  pose proof p_pos. pose proof (pow_pos k Hk) as Pk. pose proof (pow_pos j Hj) as Pj. fold p in Hm.
  destruct (Z_le_gt_dec k j) as [G|G].
  - rewrite (pow_split j k) in H |- * by lia. rewrite Z.mul_assoc. apply Z.mul_le_mono_nonneg_r; [lia|].
    apply rne_lo; [nia|]. nia.
  - destruct H2 as [H2|H2]; [lia|].
    assert (X : 2 ^ (p - 1) <= rne a (b * 2 ^ k)).
    { apply rne_lo; [nia|]. replace (p + k - 1) with ((p - 1) + k) in H2 by lia. rewrite Z.pow_add_r in H2 by lia. nia. }
    assert (Y : m * 2 ^ j <= 2 ^ (p - 1) * 2 ^ k).
    { rewrite <- Z.pow_add_r by lia. replace (p - 1 + k) with (p + (k - 1)) by lia. rewrite Z.pow_add_r by lia.
      pose proof (Z.pow_le_mono_r 2 j (k - 1)). nia. }
    nia.
Qed.
Lemma rnd_hi a b v : 0 <= a -> 0 < b -> rep F v -> a <= v * b -> rnd F a b <= v.
Proof.
  intros Ha Hb (m & j & Hm & Hj & ->) H. destruct (rnd_k a b Ha Hb) as (k & Hk & -> & H1 & H2).
  pose proof p_pos. pose proof (pow_pos k Hk) as Pk. pose proof (pow_pos j Hj) as Pj. fold p in Hm.
  destruct (Z_le_gt_dec k j) as [G|G].
  - rewrite (pow_split j k) in H |- * by lia. rewrite Z.mul_assoc. apply Z.mul_le_mono_nonneg_r; [lia|].
    apply rne_hi; [nia|]. nia.
  - exfalso. destruct H2 as [H2|H2]; [lia|].
    assert (Y : m * 2 ^ j < 2 ^ (p + k - 1)).
    { replace (p + k - 1) with (p + (k - 1)) by lia. rewrite Z.pow_add_r by lia.
      pose proof (Z.pow_le_mono_r 2 j (k - 1)). nia. }
    nia.
Qed.
Lemma rnd_exact a b v : 0 < b -> rep F v -> a = v * b -> rnd F a b = v.
Proof.
  intros Hb R ->. pose proof (rep_nonneg v R). apply Z.le_antisymm; [apply rnd_hi|apply rnd_lo]; auto; nia.
Qed.
Lemma rnd_nonneg a b : 0 <= a -> 0 < b -> 0 <= rnd F a b.
Proof. intros. apply rep_nonneg. now apply rnd_rep. Qed.

Lemma rnd_mono a a' b : 0 <= a -> 0 < b -> a <= a' -> rnd F a b <= rnd F a' b.
Proof.
  intros Ha Hb H. destruct (rnd_k a b Ha Hb) as (k & Hk & E & H1 & H2).
  destruct (rnd_k a' b) as (k' & Hk' & E' & H1' & H2'); [lia|auto|]. pose proof p_pos.
  pose proof (pow_pos k Hk). pose proof (pow_pos k' Hk').
  destruct (Z.eq_dec k k') as [->|N].
  - rewrite E, E'. apply Z.mul_le_mono_nonneg_r; [lia|]. apply rne_mono; auto. nia.
  - destruct (Z_lt_le_dec k k') as [G|G].
    + transitivity (2 ^ (p + k)).
      * apply rnd_hi; auto; [apply rep_pow; lia|lia].
      * apply rnd_lo; auto; [lia|apply rep_pow; lia|]. destruct H2' as [H2'|H2']; [lia|].
        pose proof (Z.pow_le_mono_r 2 (p + k) (p + k' - 1)). nia.
    + exfalso. destruct H2 as [H2|H2]; [lia|]. pose proof (Z.pow_le_mono_r 2 (p + k') (p + k - 1)). nia.
Qed.

(** The error is at most half a unit in the last place. *)
Lemma rnd_error a b : 0 <= a -> 0 < b -> 2 ^ p * Z.abs (b * rnd F a b - a) <= Z.max a (b * 2 ^ (p - 1)).
Proof.
  intros Ha Hb. destruct (rnd_k a b Ha Hb) as (k & Hk & -> & H1 & H2). pose proof p_pos. pose proof (pow_pos k Hk).
  pose proof (rne_near a (b * 2 ^ k) ltac:(nia)) as N. set (n := rne a (b * 2 ^ k)) in *.
  assert (E : 2 * Z.abs (b * (n * 2 ^ k) - a) <= b * 2 ^ k) by nia.
  rewrite (pow_split p 1) by lia. change (2 ^ 1) with 2. pose proof (pow_pos (p - 1) ltac:(lia)).
  destruct H2 as [->|H2].
  - rewrite Z.pow_0_r in *. nia.
  - replace (p + k - 1) with (p - 1 + k) in H2 by lia. rewrite Z.pow_add_r in H2 by lia. nia.
Qed.
(** No number of the format is nearer. *)
Lemma rnd_nearest a b v : 0 <= a -> 0 < b -> rep F v -> Z.abs (b * rnd F a b - a) <= Z.abs (b * v - a).
Proof.
  intros Ha Hb R. pose proof (rnd_lo a b v Ha Hb R) as L. pose proof (rnd_hi a b v Ha Hb R) as U.
  destruct (rnd_k a b Ha Hb) as (k & Hk & E & H1 & H2). rewrite E in *. pose proof p_pos. pose proof (pow_pos k Hk) as Pk.
  pose proof (rne_near a (b * 2 ^ k) ltac:(nia)) as N. set (n := rne a (b * 2 ^ k)) in *.
  (* multiples of 2 ^ k *)
  assert (M : forall m, Z.abs (b * (n * 2 ^ k) - a) <= Z.abs (b * (m * 2 ^ k) - a)).
  { intros m. assert (m < n \/ m = n \/ n < m) as [G|[->|G]] by lia; [|lia|].
    - assert (b * (m * 2 ^ k) <= b * (n * 2 ^ k) - b * 2 ^ k) by nia. nia.
    - assert (b * (n * 2 ^ k) + b * 2 ^ k <= b * (m * 2 ^ k)) by nia. nia. }
  destruct R as (m & j & Hm & Hj & ->). fold p in Hm. destruct (Z_le_gt_dec k j) as [G|G].
  - rewrite (pow_split j k) by lia. rewrite (Z.mul_assoc m). apply M.
  - destruct H2 as [H2|H2]; [lia|].
    assert (Y : m * 2 ^ j <= 2 ^ (p + k - 1)).
    { replace (p + k - 1) with (p + (k - 1)) by lia. rewrite Z.pow_add_r by lia.
      pose proof (Z.pow_le_mono_r 2 j (k - 1)). nia. }
    specialize (M (2 ^ (p - 1))). rewrite <- Z.pow_add_r in M by lia. replace (p - 1 + k) with (p + k - 1) in M by lia. nia.
Qed.
End Fmt.

(** ** Scaling of a duration *)

Lemma ok_f32 : ok_fmt f32.
Proof. unfold ok_fmt, f32; simpl. lia. Qed.
Lemma ok_f64 : ok_fmt f64.
Proof. unfold ok_fmt, f64; simpl. lia. Qed.

(** [n * u] units where [n >= 0] is first rounded, in ticks *)
Definition mag (F : fmt) (n u : Z) : Z := rnd F (rnd F (n * 2 ^ f_e F) 1 * u) (2 ^ f_e F) / 2 ^ f_e F.

Section Mul.
Variable F : fmt.
Hypothesis Ok : ok_fmt F.
Let e := f_e F.
Lemma e_pos : 64 <= e.
Proof. unfold e. apply Ok. Qed.
Lemma pe : 0 < 2 ^ e.
Proof. apply pow_pos. pose proof e_pos. lia. Qed.

Lemma rnd_int n : 0 <= n <= 2 ^ 63 -> 0 <= rnd F (n * 2 ^ e) 1 <= 2 ^ (63 + e).
Proof.
  intros Hn. pose proof pe. pose proof e_pos. split; [apply rnd_nonneg; auto; nia|].
  apply rnd_hi; auto; try nia.
  - apply rep_pow; auto. lia.
  - rewrite Z.pow_add_r, Z.mul_1_r by lia. apply Z.mul_le_mono_nonneg_r; lia.
Qed.
Lemma rnd_oo : rnd F (oo * 2 ^ e) 1 = 2 ^ (63 + e).
Proof.
  pose proof pe. pose proof e_pos. pose proof Ok as (P & _). apply Z.le_antisymm; [apply rnd_int; unfold oo; lia|].
  destruct (rnd_k F Ok (oo * 2 ^ e) 1) as (k & Hk & E & H1 & H2); [unfold oo; nia|lia|].
  rewrite Z.mul_1_l in *. set (p := f_prec F) in *.
  assert (Ek : p + k = 63 + e).
  { assert (A : 2 ^ (62 + e) < 2 ^ (p + k)).
    { rewrite (Z.pow_add_r 2 62) by lia. eapply Z.le_lt_trans; [|exact H1]. unfold oo. nia. }
    apply Z.pow_lt_mono_r_iff in A; try lia.
    destruct H2 as [->|H2]; [lia|].
    assert (B : 2 ^ (p + k - 1) < 2 ^ (63 + e)).
    { rewrite (Z.pow_add_r 2 63) by lia. eapply Z.le_lt_trans; [exact H2|]. unfold oo. nia. }
    apply Z.pow_lt_mono_r_iff in B; lia. }
  rewrite E. assert (X : 2 ^ p <= rne (oo * 2 ^ e) (2 ^ k)).
  { assert (K : 2 ^ (63 + e) - 2 ^ e = oo * 2 ^ e) by (rewrite Z.pow_add_r by lia; unfold oo; lia).
    rewrite <- Ek, Z.pow_add_r in K by lia. pose proof (pow_pos k Hk).
    pose proof (rne_near (oo * 2 ^ e) (2 ^ k) ltac:(lia)) as N. set (n := rne (oo * 2 ^ e) (2 ^ k)) in *.
    assert (2 * 2 ^ e <= 2 ^ k). { rewrite <- (Z.pow_succ_r 2 e) by lia. apply Z.pow_le_mono_r; lia. }
    assert (2 * (2 ^ p * 2 ^ k) - 2 * 2 ^ k <= 2 * (n * 2 ^ k)) by nia.
    destruct (Z.eq_dec n (2 ^ p - 1)) as [En|]; [|nia].
    exfalso. revert En. unfold n, rne.
    replace (oo * 2 ^ e) with ((2 ^ p - 1) * 2 ^ k + (2 ^ k - 2 ^ e)) by nia.
    assert (R : 0 <= 2 ^ k - 2 ^ e < 2 ^ k) by lia.
    rewrite Z.div_add_l by lia. rewrite Z.div_small by lia. rewrite Z.add_comm, Z.mod_add by lia. rewrite Z.mod_small by lia.
    assert (Ev : Z.even (2 ^ p - 1 + 0) = false).
    { rewrite Z.add_0_r, Z.even_sub, Z.even_pow by lia. reflexivity. }
    rewrite Ev. tests; lia. }
  rewrite <- Ek, Z.pow_add_r by lia. pose proof (pow_pos k Hk). nia.
Qed.

Lemma f_of_valid t : valid t -> f_of F t = FFin (t <? 0) (rnd F (Z.abs t * 2 ^ e) 1).
Proof.
  intros V. unfold f_of, mkfl. fold e. pose proof (rnd_int (Z.abs t)) as B. pose proof e_pos. pose proof Ok as (_ & _ & M & _).
  assert (2 ^ (63 + e) < 2 ^ (f_max F + e)) by (apply Z.pow_lt_mono_r; lia).
  replace (2 ^ (f_max F + e) <=? rnd F (Z.abs t * 2 ^ e) 1) with false; auto.
  symmetry. apply Z.leb_gt. unfold valid, oo in V. lia.
Qed.
Lemma f_of_oo : f_of F INF = FFin false (2 ^ (63 + e)) /\ f_of F (- INF) = FFin true (2 ^ (63 + e)).
Proof.
  change INF with oo. rewrite !f_of_valid by (unfold valid, oo; lia). rewrite Z.abs_opp.
  change (Z.abs oo) with oo. rewrite rnd_oo. auto.
Qed.

Lemma mag_nonneg n u : 0 <= n -> 0 <= u -> 0 <= mag F n u.
Proof.
  intros Hn Hu. pose proof pe as P. unfold mag. fold e. apply Z.div_pos; auto. apply rnd_nonneg; auto.
  apply Z.mul_nonneg_nonneg; auto. apply rnd_nonneg; auto; nia.
Qed.
Lemma div_pow r : 0 <= r -> (r <= 2 ^ (63 + e) -> r / 2 ^ e <= 2 ^ 63) /\ (2 ^ (63 + e) <= r -> 2 ^ 63 <= r / 2 ^ e).
Proof.
  intros Hr. pose proof pe. pose proof e_pos. rewrite Z.pow_add_r by lia. split; intros H1.
  - apply Z.div_le_upper_bound; lia.
  - apply Z.div_le_lower_bound; lia.
Qed.
Theorem mul_fin t s u : valid t -> 0 <= u ->
  tv_mul_f F t (FFin s u) = sg (xorb (t <? 0) s) (Z.min oo (mag F (Z.abs t) u)).
Proof.
  intros V Hu. unfold tv_mul_f. rewrite (f_of_valid t V). destruct f_of_oo as (-> & ->). cbn [fmul].
  unfold mkfl, mag. fold e. pose proof pe. pose proof e_pos. pose proof (rnd_int (Z.abs t)) as B.
  set (r1 := rnd F (Z.abs t * 2 ^ e) 1) in *.
  assert (R : 0 <= rnd F (r1 * u) (2 ^ e)) by (apply rnd_nonneg; auto; unfold valid, oo in V; nia).
  set (r := rnd F (r1 * u) (2 ^ e)) in *. destruct (div_pow r R) as (D1 & D2).
  assert (Q : 0 <= r / 2 ^ e) by (apply Z.div_pos; lia).
  pose proof (Z.pow_lt_mono_r 2 (63 + e) (f_max F + e) ltac:(lia)) as L. pose proof Ok as (_ & _ & M & _).
  set (w := xorb (t <? 0) s). set (K := 2 ^ (63 + e)) in *. assert (Pk : 0 < K) by (apply pow_pos; lia). set (q := r / 2 ^ e) in *.
  destruct (2 ^ (f_max F + e) <=? r) eqn:T.
  - cbn [f_lt]. assert (2 ^ 63 <= q) by lia. rewrite Z.min_l by (unfold oo; lia). destruct w; reflexivity.
  - cbn [f_lt f_to_i64]. fold e. fold q. unfold sg, sat64, from_ticks, tv_neg, INF, i64_max, i64_min, oo in *.
    destruct w; tests; lia.
Qed.
Theorem mul_inf t s : valid t -> tv_mul_f F t (FInf s) = if t =? 0 then 0 else sg (xorb (t <? 0) s) oo.
Proof.
  intros V. unfold tv_mul_f. rewrite (f_of_valid t V). destruct f_of_oo as (-> & ->). cbn [fmul].
  pose proof pe. pose proof e_pos.
  assert (Z0 : rnd F (Z.abs t * 2 ^ e) 1 = 0 <-> t = 0).
  { split.
    - intros E. destruct (Z.eq_dec t 0); auto.
      pose proof (rnd_lo F Ok (Z.abs t * 2 ^ e) 1 (2 ^ e)) as X. rewrite E in X.
      pose proof (rep_pow F Ok e ltac:(lia)). specialize (X ltac:(nia) ltac:(lia)). specialize (X ltac:(auto) ltac:(nia)). lia.
    - intros ->. cbn [Z.abs]. rewrite Z.mul_0_l. apply rnd_exact; auto; [lia|apply rep_0; auto]. }
  destruct (rnd F (Z.abs t * 2 ^ e) 1 =? 0) eqn:T.
  - replace (t =? 0) with true by lia. cbn [f_lt f_to_i64]. reflexivity.
  - replace (t =? 0) with false by lia. cbn [f_lt]. rewrite xorb_comm. destruct (xorb (t <? 0) s); reflexivity.
Qed.
Theorem mul_nan t : tv_mul_f F t FNan = 0.
Proof. unfold tv_mul_f. destruct f_of_oo as (-> & ->). unfold f_of, mkfl. destruct (_ <=? _); reflexivity. Qed.

Lemma mag_mono n n' u u' : 0 <= n <= n' -> 0 <= u <= u' -> mag F n u <= mag F n' u'.
Proof.
  intros Hn Hu. pose proof pe. unfold mag. fold e. apply Z.div_le_mono; auto.
  assert (A : 0 <= rnd F (n * 2 ^ e) 1) by (apply rnd_nonneg; auto; nia).
  assert (B : rnd F (n * 2 ^ e) 1 <= rnd F (n' * 2 ^ e) 1) by (apply rnd_mono; auto; nia).
  apply rnd_mono; auto; nia.
Qed.
Lemma mag_0 u : mag F 0 u = 0.
Proof.
  pose proof pe. unfold mag. fold e. rewrite Z.mul_0_l.
  rewrite (rnd_exact F Ok 0 1 0) by (try apply rep_0; auto; lia).
  rewrite Z.mul_0_l, (rnd_exact F Ok 0 (2 ^ e) 0) by (try apply rep_0; auto; lia). apply Z.div_0_l. lia.
Qed.
(** The value when nothing is rounded *)
Lemma mag_exact n u : 0 <= n -> 0 <= u -> rep F (n * 2 ^ e) -> rep F (n * u) -> mag F n u = n * u / 2 ^ e.
Proof.
  intros Hn Hu R1 R2. pose proof pe. unfold mag. fold e.
  rewrite (rnd_exact F Ok (n * 2 ^ e) 1 (n * 2 ^ e)) by (auto; lia).
  rewrite (rnd_exact F Ok (n * 2 ^ e * u) (2 ^ e) (n * u)) by (auto; lia). auto.
Qed.
End Mul.
