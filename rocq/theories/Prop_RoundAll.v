(** C05, C08: rounding for every period (null, negative, or with a multiple out of range). *)
From Verif Require Import Machine TimeValue Spec Tac TimeValueProofs Convert Prop_TimeValue.

Lemma div64_any x y : y <> 0 -> (x = - 2 ^ 63 -> y <> -1) -> div64 x y = Ret (Z.quot x y).
Proof. intros N H. unfold div64, i64_min. destruct (_ || _) eqn:E; auto. exfalso. change (- 2 ^ 63) with (-9223372036854775808) in H. lia. Qed.
Lemma quot_sign a u : u <> 0 -> Z.quot a u = Z.sgn u * Z.quot a (Z.abs u).
Proof.
  intros N. destruct (Z_lt_le_dec 0 u) as [P|P].
  - rewrite Z.abs_eq, Z.sgn_pos by lia. lia.
  - rewrite Z.abs_neq, Z.sgn_neg, Z.quot_opp_r by lia. lia.
Qed.
Lemma floor_of u t : 0 < u -> is_floor u t (u * (t / u)).
Proof. intros U. split; [eauto|]. pose proof (Z.div_mod t u). pose proof (Z.mod_pos_bound t u). lia. Qed.
Lemma floor_unique u t r r' : 0 < u -> is_floor u t r -> is_floor u t r' -> r = r'.
Proof. intros U [[k ->] B] [[k' ->] B']. assert (k = k') by nia. now subst. Qed.
Lemma ceil_unique u t r r' : 0 < u -> is_ceil u t r -> is_ceil u t r' -> r = r'.
Proof. intros U [[k ->] B] [[k' ->] B']. assert (k = k') by nia. now subst. Qed.
Lemma chk_low r : - 2 ^ 64 <= r < - 2 ^ 63 -> chk64 Debug r = Panic /\ chk64 Release r = Ret (r + 2 ^ 64).
Proof.
  intros B. unfold chk64. replace (in_i64 r) with false by (unfold in_i64, i64_min, i64_max; lia). split; auto.
  f_equal. unfold wrap64. rewrite (Z.mod_eq _ (2 ^ 64)) by lia.
  replace ((r + 2 ^ 63) / 2 ^ 64) with (-1); [lia|]. apply Z.div_unique with (r + 2 ^ 63 + 2 ^ 64); lia.
Qed.
Lemma chk_high r : 2 ^ 63 <= r < 2 ^ 64 -> chk64 Debug r = Panic /\ chk64 Release r = Ret (r - 2 ^ 64).
Proof.
  intros B. unfold chk64. replace (in_i64 r) with false by (unfold in_i64, i64_min, i64_max; lia). split; auto.
  f_equal. unfold wrap64. rewrite (Z.mod_eq _ (2 ^ 64)) by lia.
  replace ((r + 2 ^ 63) / 2 ^ 64) with 1; [lia|]. apply Z.div_unique with (r + 2 ^ 63 - 2 ^ 64); lia.
Qed.

(** [floor] for every period: it panics for 0; for a positive one it is right unless the multiple is out of
    range; for a negative one it is right for [t >= 0] and two periods too high for [t < 0]. *)
Theorem C05_floor_exactly : forall p t u r, valid t -> valid u ->
  (u = 0 -> tv_floor p t u = Panic) /\
  (0 < u -> is_floor u t r ->
     (- 2 ^ 63 <= r -> tv_floor p t u = Ret r) /\
     (r < - 2 ^ 63 -> tv_floor Debug t u = Panic /\ tv_floor Release t u = Ret (r + 2 ^ 64))) /\
  (u < 0 -> is_floor (- u) t r -> tv_floor p t u = Ret (if 0 <=? t then r else r - 2 * u)).
Proof.
  intros p t u r V U. split; [|split].
  - intros ->. unfold tv_floor, div64. cbn [Z.eqb orb bind]. destruct (0 <=? t) eqn:T; auto.
    unfold add64. rewrite chk64_ok by (unfold valid, oo in V; lia). reflexivity.
  - intros P H. assert (r = u * (t / u)) as -> by (apply (floor_unique u t); auto using floor_of). split; intros B.
    + apply tv_floor_ok; auto. unfold valid in U. lia.
    + unfold tv_floor. destruct (floor_of u t P) as [_ [B1 B2]]. unfold valid, oo in V, U.
      assert (t < 0) by (destruct (Z_lt_le_dec t 0); auto; pose proof (Z.div_pos t u ltac:(lia) P); exfalso; nia).
      replace (0 <=? t) with false by lia.
      unfold add64. rewrite !chk64_ok by lia. cbn [bind]. rewrite div64_pos by lia. cbn [bind].
      rewrite quot_nonpos_div by lia.
      assert (Q : - ((- (t + 1)) / u) - 1 = t / u).
      { replace (- (t + 1)) with (- t - 1) by lia.
        pose proof (Z.div_mod t u). pose proof (Z.mod_pos_bound t u).
        apply (Z.div_unique_pos t u _ (u - 1 - ((- t - 1) mod u))).
        - pose proof (Z.mod_pos_bound (- t - 1) u). lia.
        - pose proof (Z.div_mod (- t - 1) u). lia. }
      unfold sub64. rewrite Q. assert (- 2 ^ 63 <= t / u < 0) by nia. rewrite !chk64_ok by lia. cbn [bind].
      unfold mul64. rewrite (Z.mul_comm (t / u)). apply chk_low. lia.
  - intros P H. unfold valid, oo in V, U. set (v := - u) in *. assert (u = - v) by lia. assert (v > 0) by lia. clearbody v. subst u.
    unfold tv_floor. destruct (0 <=? t) eqn:T.
    + rewrite div64_any by lia. cbn [bind]. rewrite Z.quot_opp_r by lia. rewrite quot_nonneg_div by lia.
      unfold mul64. assert (r = v * (t / v)) as -> by (apply (floor_unique v t); auto using floor_of; try lia; apply floor_of; lia).
      replace (- (t / v) * - v) with (v * (t / v)) by ring. apply chk64_ok.
      pose proof (Z.mul_div_le t v). assert (0 <= t / v) by (apply Z.div_pos; lia). nia.
    + unfold add64. rewrite chk64_ok by lia. cbn [bind]. rewrite div64_any by lia. cbn [bind].
      rewrite Z.quot_opp_r by lia. rewrite quot_nonpos_div by lia.
      replace (- - (- (t + 1) / v)) with ((- t - 1) / v) by (replace (- (t + 1)) with (- t - 1) by lia; lia).
      assert (0 <= (- t - 1) / v <= - t - 1).
      { split; [apply Z.div_pos; lia|]. apply Z.div_le_upper_bound; nia. }
      unfold sub64. rewrite chk64_ok by lia. cbn [bind]. unfold mul64.
      assert (E : ((- t - 1) / v - 1) * - v = r - 2 * - v).
      { destruct H as [[k ->] B]. assert (X : (- t - 1) / v = - k - 1).
        { symmetry. apply (Z.div_unique_pos _ v _ (v * k + v - 1 - t)); lia. }
        rewrite X. ring. }
      rewrite E. apply chk64_ok. destruct H as [_ B]. nia.
Qed.
Example C05_floor_exactly_case : tv_floor Debug (- oo + 1) 10 = Panic /\ tv_floor Release (- oo + 1) 10 = Ret (oo - 1) /\
  is_floor 10 (- oo + 1) (- oo - 3) /\ tv_floor Debug (-5) (-3) = Ret 0 /\ is_floor 3 (-5) (-6) /\ tv_floor Debug 5 (-3) = Ret 3.
Proof.
  split; [reflexivity|]. split; [reflexivity|]. split; [split; [exists (-922337203685477581); reflexivity|unfold oo; lia]|].
  split; [reflexivity|]. split; [split; [exists (-2); reflexivity|lia]|reflexivity].
Qed.

(** [ceil] for every period: it panics for 0, and for -1 if [t] is -oo.  For [t > 0], a positive period is right
    unless the multiple is out of range, a negative one is two periods too low.  For [t <= 0] the sign of the
    period does not matter: right unless the period divides [1 - t], then [t - 1]. *)
Theorem C05_ceil_exactly : forall p t u r, valid t -> valid u ->
  (u = 0 -> tv_ceil p t u = Panic) /\
  (0 < t -> 0 < u -> is_ceil u t r ->
     (r < 2 ^ 63 -> tv_ceil p t u = Ret r) /\
     (2 ^ 63 <= r -> tv_ceil Debug t u = Panic /\ tv_ceil Release t u = Ret (r - 2 ^ 64))) /\
  (0 < t -> u < 0 -> is_ceil (- u) t r -> tv_ceil p t u = Ret (r + 2 * u)) /\
  (t <= 0 -> u <> 0 -> (t = - oo -> u <> -1) -> is_ceil (Z.abs u) t r ->
     tv_ceil p t u = Ret (if (1 - t) mod u =? 0 then t - 1 else r)) /\
  tv_ceil p (- oo) (-1) = Panic.
Proof.
  intros p t u r V U. split; [|split; [|split; [|split]]].
  - intros ->. unfold tv_ceil, div64. cbn [Z.eqb orb bind]. unfold sub64.
    rewrite chk64_ok by (unfold valid, oo in V; lia). cbn [bind]. now destruct (0 <? t).
  - intros T P H. assert (E : r = u * (- ((- t) / u))).
    { apply (ceil_unique u t); auto. split; [eauto|].
      pose proof (Z.div_mod (- t) u). pose proof (Z.mod_pos_bound (- t) u). lia. }
    unfold valid, oo in V, U. split; intros B.
    + rewrite E in B |- *. apply tv_ceil_pos; unfold oo; lia.
    + unfold tv_ceil. replace (0 <? t) with true by lia. unfold sub64. rewrite !chk64_ok by lia. cbn [bind].
      rewrite div64_pos by lia. cbn [bind]. rewrite quot_nonneg_div by lia.
      destruct H as [[k ->] H]. assert (X : (t - 1) / u = k - 1).
      { symmetry. apply (Z.div_unique_pos _ u _ (t - 1 - u * k + u)); lia. }
      rewrite X. unfold add64. replace (k - 1 + 1) with k by lia. assert (0 < k <= 2 ^ 63 - 1).
      { split; [nia|]. assert (k - 1 <= t - 1); [|lia]. rewrite <- X. apply Z.div_le_upper_bound; nia. }
      rewrite !chk64_ok by lia. cbn [bind]. unfold mul64. rewrite (Z.mul_comm k). apply chk_high. lia.
  - intros T P H. unfold valid, oo in V, U. set (v := - u) in *. assert (u = - v) by lia. assert (v > 0) by lia. clearbody v. subst u.
    unfold tv_ceil. replace (0 <? t) with true by lia. unfold sub64. rewrite chk64_ok by lia. cbn [bind].
    rewrite div64_any by lia. cbn [bind]. rewrite Z.quot_opp_r by lia. rewrite quot_nonneg_div by lia.
    destruct H as [[k ->] H]. assert (X : (t - 1) / v = k - 1).
    { symmetry. apply (Z.div_unique_pos _ v _ (t - 1 - v * k + v)); lia. }
    rewrite X. assert (0 < k <= 2 ^ 63 - 1).
    { split; [nia|]. assert (k - 1 <= t - 1); [|lia]. rewrite <- X. apply Z.div_le_upper_bound; nia. }
    unfold add64. rewrite chk64_ok by lia. cbn [bind]. unfold mul64.
    replace ((- (k - 1) + 1) * - v) with (v * k + 2 * - v) by ring. apply chk64_ok. nia.
  - intros T N M H. unfold valid, oo in V, U, M. set (v := Z.abs u) in *.
    assert (A : v > 0) by lia.
    assert (Em : ((1 - t) mod u =? 0) = ((1 - t) mod v =? 0)).
    { unfold v. destruct (Z_lt_le_dec 0 u) as [S|S]; [rewrite Z.abs_eq by lia; auto|]. rewrite Z.abs_neq by lia.
      assert (D : forall a, a <> 0 -> ((1 - t) mod a = 0 <-> (a | 1 - t))) by (intros; apply Z.mod_divide; auto).
      pose proof (D u ltac:(lia)). pose proof (D (- u) ltac:(lia)). pose proof (Z.divide_opp_l u (1 - t)).
      destruct (Z.eqb_spec ((1 - t) mod u) 0), (Z.eqb_spec ((1 - t) mod - u) 0); tauto. }
    rewrite Em. unfold tv_ceil. replace (0 <? t) with false by lia. unfold sub64. rewrite chk64_ok by lia. cbn [bind].
    rewrite div64_any by lia. cbn [bind]. rewrite quot_sign by lia. fold v. rewrite quot_nonpos_div by lia.
    replace (- (t - 1)) with (1 - t) by lia.
    assert (S : Z.sgn u * - ((1 - t) / v) * u = - (v * ((1 - t) / v))) by (unfold v; destruct (Z.sgn_spec u) as [[? ->]|[[? ->]|[? ->]]]; lia).
    unfold mul64. rewrite S. pose proof (Z.div_mod (1 - t) v ltac:(lia)) as Q. pose proof (Z.mod_pos_bound (1 - t) v ltac:(lia)).
    assert (0 <= (1 - t) / v) by (apply Z.div_pos; lia).
    rewrite chk64_ok by nia. f_equal. destruct (Z.eqb_spec ((1 - t) mod v) 0); [lia|].
    apply (ceil_unique v t); auto; [lia|]. split; [exists (- ((1 - t) / v)); ring|]. lia.
  - reflexivity.
Qed.
Example C05_ceil_exactly_case : tv_ceil Debug (oo - 1) 10 = Panic /\ tv_ceil Release (oo - 1) 10 = Ret (- 2 ^ 63 + 2) /\
  tv_ceil Debug 5 (-3) = Ret 0 /\ is_ceil 3 5 6 /\ tv_ceil Debug (-5) (-4) = Ret (-4) /\ tv_ceil Debug (-5) (-3) = Ret (-6).
Proof.
  split; [reflexivity|]. split; [reflexivity|]. split; [reflexivity|]. split; [split; [exists 2; reflexivity|lia]|].
  split; reflexivity.
Qed.

(** What [years] … [nanos] give for all the durations: the truncated value, or [t - 1] for a negative [t] if the
    unit divides [1 - t]; that is never the truncated value. *)
Theorem C08_exactly : forall p f u t, In (f, u) (unit_truncs p) -> valid t ->
  exists r, f t = Ret r /\
    (if (t <? 0) && ((1 - t) mod u =? 0) then r = t - 1 /\ ~ is_trunc u t r else is_trunc u t r).
Proof.
  intros p f u t H V. destruct (unit_truncs_def p f u H) as [U E].
  destruct ((t <? 0) && _) eqn:T.
  - exists (t - 1). split; [|split; auto].
    + rewrite E. unfold trunc_unit, is_strictly_negative. replace (t <? 0) with true by lia.
      apply C05_ceil_wrong_exactly; try lia. unfold valid in V. lia.
    + intros (_ & _ & B). lia.
  - destruct (C08_trunc_partial p f u t H V) as (r & Er & R); [lia|]. eauto.
Qed.
Example C08_exactly_case : tv_micros Debug (1 - 1073 * 4) = Ret (- 1073 * 4) /\ tv_micros Debug (- 1073 * 4 - 5) = Ret (- 1073 * 4).
Proof. split; reflexivity. Qed.
