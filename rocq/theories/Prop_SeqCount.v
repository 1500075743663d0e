(** C59: exactly when the counts of a sequence are right, and what [nth] and [last] answer. *)
From Verif Require Import Machine TimeValue Spec Tac TimeValueProofs Scaling Seq Prop_Seq.

Lemma div_step a d : 0 < a -> 0 < d -> a / d = (a - 1) / d + (if a mod d =? 0 then 1 else 0).
Proof.
  intros Ha Hd. destruct (a mod d =? 0) eqn:E.
  - symmetry. apply Z.div_unique with (r := 0) (b := d); [lia|]. apply Z.eqb_eq in E.
    pose proof (Z.div_mod a d). assert (X : (a - 1) / d = a / d - 1); [|nia].
    symmetry. apply Z.div_unique with (r := d - 1); [lia|nia].
  - rewrite div_below by lia. lia.
Qed.

Lemma far_side o t d : 1 <= o -> t < 0 -> - o <= t -> 0 < d ->
  (o - 1 - t) / d < o + (- t) / d /\ o <= t + d * (o + (- t) / d) /\ o <= d * (o + (- t) / d) /\
  0 <= (- t) / d <= - t.
Proof.
  intros Ho Ht Hl Hd. assert (Q : 0 <= (- t) / d) by (apply Z.div_pos; lia).
  pose proof (Z.mul_succ_div_gt (- t) d Hd) as S. pose proof (Z.mul_div_le (- t) d Hd) as U.
  remember ((- t) / d) as q eqn:E. clear E.
  assert (P : 0 <= (d - 1) * (o - 1)) by (apply Z.mul_nonneg_nonneg; lia).
  assert (P2 : 0 <= (d - 1) * q) by (apply Z.mul_nonneg_nonneg; lia).
  split; [apply Z.div_lt_upper_bound; lia|]. lia.
Qed.

(** The counts are never too small.  They are right exactly for the sequences that are not
    before the origin, and whose items do not hit the infinity.  [last] is infinite
    otherwise. *)
Theorem C59_fwd_count_exactly : forall p s, fwd_made p s ->
  exists k c, remain fwd_next s k /\ fwd_count p s = Ret c /\ fwd_size_hint p s = Ret (c, Some c) /\ k <= c /\
    (c = k <-> 0 <= q_timestamp s /\
               (q_timestamp s = oo \/ (oo - q_timestamp s) mod q_period s <> 0)) /\
    (c <> k -> fwd_last p s = Ret (Some oo)).
Proof.
  intros p s M. pose proof (fwd_made_ok p s M) as H. unfold q_timestamp, q_period in *.
  pose proof (fwd_len_ok p s H) as E. pose proof H as (H1 & H2).
  set (c := if 0 <=? q_t s then (oo - q_t s) / q_step s else oo + (- q_t s) / q_step s) in *.
  set (k := if q_t s =? oo then 0 else (oo - 1 - q_t s) / q_step s).
  assert (R : remain fwd_next s k).
  { apply fwd_remain; auto. subst k. destruct (q_t s =? oo) eqn:Q; [left|right]; split; auto; lia. }
  exists k, c. split; auto. unfold fwd_count, fwd_size_hint. rewrite E. cbn [bind]. split; auto. split; auto.
  assert (F : 0 <= q_t s -> q_t s < oo -> c = k + (if (oo - q_t s) mod q_step s =? 0 then 1 else 0)).
  { intros A B. subst c k. replace (0 <=? q_t s) with true by lia. replace (q_t s =? oo) with false by lia.
    rewrite (div_step (oo - q_t s)) by lia. do 2 f_equal. lia. }
  assert (G : q_t s = oo -> c = 0 /\ k = 0).
  { intros A. subst c k. rewrite A. replace (0 <=? oo) with true by reflexivity. rewrite Z.eqb_refl, Z.sub_diag.
    split; [apply Z.div_0_l; lia|auto]. }
  assert (N : q_t s < 0 -> k < c /\ oo <= q_t s + q_step s * c /\ 0 < c <= usize_max).
  { intros A. subst c k. replace (0 <=? q_t s) with false by lia.
    replace (q_t s =? oo) with false by (unfold oo in *; lia).
    destruct (far_side oo (q_t s) (q_step s)) as (F1 & F2 & _ & F3); [unfold oo|..]; try lia.
    split; auto. split; auto. unfold usize_max, oo in *. lia. }
  assert (U : 0 <= q_t s -> c <= oo).
  { intros A. subst c. replace (0 <=? q_t s) with true by lia. apply Z.div_le_upper_bound; [lia|].
    assert (0 <= (q_step s - 1) * oo) by (apply Z.mul_nonneg_nonneg; [lia|unfold oo; lia]). lia. }
  assert (D : q_t s < 0 \/ 0 <= q_t s < oo \/ q_t s = oo) by lia.
  split; [|split].
  - destruct D as [D|[D|D]].
    + apply N in D. lia.
    + rewrite F by lia. destruct (_ =? 0); lia.
    + destruct (G D). lia.
  - destruct D as [D|[D|D]].
    + apply N in D as X. split; intros; lia.
    + rewrite F by lia. destruct (_ =? 0) eqn:Q; split; intros X; lia.
    + destruct (G D). split; [|lia]. intros _. split; [unfold oo in *; lia|auto].
  - intros C. unfold fwd_last. rewrite E. cbn [bind].
    assert (L : oo <= q_t s + q_step s * c /\ 0 < c <= usize_max /\ q_t s < oo).
    { destruct D as [D|[D|D]].
      - destruct (N D) as (N1 & N2 & N3). split; auto. split; auto. unfold oo; lia.
      - rewrite F in C by lia. destruct (_ =? 0) eqn:Q; [|lia].
        assert (X : c = (oo - q_t s) / q_step s) by (subst c; now replace (0 <=? q_t s) with true by lia).
        pose proof (Z.div_mod (oo - q_t s) (q_step s)). destruct R as (R1 & _).
        specialize (F ltac:(lia) ltac:(lia)).
        assert (q_step s * c = oo - q_t s) by (rewrite X; lia). split; [lia|].
        split; [|lia]. split; [lia|]. unfold usize_max. specialize (U ltac:(lia)). unfold oo in *. lia.
      - destruct (G D). lia. }
    destruct L as (L1 & L2 & L3). clear F G N D C R E. clearbody c k. rewrite mul_ok by lia.
    replace (0 <? c) with true by lia. unfold ts_add_tv.
    assert (X : tv_add (q_t s) (Z.min oo (q_step s * c)) = Ret oo).
    { assert (P : 0 <= q_step s * c) by (apply Z.mul_nonneg_nonneg; lia).
      remember (q_step s * c) as m. clear Heqm. rewrite tv_add_spec by (unfold valid, oo in *; lia).
      unfold clamp, oo in *. tests; try (exfalso; lia); auto; apply (f_equal (@Ret Z)); lia. }
    rewrite X. reflexivity.
Qed.
Example C59_fwd_count_exactly_case : fwd_made Debug (mkQ (-5) 5) /\
  fwd_count Debug (mkQ (-5) 5) = Ret (oo + 1) /\ fwd_last Debug (mkQ (-5) 5) = Ret (Some oo).
Proof.
  split; [apply (fm_new Debug 0 5); unfold valid, oo; try lia; reflexivity|].
  split; reflexivity.
Qed.

(** The same for backward sequences. *)
Theorem C59_bwd_count_exactly : forall p s, bwd_made p s ->
  exists k c, remain bwd_next s k /\ bwd_count p s = Ret c /\ bwd_size_hint p s = Ret (c, Some c) /\ k <= c /\
    (c = k <-> q_timestamp s < 0 /\
               (if q_timestamp s =? - oo then q_period s <> 1
                else (q_timestamp s + oo) mod q_period s <> 0 /\ (q_timestamp s + oo + 1) mod q_period s <> 0)).
Proof.
  intros p s M. pose proof (bwd_made_ok p s M) as H. unfold q_timestamp, q_period in *.
  pose proof (bwd_len_ok p s H) as E. pose proof H as (H1 & H2).
  set (c := if q_t s <? 0 then (q_t s + oo + 1) / q_step s else q_t s + oo + 1 / q_step s) in *.
  set (k := if q_t s =? - oo then 0 else (q_t s + oo - 1) / q_step s).
  assert (R : remain bwd_next s k).
  { apply bwd_remain; auto. subst k. destruct (q_t s =? - oo) eqn:Q; [left|right]; split; auto; lia. }
  exists k, c. split; auto. unfold bwd_count, bwd_size_hint. rewrite E. cbn [bind]. split; auto. split; auto.
  destruct (q_t s =? - oo) eqn:Q.
  - assert (X : q_t s = - oo) by lia. assert (Y : c = 1 / q_step s).
    { subst c. rewrite X. replace (- oo <? 0) with true by reflexivity. f_equal. }
    rewrite Y. subst k. split; [apply Z.div_pos; lia|].
    destruct (Z.eq_dec (q_step s) 1) as [O|O].
    + rewrite O. cbn. split; intros; lia.
    + rewrite Z.div_small by lia. split; auto. intros _. split; auto. rewrite X. reflexivity.
  - destruct (q_t s <? 0) eqn:S.
    + assert (Y : c = k + (if (q_t s + oo) mod q_step s =? 0 then 1 else 0) + (if (q_t s + oo + 1) mod q_step s =? 0 then 1 else 0)).
      { subst c k. rewrite (div_step (q_t s + oo + 1)) by lia.
        replace (q_t s + oo + 1 - 1) with (q_t s + oo) by lia. rewrite (div_step (q_t s + oo)) by lia. lia. }
      rewrite Y. destruct (_ =? 0) eqn:A; destruct ((q_t s + oo + 1) mod _ =? 0) eqn:B; split; try lia; split; intros; try lia.
    + assert (k < c).
      { subst c k. assert (0 <= 1 / q_step s) by (apply Z.div_pos; lia).
        apply Z.div_lt_upper_bound; [lia|]. unfold oo in *. nia. }
      split; [lia|]. split; intros; lia.
Qed.
Example C59_bwd_count_exactly_case : bwd_made Debug (mkQ 5 5) /\ bwd_count Debug (mkQ 5 5) = Ret (5 + oo).
Proof. split; [apply (bm_new Debug 10 5); unfold valid, oo; try lia; reflexivity|]. reflexivity. Qed.

(** [nth(0)] gives the last emitted timestamp again. *)
Theorem C59_nth_zero : forall p s, 
  (fwd_made p s -> fwd_nth p s 0 = Ret (s, Some (q_timestamp s))) /\
  (bwd_made p s -> bwd_nth p s 0 = Ret (s, Some (q_timestamp s))).
Proof.
  intros p s. split; intros M.
  - apply fwd_made_ok in M. destruct (fwd_nth_ok p s 0 M) as (l & _ & L & ->); [unfold usize_max; lia|].
    destruct M as (M1 & M2). replace (l <? 0) with false by lia. rewrite Z.mul_0_r. cbn zeta.
    replace (0 <? oo) with true by reflexivity. rewrite Z.add_0_r, Z.min_r by lia. destruct s; reflexivity.
  - apply bwd_made_ok in M. destruct (bwd_nth_ok p s 0 M) as (l & _ & L & ->); [unfold usize_max; lia|].
    destruct M as (M1 & M2). replace (l <? 0) with false by lia. rewrite Z.mul_0_r. cbn zeta.
    replace (0 <? oo) with true by reflexivity. rewrite Z.sub_0_r, Z.max_r by lia. destruct s; reflexivity.
Qed.

(** When less than [n] items remain, or when [n] periods make an infinite duration, [nth(n)]
    exhausts the sequence, and answers nothing or the infinity. *)
Theorem C59_fwd_nth_beyond : forall p s n k, fwd_made p s -> 1 <= n <= usize_max -> remain fwd_next s k ->
  k < n \/ oo <= n * q_period s ->
  exists s' o, fwd_nth p s n = Ret (s', o) /\ remain fwd_next s' 0 /\ (o = None \/ o = Some oo).
Proof.
  intros p s n k M Hn R K. pose proof (fwd_made_ok p s M) as H. pose proof H as (H1 & H2). unfold q_period in K.
  assert (Z0 : remain fwd_next (mkQ oo (q_step s)) 0).
  { apply fwd_remain; [unfold fst_ok; cbn [q_t q_step]; unfold oo in *; lia|]. left. auto. }
  destruct (fwd_nth_ok p s n H) as (l & _ & L & ->); [lia|]. destruct (l <? n) eqn:Q; [do 2 eexists; split; [reflexivity|]; auto|]. cbn zeta.
  assert (X : (if q_step s * n <? oo then Z.min oo (q_t s + q_step s * n) else oo) = oo).
  { destruct (q_step s * n <? oo) eqn:Y; auto. destruct K as [K|K]; [|lia].
    destruct (fwd_nexts (Z.to_nat (n - 1)) s H) as (t & Et & E).
    destruct R as (R0 & R). destruct (R (Z.to_nat (n - 1))) as (_ & (s' & R1)); [lia|]. rewrite R1 in E.
    replace (Z.of_nat (Z.to_nat (n - 1)) + 1) with n in Et by lia. rewrite (Z.mul_comm n) in Et.
    destruct (t <? oo) eqn:T; [discriminate|]. lia. }
  rewrite X. do 2 eexists. split; [reflexivity|]. auto.
Qed.
Theorem C59_bwd_nth_beyond : forall p s n k, bwd_made p s -> 1 <= n <= usize_max -> remain bwd_next s k ->
  k < n \/ oo <= n * q_period s ->
  exists s' o, bwd_nth p s n = Ret (s', o) /\ remain bwd_next s' 0 /\ (o = None \/ o = Some (- oo)).
Proof.
  intros p s n k M Hn R K. pose proof (bwd_made_ok p s M) as H. pose proof H as (H1 & H2). unfold q_period in K.
  assert (Z0 : remain bwd_next (mkQ (- oo) (q_step s)) 0).
  { apply bwd_remain; [unfold bst_ok; cbn [q_t q_step]; unfold oo in *; lia|]. left. auto. }
  destruct (bwd_nth_ok p s n H) as (l & _ & L & ->); [lia|]. destruct (l <? n) eqn:Q; [do 2 eexists; split; [reflexivity|]; auto|]. cbn zeta.
  assert (X : (if q_step s * n <? oo then Z.max (- oo) (q_t s - q_step s * n) else - oo) = - oo).
  { destruct (q_step s * n <? oo) eqn:Y; auto. destruct K as [K|K]; [|lia].
    destruct (bwd_nexts (Z.to_nat (n - 1)) s H) as (t & Et & E).
    destruct R as (R0 & R). destruct (R (Z.to_nat (n - 1))) as (_ & (s' & R1)); [lia|]. rewrite R1 in E.
    replace (Z.of_nat (Z.to_nat (n - 1)) + 1) with n in Et by lia. rewrite (Z.mul_comm n) in Et.
    destruct (- oo <? t) eqn:T; [discriminate|]. lia. }
  rewrite X. do 2 eexists. split; [reflexivity|]. auto.
Qed.
Example C59_nth_beyond_case : fwd_made Debug (mkQ 1 (2 ^ 61)) /\
  fwd_nth Debug (mkQ 1 (2 ^ 61)) 4 = Ret (mkQ oo (2 ^ 61), None) /\
  remain fwd_next (mkQ 1 (2 ^ 61)) 3.
Proof.
  split; [apply (fm_new Debug (2 ^ 61 + 1) (2 ^ 61)); unfold valid, oo; try lia; reflexivity|].
  split; [reflexivity|]. apply fwd_remain; [unfold fst_ok, oo; cbn; lia|]. right. split; reflexivity.
Qed.
