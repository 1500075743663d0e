(** Time sequences (properties C57, C58, C59, C61). *)
From Verif Require Import Machine TimeValue Spec Tac TimeValueProofs Prop_TimeValue Scaling Seq.

(** ** Specification *)

(** The result of the [n+1]-th call of [next], and the sequence afterwards *)
Fixpoint nexts (next : tseq -> outcome (tseq * option Z)) (n : nat) (s : tseq) : outcome (tseq * option Z) :=
  r <- next s ;; match n with O => Ret r | S m => nexts next m (fst r) end.
(** The [n+1]-th item is [o]. *)
Definition nth_item (next : tseq -> outcome (tseq * option Z)) (s : tseq) (n : nat) (o : option Z) : Prop :=
  exists s', nexts next n s = Ret (s', o).
(** [k] items remain. *)
Definition remain (next : tseq -> outcome (tseq * option Z)) (s : tseq) (k : Z) : Prop :=
  0 <= k /\ forall n, (Z.of_nat n < k -> exists x, nth_item next s n (Some x)) /\
                      (k <= Z.of_nat n -> nth_item next s n None).
(** The sequences got by the public calls *)
Inductive fwd_made (p : profile) : tseq -> Prop :=
| fm_new t d s : valid t -> valid d -> forward_sequence t d = Ret s -> fwd_made p s
| fm_periods t d s : valid t -> valid d -> forward_periods p t d = Ret s -> fwd_made p s
| fm_next s s' o : fwd_made p s -> fwd_next s = Ret (s', o) -> fwd_made p s'
| fm_nth s n s' o : fwd_made p s -> 0 <= n <= usize_max -> fwd_nth p s n = Ret (s', o) -> fwd_made p s'.
Inductive bwd_made (p : profile) : tseq -> Prop :=
| bm_new t d s : valid t -> valid d -> backward_sequence t d = Ret s -> bwd_made p s
| bm_periods t d s : valid t -> valid d -> backward_periods p t d = Ret s -> bwd_made p s
| bm_next s s' o : bwd_made p s -> bwd_next s = Ret (s', o) -> bwd_made p s'
| bm_nth s n s' o : bwd_made p s -> 0 <= n <= usize_max -> bwd_nth p s n = Ret (s', o) -> bwd_made p s'.

(** ** Helpers *)

Lemma up_step t d : - oo < t -> t <= oo -> 0 < d < oo -> tv_add t d = Ret (Z.min oo (t + d)).
Proof. intros. rewrite tv_add_spec by (unfold valid, oo in *; lia). pts. tests; try (exfalso; lia); apply (f_equal (@Ret Z)); lia. Qed.
Lemma down_step t d : - oo <= t -> t < oo -> 0 < d < oo -> tv_sub t d = Ret (Z.max (- oo) (t - d)).
Proof.
  intros. unfold tv_sub, tv_neg. rewrite tv_add_spec by (unfold valid, oo in *; lia). pts.
  tests; try (exfalso; lia); apply (f_equal (@Ret Z)); lia.
Qed.
Definition fst_ok (s : tseq) : Prop := 0 < q_step s < oo /\ - oo < q_t s <= oo.
Definition bst_ok (s : tseq) : Prop := 0 < q_step s < oo /\ - oo <= q_t s < oo.
Lemma new_state t d s : - oo - 1 <= t <= oo -> valid d -> fwd_new t d = Ret s ->
  s = mkQ (t - d) d /\ 0 < d < oo /\ - oo < t - d /\ - oo < t < oo.
Proof.
  unfold fwd_new, assert_, is_strictly_positive, ts_sub_tv, tv_sub, tv_add. intros Ht Hd.
  mach; pts. cbn [bind]. tests; cbn [bind]; try discriminate; tests; try discriminate; intros E; injection E as <-; try lia.
  split; [f_equal; lia|lia].
Qed.
Lemma new_ret t d : 0 < d < oo -> - oo < t - d -> - oo < t < oo -> fwd_new t d = Ret (mkQ (t - d) d).
Proof.
  intros. unfold fwd_new, assert_, is_strictly_positive, ts_sub_tv. rewrite down_step by lia.
  rewrite Z.max_r by lia. cbn [bind]. pts. tests; cbn [bind]; tests; auto; lia.
Qed.
Lemma bwd_fwd_new : bwd_new = fwd_new.
Proof. reflexivity. Qed.
Lemma chk64_range p z r : chk64 p z = Ret r -> - oo - 1 <= r <= oo.
Proof.
  unfold chk64, in_i64. mach. unfold oo. tests; intros E; [injection E as <-; lia|discriminate|].
  injection E as <-. unfold wrap64.
  pose proof (Z.mod_pos_bound (z + 2 ^ 63) (2 ^ 64) eq_refl). lia.
Qed.
Lemma ceil_range p t u r : tv_ceil p t u = Ret r -> - oo - 1 <= r <= oo.
Proof.
  unfold tv_ceil. destruct (0 <? t).
  - destruct (sub64 p t 1); try discriminate. cbn [bind]. destruct (div64 a u); try discriminate. cbn [bind].
    destruct (add64 p a0 1); try discriminate. cbn [bind]. apply chk64_range.
  - destruct (sub64 p t 1); try discriminate. cbn [bind]. destruct (div64 a u); try discriminate. cbn [bind].
    apply chk64_range.
Qed.
Lemma fwd_next_ok s : fst_ok s -> exists t, t = Z.min oo (q_t s + q_step s) /\
  fwd_next s = Ret (mkQ t (q_step s), if t <? oo then Some t else None).
Proof.
  intros (H1 & H2). eexists. split; [reflexivity|]. unfold fwd_next, ts_add_tv. rewrite up_step by lia. cbn [bind].
  do 2 f_equal. pts. tests; auto; lia.
Qed.
Lemma bwd_next_ok s : bst_ok s -> exists t, t = Z.max (- oo) (q_t s - q_step s) /\
  bwd_next s = Ret (mkQ t (q_step s), if - oo <? t then Some t else None).
Proof.
  intros (H1 & H2). eexists. split; [reflexivity|]. unfold bwd_next, ts_sub_tv. rewrite down_step by lia. cbn [bind].
  do 2 f_equal. pts. tests; auto; lia.
Qed.
Lemma fwd_nexts n : forall s, fst_ok s ->
  exists t, t = Z.min oo (q_t s + (Z.of_nat n + 1) * q_step s) /\
  nexts fwd_next n s = Ret (mkQ t (q_step s), if t <? oo then Some t else None).
Proof.
  induction n as [|n IH]; intros s S; destruct (fwd_next_ok s S) as (t & Et & E); cbn [nexts]; rewrite E; cbn [bind fst].
  - exists t. split; [rewrite Et; f_equal; lia|auto].
  - destruct (IH (mkQ t (q_step s))) as (t' & Et' & E').
    + destruct S as (S1 & S2). unfold fst_ok. cbn [q_t q_step]. subst t. lia.
    + exists t'. split; [|apply E']. rewrite Et'. cbn [q_t q_step]. destruct S as (S1 & S2). subst t. nia.
Qed.
Lemma bwd_nexts n : forall s, bst_ok s ->
  exists t, t = Z.max (- oo) (q_t s - (Z.of_nat n + 1) * q_step s) /\
  nexts bwd_next n s = Ret (mkQ t (q_step s), if - oo <? t then Some t else None).
Proof.
  induction n as [|n IH]; intros s S; destruct (bwd_next_ok s S) as (t & Et & E); cbn [nexts]; rewrite E; cbn [bind fst].
  - exists t. split; [rewrite Et; f_equal; lia|auto].
  - destruct (IH (mkQ t (q_step s))) as (t' & Et' & E').
    + destruct S as (S1 & S2). unfold bst_ok. cbn [q_t q_step]. subst t. lia.
    + exists t'. split; [|apply E']. rewrite Et'. cbn [q_t q_step]. destruct S as (S1 & S2). subst t. nia.
Qed.
Lemma usize_id x : 0 <= x < 2 ^ 64 -> as_usize x = x.
Proof. apply Z.mod_small. Qed.
Lemma fwd_len_ok p s : fst_ok s ->
  fwd_len p s = Ret (if 0 <=? q_t s then (oo - q_t s) / q_step s else oo + (- q_t s) / q_step s).
Proof.
  intros (H1 & H2). unfold fwd_len, is_positive, as_ticks, sub64, neg64, divus, oo in *.
  destruct (0 <=? q_t s) eqn:E.
  - rewrite chk64_ok by (unfold i64_max; lia). cbn [bind]. rewrite !usize_id by (unfold i64_max; lia). tests; [lia|]. reflexivity.
  - rewrite chk64_ok by lia. cbn [bind]. rewrite !usize_id by (unfold i64_max; lia).
    destruct (q_step s =? 0) eqn:E2; [lia|]. cbn [bind].
    assert (0 <= (- q_t s) / q_step s <= - q_t s).
    { split; [apply Z.div_pos; lia|]. apply Z.div_le_upper_bound; nia. }
    unfold addus, chkus, usize_max, i64_max. tests; auto; exfalso; lia.
Qed.
Lemma bwd_len_ok p s : bst_ok s ->
  bwd_len p s = Ret (if q_t s <? 0 then (q_t s + oo + 1) / q_step s else q_t s + oo + 1 / q_step s).
Proof.
  intros (H1 & H2). unfold bwd_len, is_strictly_negative, as_ticks, sub64, divus, oo in *.
  destruct (q_t s <? 0) eqn:E.
  - rewrite chk64_ok by (unfold i64_min; lia). cbn [bind]. rewrite !usize_id by (unfold i64_min; lia).
    tests; [lia|]. do 2 f_equal. unfold i64_min. lia.
  - rewrite !usize_id by (unfold i64_max; lia).
    assert (0 <= 1 / q_step s <= 1).
    { split; [apply Z.div_pos; lia|]. apply Z.div_le_upper_bound; nia. }
    unfold addus, chkus, usize_max, i64_max.
    replace ((0 <=? q_t s + 9223372036854775807) && (q_t s + 9223372036854775807 <=? 18446744073709551615)) with true by lia.
    cbn [bind]. destruct (q_step s =? 0) eqn:E2; [lia|]. cbn [bind]. tests; auto; exfalso; lia.
Qed.
Lemma mul_ok d n : 0 < d < oo -> 0 <= n <= usize_max -> tv_mul UBig d n = Z.min oo (d * n).
Proof. intros Hd Hn. unfold tv_mul, usize_max in *. mach. pts. assert (9223372036854775807 < n -> 9223372036854775807 < d * n) by nia.
  assert (0 <= d * n) by nia. tests; lia. Qed.
Lemma fwd_nth_ok p s n : fst_ok s -> 0 <= n <= usize_max -> exists l, fwd_len p s = Ret l /\ 0 <= l /\
  fwd_nth p s n = if l <? n then Ret (mkQ oo (q_step s), None)
    else let t := if q_step s * n <? oo then Z.min oo (q_t s + q_step s * n) else oo in Ret (mkQ t (q_step s), Some t).
Proof.
  intros S Hn. pose proof (fwd_len_ok p s S) as L. destruct S as (S1 & S2). eexists. split; [apply L|]. split.
  { destruct (0 <=? q_t s) eqn:E; [apply Z.div_pos; lia|]. assert (0 <= (- q_t s) / q_step s) by (apply Z.div_pos; lia). unfold oo. lia. }
  unfold fwd_nth. rewrite L. cbn [bind]. destruct (_ <? n); [reflexivity|].
  rewrite mul_ok by auto. unfold ts_add_tv. assert (0 <= q_step s * n) by nia.
  rewrite tv_add_spec by (unfold valid, oo in *; lia). cbn zeta.
  destruct (q_step s * n <? oo) eqn:E.
  - rewrite (Z.min_r oo (q_step s * n)) by lia. unfold clamp.
    assert (X : (if (q_t s =? oo) && (q_step s * n =? - oo) || (q_t s =? - oo) && (q_step s * n =? oo) then Panic
      else if (q_t s =? oo) || (q_step s * n =? oo) then Ret oo
      else if (q_t s =? - oo) || (q_step s * n =? - oo) then Ret (- oo)
      else Ret (Z.max (- oo) (Z.min oo (q_t s + q_step s * n)))) = Ret (Z.min oo (q_t s + q_step s * n))).
    { unfold oo in *. tests; try (exfalso; lia); apply (f_equal (@Ret Z)); lia. }
    rewrite X. reflexivity.
  - rewrite (Z.min_l oo (q_step s * n)) by lia.
    replace ((q_t s =? oo) && (oo =? - oo) || (q_t s =? - oo) && (oo =? oo)) with false by (unfold oo in *; lia).
    rewrite Z.eqb_refl. rewrite orb_true_r. reflexivity.
Qed.
Lemma bwd_nth_ok p s n : bst_ok s -> 0 <= n <= usize_max -> exists l, bwd_len p s = Ret l /\ 0 <= l /\
  bwd_nth p s n = if l <? n then Ret (mkQ (- oo) (q_step s), None)
    else let t := if q_step s * n <? oo then Z.max (- oo) (q_t s - q_step s * n) else - oo in Ret (mkQ t (q_step s), Some t).
Proof.
  intros S Hn. pose proof (bwd_len_ok p s S) as L. destruct S as (S1 & S2). eexists. split; [apply L|]. split.
  { destruct (q_t s <? 0) eqn:E; [apply Z.div_pos; lia|]. assert (0 <= 1 / q_step s) by (apply Z.div_pos; lia). unfold oo. lia. }
  unfold bwd_nth. rewrite L. cbn [bind]. destruct (_ <? n); [reflexivity|].
  rewrite mul_ok by auto. unfold ts_sub_tv, tv_sub, tv_neg. assert (0 <= q_step s * n) by nia.
  rewrite tv_add_spec by (unfold valid, oo in *; lia). cbn zeta.
  destruct (q_step s * n <? oo) eqn:E.
  - rewrite (Z.min_r oo (q_step s * n)) by lia. unfold clamp.
    match goal with |- bind ?A _ = _ => assert (X : A = Ret (Z.max (- oo) (q_t s - q_step s * n))) end.
    { unfold oo in *. tests; try (exfalso; lia); apply (f_equal (@Ret Z)); lia. }
    rewrite X. reflexivity.
  - rewrite (Z.min_l oo (q_step s * n)) by lia.
    match goal with |- bind ?A _ = _ => assert (X : A = Ret (- oo)) end.
    { unfold oo in *. tests; try (exfalso; lia); reflexivity. }
    rewrite X. reflexivity.
Qed.
Lemma fwd_made_ok p s : fwd_made p s -> fst_ok s.
Proof.
  induction 1 as [t d s Vt Vd E|t d s Vt Vd E|s s' o H IH E|s n s' o H IH Hn E].
  - apply new_state in E as (-> & H); [|unfold valid in Vt; lia|auto]. unfold fst_ok. cbn. lia.
  - unfold forward_periods, ts_ceil in E. destruct (tv_ceil p t d) eqn:C; try discriminate. cbn [bind] in E.
    apply ceil_range in C. apply new_state in E as (-> & H); auto. unfold fst_ok. cbn. lia.
  - destruct (fwd_next_ok s IH) as (t & Et & E'). rewrite E in E'. injection E' as -> _.
    destruct IH. unfold fst_ok. cbn [q_t q_step]. lia.
  - destruct (fwd_nth_ok p s n IH Hn) as (l & _ & _ & E'). rewrite E in E'. clear E. destruct IH as (I1 & I2).
    assert (0 <= q_step s * n) by nia. cbn zeta in E'.
    destruct (l <? n); injection E' as -> _; unfold fst_ok; cbn [q_t q_step]; [unfold oo in *; lia|].
    destruct (q_step s * n <? oo); unfold oo in *; lia.
Qed.
Lemma bwd_made_ok p s : bwd_made p s -> bst_ok s.
Proof.
  induction 1 as [t d s Vt Vd E|t d s Vt Vd E|s s' o H IH E|s n s' o H IH Hn E].
  - apply new_state in E as (-> & H); [|unfold valid in Vt; lia|auto]. unfold bst_ok. cbn. lia.
  - unfold backward_periods, ts_ceil in E. destruct (tv_ceil p t d) eqn:C; try discriminate. cbn [bind] in E.
    apply ceil_range in C. apply new_state in E as (-> & H); auto. unfold bst_ok. cbn. lia.
  - destruct (bwd_next_ok s IH) as (t & Et & E'). rewrite E in E'. injection E' as -> _.
    destruct IH. unfold bst_ok. cbn [q_t q_step]. lia.
  - destruct (bwd_nth_ok p s n IH Hn) as (l & _ & _ & E'). rewrite E in E'. clear E. destruct IH as (I1 & I2).
    assert (0 <= q_step s * n) by nia. cbn zeta in E'.
    destruct (l <? n); injection E' as -> _; unfold bst_ok; cbn [q_t q_step]; [unfold oo in *; lia|].
    destruct (q_step s * n <? oo); unfold oo in *; lia.
Qed.

(** ** C57: forward sequences *)

(** The items are [t], [t + d], [t + 2 d], ..., as long as they are finite, then [None] for
    ever. *)
Theorem C57_items : forall t d s n, valid t -> valid d -> forward_sequence t d = Ret s ->
  let x := t + Z.of_nat n * d in nth_item fwd_next s n (if x <? oo then Some x else None).
Proof.
  intros t d s n Vt Vd E x. apply new_state in E as (-> & H); [|unfold valid in Vt; lia|auto].
  destruct (fwd_nexts n (mkQ (t - d) d)) as (t' & Et & E); [unfold fst_ok; cbn [q_t q_step]; lia|].
  cbn [q_t q_step] in *. eexists. rewrite E. do 2 f_equal. subst t' x.
  replace (t - d + (Z.of_nat n + 1) * d) with (t + Z.of_nat n * d) by lia.
  destruct (t + Z.of_nat n * d <? oo) eqn:L.
  - rewrite Z.min_r by lia. rewrite L. auto.
  - rewrite Z.min_l by lia. rewrite Z.ltb_irrefl. auto.
Qed.
(** The calls that return: the date before the first one must be finite too. *)
(** Partial: the first condition that [t - d] is finite is not in the claim (C57_created_refuted). *)
Theorem C57_created_partial : forall t d, valid t -> valid d ->
  (exists s, forward_sequence t d = Ret s) <-> 0 < d /\ t < oo /\ d < oo /\ - oo < t - d.
Proof.
  intros t d Vt Vd. split.
  - intros (s & E). apply new_state in E as (_ & H); [|unfold valid in Vt; lia|auto]. lia.
  - intros H. exists (mkQ (t - d) d). apply new_ret; lia.
Qed.
Theorem C57_created_refuted : exists t d, finite t /\ 0 < d < oo /\ forward_sequence t d = Panic.
Proof. exists (- oo + 5), 10. split; [unfold finite, oo; lia|]. split; [unfold oo; lia|]. reflexivity. Qed.
(** [forward_periods] starts at the first multiple of the period not before [t], as long as
    [ceil] is right (see C05). *)
(** Partial: false if [ceil] is wrong (C57_periods_refuted). *)
Theorem C57_periods_partial : forall p t d r, valid t -> 0 < d < oo -> is_ceil d t r ->
  (0 < t \/ (1 - t) mod d <> 0) -> r < oo -> - oo < r - d ->
  exists s, forward_periods p t d = Ret s /\ forall n,
    let x := r + Z.of_nat n * d in nth_item fwd_next s n (if x <? oo then Some x else None).
Proof.
  intros p t d r Vt Hd C W H1 H2. pose proof C as (_ & C2). unfold valid in Vt.
  assert (E : forward_periods p t d = Ret (mkQ (r - d) d)).
  { unfold forward_periods, ts_ceil. rewrite (C05_ceil_partial p t d r); auto; unfold valid; try lia.
    cbn [bind]. apply new_ret; lia. }
  exists (mkQ (r - d) d). split; auto. intros n. apply C57_items; unfold valid; try lia. apply new_ret; lia.
Qed.
Theorem C57_periods_refuted : exists t d s x, valid t /\ 0 < d < oo /\ (forall p, forward_periods p t d = Ret s) /\
  nth_item fwd_next s 0 (Some x) /\ x < t.
Proof.
  exists (- 4), 5, (mkQ (- 10) 5), (- 5). split; [unfold valid, oo; lia|]. split; [unfold oo; lia|].
  split; [intros []; reflexivity|]. split; [|lia]. eexists. reflexivity.
Qed.

(** ** C58: backward sequences *)

(** The items are [t - 2 d], [t - 3 d], ... as long as they are finite, then [None] for ever:
    the first two ones are skipped. *)
(** Partial: the claim is the same from [t] on, which is false (C58_start_refuted). *)
Theorem C58_items_partial : forall t d s n, valid t -> valid d -> backward_sequence t d = Ret s ->
  let x := t - (Z.of_nat n + 2) * d in nth_item bwd_next s n (if - oo <? x then Some x else None).
Proof.
  intros t d s n Vt Vd E x. apply new_state in E as (-> & H); [|unfold valid in Vt; lia|auto].
  destruct (bwd_nexts n (mkQ (t - d) d)) as (t' & Et & E); [unfold bst_ok; cbn [q_t q_step]; lia|].
  cbn [q_t q_step] in *. eexists. rewrite E. do 2 f_equal. subst t' x.
  replace (t - d - (Z.of_nat n + 1) * d) with (t - (Z.of_nat n + 2) * d) by lia.
  destruct (- oo <? t - (Z.of_nat n + 2) * d) eqn:L.
  - rewrite Z.max_r by lia. rewrite L. auto.
  - rewrite Z.max_l by lia. rewrite Z.ltb_irrefl. auto.
Qed.
(** No backward sequence starts at its date. *)
Theorem C58_start_refuted : exists t d, finite t /\ 0 < d < oo /\
  (exists s, backward_sequence t d = Ret s) /\
  forall t d s, valid t -> valid d -> backward_sequence t d = Ret s -> ~ nth_item bwd_next s 0 (Some t).
Proof.
  exists 100, 10. split; [unfold finite, oo; lia|]. split; [unfold oo; lia|]. split; [eexists; reflexivity|].
  intros t d s Vt Vd E (s' & X). destruct (C58_items_partial t d s 0 Vt Vd E) as (s2 & X2). rewrite X in X2.
  apply new_state in E as (_ & H); [|unfold valid in Vt; lia|auto].
  injection X2 as _ X2. destruct (- oo <? _); [|discriminate]. injection X2. lia.
Qed.
(** [backward_periods] starts from [ceil], hence from two periods before the first multiple
    of the period not before [t]. *)
(** Partial: as C58_items_partial, and [ceil] must be right. *)
Theorem C58_periods_partial : forall p t d r, valid t -> 0 < d < oo -> is_ceil d t r ->
  (0 < t \/ (1 - t) mod d <> 0) -> r < oo -> - oo < r - d ->
  exists s, backward_periods p t d = Ret s /\ forall n,
    let x := r - (Z.of_nat n + 2) * d in nth_item bwd_next s n (if - oo <? x then Some x else None).
Proof.
  intros p t d r Vt Hd C W H1 H2. pose proof C as (_ & C2). unfold valid in Vt.
  assert (E : backward_periods p t d = Ret (mkQ (r - d) d)).
  { unfold backward_periods, ts_ceil. rewrite (C05_ceil_partial p t d r); auto; unfold valid; try lia.
    cbn [bind]. rewrite bwd_fwd_new. apply new_ret; lia. }
  exists (mkQ (r - d) d). split; auto. intros n. apply C58_items_partial; unfold valid; try lia. apply new_ret; lia.
Qed.

(** ** C59: counting and skipping *)

Lemma div_below a d : 0 <= a -> 0 < d -> a mod d <> 0 -> a / d = (a - 1) / d.
Proof. intros. apply Z.div_unique with (r := a mod d - 1); pose proof (Z.mod_pos_bound a d); [|rewrite (Z.div_mod a d) at 1]; lia. Qed.

(** The [n]-th item counted from 1 is what [nth(n)] returns: [nth] is late by one call. *)
(** Partial: the claim is [nth(n)] = the item number [n] counted from 0, which is false (C59_nth_refuted). *)
Theorem C59_fwd_nth_partial : forall p s n s' x, fwd_made p s -> 1 <= n <= usize_max ->
  nexts fwd_next (Z.to_nat (n - 1)) s = Ret (s', Some x) -> n * q_period s < oo ->
  fwd_nth p s n = Ret (s', Some x).
Proof.
  intros p s n s' x H Hn E L. apply fwd_made_ok in H. destruct (fwd_nth_ok p s n H) as (l & El & _ & ->); [lia|].
  rewrite (fwd_len_ok p s H) in El. injection El as El. destruct (fwd_nexts (Z.to_nat (n - 1)) s H) as (t & Et & E').
  rewrite E in E'. injection E' as -> E'. destruct H as (H1 & H2). unfold q_period in L.
  replace (Z.of_nat (Z.to_nat (n - 1)) + 1) with n in Et by lia. rewrite (Z.mul_comm n) in Et, L.
  destruct (t <? oo) eqn:T; [|discriminate]. injection E' as ->. assert (Ex : t = q_t s + q_step s * n) by lia.
  assert (n <= l).
  { subst l. destruct (0 <=? q_t s) eqn:P.
    - apply Z.div_le_lower_bound; lia.
    - assert (0 <= (- q_t s) / q_step s) by (apply Z.div_pos; lia). nia. }
  replace (l <? n) with false by lia. cbn zeta. replace (q_step s * n <? oo) with true by lia.
  rewrite Z.min_r by lia. rewrite Ex. auto.
Qed.
(** Partial: as C59_fwd_nth_partial. *)
Theorem C59_bwd_nth_partial : forall p s n s' x, bwd_made p s -> 1 <= n <= usize_max ->
  nexts bwd_next (Z.to_nat (n - 1)) s = Ret (s', Some x) -> n * q_period s < oo ->
  bwd_nth p s n = Ret (s', Some x).
Proof.
  intros p s n s' x H Hn E L. apply bwd_made_ok in H. destruct (bwd_nth_ok p s n H) as (l & El & _ & ->); [lia|].
  rewrite (bwd_len_ok p s H) in El. injection El as El. destruct (bwd_nexts (Z.to_nat (n - 1)) s H) as (t & Et & E').
  rewrite E in E'. injection E' as -> E'. destruct H as (H1 & H2). unfold q_period in L.
  replace (Z.of_nat (Z.to_nat (n - 1)) + 1) with n in Et by lia. rewrite (Z.mul_comm n) in Et, L.
  destruct (- oo <? t) eqn:T; [|discriminate]. injection E' as ->. assert (Ex : t = q_t s - q_step s * n) by lia.
  assert (n <= l).
  { subst l. destruct (q_t s <? 0) eqn:P.
    - apply Z.div_le_lower_bound; lia.
    - assert (0 <= 1 / q_step s) by (apply Z.div_pos; lia). nia. }
  replace (l <? n) with false by lia. cbn zeta. replace (q_step s * n <? oo) with true by lia.
  rewrite Z.max_r by lia. rewrite Ex. auto.
Qed.
Theorem C59_nth_refuted : forall p, exists s, fwd_made p s /\ nth_item fwd_next s 0 (Some 10) /\
  nth_item fwd_next s 1 (Some 15) /\
  exists s', fwd_nth p s 0 = Ret (s', Some 5) /\ exists s'', fwd_nth p s 1 = Ret (s'', Some 10).
Proof.
  intros p. exists (mkQ 5 5). split; [apply (fm_new p 10 5); unfold valid, oo; try lia; reflexivity|].
  split; [eexists; reflexivity|]. split; [eexists; reflexivity|].
  eexists. split; [destruct p; vm_compute; reflexivity|]. eexists. destruct p; vm_compute; reflexivity.
Qed.
(** [nth] may return the infinite timestamp as an item. *)
Theorem C59_nth_infinite_refuted : forall p, exists s n s', fwd_made p s /\ 0 <= n <= usize_max /\
  fwd_nth p s n = Ret (s', Some oo) /\ forall m, ~ nth_item fwd_next s m (Some oo).
Proof.
  intros p. exists (mkQ 0 7), (oo / 7), (mkQ oo 7).
  assert (M : fwd_made p (mkQ 0 7)) by (apply (fm_new p 7 7); unfold valid, oo; try lia; reflexivity).
  split; auto. split; [vm_compute; split; discriminate|]. split; [destruct p; vm_compute; reflexivity|].
  intros m (s' & E). destruct (fwd_nexts m _ (fwd_made_ok p _ M)) as (t & Et & E'). rewrite E in E'.
  destruct (t <? oo) eqn:T; [|discriminate]. injection E' as _ <-. lia.
Qed.

Lemma fwd_remain s k : fst_ok s -> (q_t s = oo /\ k = 0 \/ q_t s < oo /\ k = (oo - 1 - q_t s) / q_step s) ->
  remain fwd_next s k.
Proof.
  intros H K. pose proof H as (H1 & H2).
  assert (K0 : 0 <= k) by (destruct K as [(_ & ->)|(L & ->)]; [lia|apply Z.div_pos; lia]).
  split; auto. intros n. destruct (fwd_nexts n s H) as (t & Et & E). split.
  - intros Hn. destruct K as [(_ & ->)|(L & K)]; [lia|].
    assert ((Z.of_nat n + 1) * q_step s <= oo - 1 - q_t s).
    { pose proof (Z.mul_div_le (oo - 1 - q_t s) (q_step s)). nia. }
    exists t. eexists. rewrite E. replace (t <? oo) with true by lia. reflexivity.
  - intros Hn. assert (oo <= q_t s + (Z.of_nat n + 1) * q_step s).
    { destruct K as [(-> & ->)|(L & K)]; [nia|].
      pose proof (Z.mul_succ_div_gt (oo - 1 - q_t s) (q_step s)). nia. }
    eexists. rewrite E. replace (t <? oo) with false by lia. reflexivity.
Qed.
Lemma bwd_remain s k : bst_ok s -> (q_t s = - oo /\ k = 0 \/ - oo < q_t s /\ k = (q_t s + oo - 1) / q_step s) ->
  remain bwd_next s k.
Proof.
  intros H K. pose proof H as (H1 & H2).
  assert (K0 : 0 <= k) by (destruct K as [(_ & ->)|(L & ->)]; [lia|apply Z.div_pos; lia]).
  split; auto. intros n. destruct (bwd_nexts n s H) as (t & Et & E). split.
  - intros Hn. destruct K as [(_ & ->)|(L & K)]; [lia|].
    assert ((Z.of_nat n + 1) * q_step s <= q_t s + oo - 1).
    { pose proof (Z.mul_div_le (q_t s + oo - 1) (q_step s)). nia. }
    exists t. eexists. rewrite E. replace (- oo <? t) with true by lia. reflexivity.
  - intros Hn. assert (q_t s - (Z.of_nat n + 1) * q_step s <= - oo).
    { destruct K as [(-> & ->)|(L & K)]; [nia|].
      pose proof (Z.mul_succ_div_gt (q_t s + oo - 1) (q_step s)). nia. }
    eexists. rewrite E. replace (- oo <? t) with false by lia. reflexivity.
Qed.
Lemma remain_unique next s k k' : remain next s k -> remain next s k' -> k = k'.
Proof.
  intros (P & H) (P' & H').
  assert (X : forall a b, 0 <= a -> remain next s a -> remain next s b -> a < b -> False).
  { intros a b A (_ & Ha) (_ & Hb) L. destruct (Ha (Z.to_nat a)) as (_ & N). destruct (Hb (Z.to_nat a)) as (Y & _).
    destruct N as (s1 & E1); [lia|]. destruct Y as (x & s2 & E2); [lia|]. congruence. }
  destruct (Z.lt_trichotomy k k') as [L|[L|L]]; auto; exfalso; [apply (X k k')|apply (X k' k)]; auto; split; auto.
Qed.

(** From a positive timestamp, unless the items would hit the infinity exactly, the counts
    are right and [last] is the last item. *)
(** Partial: false on the other side of the origin, and if an item would be infinite (C59_fwd_count_refuted). *)
Theorem C59_fwd_count_partial : forall p s, fwd_made p s -> 0 <= q_timestamp s ->
  q_timestamp s = oo \/ (oo - q_timestamp s) mod q_period s <> 0 ->
  exists k, remain fwd_next s k /\ fwd_count p s = Ret k /\ fwd_size_hint p s = Ret (k, Some k) /\
    exists o, fwd_last p s = Ret o /\ if 0 <? k then nth_item fwd_next s (Z.to_nat (k - 1)) o else o = None.
Proof.
  intros p s M T D. pose proof (fwd_made_ok p s M) as H. unfold q_timestamp, q_period in *.
  pose proof (fwd_len_ok p s H) as E. replace (0 <=? q_t s) with true in E by lia. pose proof H as (H1 & H2).
  set (k := (oo - q_t s) / q_step s) in *.
  assert (K : q_t s = oo /\ k = 0 \/ q_t s < oo /\ k = (oo - 1 - q_t s) / q_step s).
  { subst k. destruct (Z.eq_dec (q_t s) oo) as [X|X].
    - left. split; auto. rewrite X, Z.sub_diag. apply Z.div_0_l. lia.
    - right. split; [lia|]. destruct D as [|D]; [contradiction|]. rewrite div_below by lia. f_equal. lia. }
  pose proof (fwd_remain s k H K) as R. exists k. split; auto. unfold fwd_count, fwd_size_hint, fwd_last. rewrite E. cbn [bind].
  split; auto. split; auto. destruct R as (K0 & R).
  assert (KL : q_step s * k <= oo - q_t s).
  { destruct K as [(X & ->)|(X & K)]; [lia|]. pose proof (Z.mul_div_le (oo - 1 - q_t s) (q_step s)). nia. }
  assert (KU : k <= usize_max) by (unfold usize_max, oo in *; nia).
  rewrite mul_ok by lia. rewrite Z.min_r by lia. unfold ts_add_tv.
  assert (X : tv_add (q_t s) (q_step s * k) = Ret (q_t s + q_step s * k)).
  { assert (0 <= q_step s * k) by nia. rewrite tv_add_spec by (unfold valid, oo in *; lia).
    destruct K as [(X & Y)|(X & Y)].
    - rewrite X, Y, Z.mul_0_r. reflexivity.
    - pose proof (Z.mul_div_le (oo - 1 - q_t s) (q_step s)). rewrite <- Y in *.
      unfold clamp, oo in *. tests; try (exfalso; lia); apply (f_equal (@Ret Z)); lia. }
  rewrite X. cbn [bind]. eexists. split; [reflexivity|]. destruct (0 <? k) eqn:P; [|reflexivity].
  destruct (R (Z.to_nat (k - 1))) as ((x & Rx) & _); [lia|]. pose proof Rx as (s' & E2).
  destruct (fwd_nexts (Z.to_nat (k - 1)) s H) as (t & Et & E3). rewrite E2 in E3. injection E3 as _ E3.
  replace (Z.of_nat (Z.to_nat (k - 1)) + 1) with k in Et by lia. destruct (t <? oo) eqn:Q; [|discriminate].
  injection E3 as ->. replace (q_t s + q_step s * k) with t by lia. auto.
Qed.
(** Partial: as C59_fwd_count_partial. *)
Theorem C59_bwd_count_partial : forall p s, bwd_made p s -> q_timestamp s < 0 ->
  (q_timestamp s = - oo /\ q_period s <> 1) \/
  ((q_timestamp s + oo) mod q_period s <> 0 /\ (q_timestamp s + oo + 1) mod q_period s <> 0) ->
  exists k, remain bwd_next s k /\ bwd_count p s = Ret k /\ bwd_size_hint p s = Ret (k, Some k) /\
    exists o, bwd_last p s = Ret o /\ if 0 <? k then nth_item bwd_next s (Z.to_nat (k - 1)) o else o = None.
Proof.
  intros p s M T D. pose proof (bwd_made_ok p s M) as H. unfold q_timestamp, q_period in *.
  pose proof (bwd_len_ok p s H) as E. replace (q_t s <? 0) with true in E by lia. pose proof H as (H1 & H2).
  set (k := (q_t s + oo + 1) / q_step s) in *.
  assert (K : q_t s = - oo /\ k = 0 \/ - oo < q_t s /\ k = (q_t s + oo - 1) / q_step s).
  { subst k. destruct (Z.eq_dec (q_t s) (- oo)) as [X|X].
    - left. split; auto. rewrite X. apply Z.div_small. destruct D as [D|(D & _)]; [lia|].
      exfalso. apply D. rewrite X. replace (- oo + oo) with 0 by lia. apply Z.mod_0_l. lia.
    - right. split; [lia|]. destruct D as [|(D1 & D2)]; [lia|].
      rewrite div_below by lia. replace (q_t s + oo + 1 - 1) with (q_t s + oo) by lia. rewrite div_below by lia. auto. }
  pose proof (bwd_remain s k H K) as R. exists k. split; auto. unfold bwd_count, bwd_size_hint, bwd_last. rewrite E. cbn [bind].
  split; auto. split; auto. destruct R as (K0 & R).
  assert (KL : q_step s * k <= q_t s + oo).
  { destruct K as [(X & ->)|(X & K)]; [lia|]. pose proof (Z.mul_div_le (q_t s + oo - 1) (q_step s)). nia. }
  assert (KU : k <= usize_max) by (unfold usize_max, oo in *; nia).
  rewrite mul_ok by lia. rewrite Z.min_r by lia. unfold ts_sub_tv, tv_sub, tv_neg.
  assert (X : tv_add (q_t s) (- (q_step s * k)) = Ret (q_t s - q_step s * k)).
  { assert (0 <= q_step s * k) by nia. rewrite tv_add_spec by (unfold valid, oo in *; lia).
    destruct K as [(X & Y)|(X & Y)].
    - rewrite X, Y, Z.mul_0_r. reflexivity.
    - pose proof (Z.mul_div_le (q_t s + oo - 1) (q_step s)). rewrite <- Y in *.
      unfold clamp, oo in *. tests; try (exfalso; lia); apply (f_equal (@Ret Z)); lia. }
  rewrite X. cbn [bind]. eexists. split; [reflexivity|]. destruct (0 <? k) eqn:P; [|reflexivity].
  destruct (R (Z.to_nat (k - 1))) as ((x & Rx) & _); [lia|]. pose proof Rx as (s' & E2).
  destruct (bwd_nexts (Z.to_nat (k - 1)) s H) as (t & Et & E3). rewrite E2 in E3. injection E3 as _ E3.
  replace (Z.of_nat (Z.to_nat (k - 1)) + 1) with k in Et by lia. destruct (- oo <? t) eqn:Q; [|discriminate].
  injection E3 as ->. replace (q_t s - q_step s * k) with t by lia. auto.
Qed.
(** Before the origin (resp. after it for the backward ones), the counts are wrong; if the
    infinity is hit exactly, [last] is infinite. *)
Theorem C59_fwd_count_refuted : exists s k k', (forall p, fwd_made p s /\ fwd_count p s = Ret k) /\
  remain fwd_next s k' /\ k' < k.
Proof.
  exists (mkQ (- 15) 5), (oo + 3), ((oo - 1 + 15) / 5). split; [|split].
  - intros p. split; [apply (fm_new p (- 10) 5); unfold valid, oo; try lia; reflexivity|destruct p; vm_compute; reflexivity].
  - apply fwd_remain; [unfold fst_ok, oo; cbn [q_t q_step]; lia|]. right. split; [reflexivity|]. reflexivity.
  - vm_compute. reflexivity.
Qed.
Theorem C59_fwd_last_refuted : exists s, (forall p, fwd_made p s /\ fwd_last p s = Ret (Some oo)) /\
  forall n, ~ nth_item fwd_next s n (Some oo).
Proof.
  exists (mkQ 0 7). assert (M : forall p, fwd_made p (mkQ 0 7)).
  { intros p. apply (fm_new p 7 7); unfold valid, oo; try lia; reflexivity. }
  split; [intros p; split; [apply M|destruct p; vm_compute; reflexivity]|].
  intros m (s' & E). destruct (fwd_nexts m _ (fwd_made_ok Debug _ (M Debug))) as (t & Et & E'). rewrite E in E'.
  destruct (t <? oo) eqn:T; [|discriminate]. injection E' as _ <-. lia.
Qed.
Theorem C59_bwd_count_refuted : exists s k k', (forall p, bwd_made p s /\ bwd_count p s = Ret k) /\
  remain bwd_next s k' /\ k' < k.
Proof.
  exists (mkQ 5 5), (oo + 5), ((5 + oo - 1) / 5). split; [|split].
  - intros p. split; [apply (bm_new p 10 5); unfold valid, oo; try lia; reflexivity|destruct p; vm_compute; reflexivity].
  - apply bwd_remain; [unfold bst_ok, oo; cbn [q_t q_step]; lia|]. right. split; reflexivity.
  - vm_compute. reflexivity.
Qed.
Theorem C59_bwd_last_refuted : exists s, (forall p, bwd_made p s /\ bwd_last p s = Ret (Some (- oo))) /\
  forall n, ~ nth_item bwd_next s n (Some (- oo)).
Proof.
  exists (mkQ (- 11) 1). assert (M : forall p, bwd_made p (mkQ (- 11) 1)).
  { intros p. apply (bm_new p (- 10) 1); unfold valid, oo; try lia; reflexivity. }
  split; [intros p; split; [apply M|destruct p; vm_compute; reflexivity]|].
  intros m (s' & E). destruct (bwd_nexts m _ (bwd_made_ok Debug _ (M Debug))) as (t & Et & E'). rewrite E in E'.
  destruct (- oo <? t) eqn:T; [|discriminate]. injection E' as _ <-. lia.
Qed.

(** ** C61: reversing *)

(** After the item [x], the reversed sequence goes on with [x - d], [x - 2 d], ... *)
Theorem C61_forward : forall p s m s' x n, fwd_made p s -> nexts fwd_next m s = Ret (s', Some x) ->
  q_period (fwd_reverse s') = q_period s /\
  let y := x - (Z.of_nat n + 1) * q_period s in
  nth_item bwd_next (fwd_reverse s') n (if - oo <? y then Some y else None).
Proof.
  intros p s m s' x n M E. pose proof (fwd_made_ok p s M) as H. destruct (fwd_nexts m s H) as (t & Et & E').
  rewrite E in E'. injection E' as -> E'. destruct (t <? oo) eqn:T; [|discriminate]. injection E' as ->.
  destruct H as (H1 & H2). split; [reflexivity|]. unfold q_period, fwd_reverse. cbn [q_t q_step].
  destruct (bwd_nexts n (mkQ t (q_step s))) as (t' & Et' & E'); [unfold bst_ok; cbn [q_t q_step]; nia|].
  eexists. rewrite E'. cbn [q_t q_step] in *. do 2 f_equal. subst t'.
  destruct (- oo <? t - (Z.of_nat n + 1) * q_step s) eqn:L.
  - rewrite Z.max_r by lia. rewrite L. auto.
  - rewrite Z.max_l by lia. rewrite Z.ltb_irrefl. auto.
Qed.
Theorem C61_backward : forall p s m s' x n, bwd_made p s -> nexts bwd_next m s = Ret (s', Some x) ->
  q_period (bwd_reverse s') = q_period s /\
  let y := x + (Z.of_nat n + 1) * q_period s in
  nth_item fwd_next (bwd_reverse s') n (if y <? oo then Some y else None).
Proof.
  intros p s m s' x n M E. pose proof (bwd_made_ok p s M) as H. destruct (bwd_nexts m s H) as (t & Et & E').
  rewrite E in E'. injection E' as -> E'. destruct (- oo <? t) eqn:T; [|discriminate]. injection E' as ->.
  destruct H as (H1 & H2). split; [reflexivity|]. unfold q_period, bwd_reverse. cbn [q_t q_step].
  destruct (fwd_nexts n (mkQ t (q_step s))) as (t' & Et' & E'); [unfold fst_ok; cbn [q_t q_step]; nia|].
  eexists. rewrite E'. cbn [q_t q_step] in *. do 2 f_equal. subst t'.
  destruct (t + (Z.of_nat n + 1) * q_step s <? oo) eqn:L.
  - rewrite Z.min_r by lia. rewrite L. auto.
  - rewrite Z.min_l by lia. rewrite Z.ltb_irrefl. auto.
Qed.
(** Reversing an exhausted backward sequence gives the infinite timestamp for ever. *)
Theorem C61_exhausted_refuted : exists s s', (forall p, bwd_made p s) /\ bwd_next s = Ret (s', None) /\
  forall n, nth_item fwd_next (bwd_reverse s') n (Some (- oo)).
Proof.
  exists (mkQ (- oo + 3) 7), (mkQ (- oo) 7). split; [|split; [reflexivity|]].
  - intros p. apply (bm_new p (- oo + 10) 7); unfold valid, oo; try lia; reflexivity.
  - assert (X : forall n, nexts fwd_next n (mkQ (- oo) 7) = Ret (mkQ (- oo) 7, Some (- oo))).
    { induction n as [|n IH]; [reflexivity|]. cbn [nexts]. change (fwd_next (mkQ (- oo) 7)) with (Ret (mkQ (- oo) 7, Some (- oo))).
      cbn [bind fst]. apply IH. }
    intros n. eexists. apply X.
Qed.
(** The increment of a backward sequence is the difference of its items, that of a forward
    one its opposite. *)
Theorem C61_backward_increment : forall p s m x s1 y s2, bwd_made p s -> nexts bwd_next m s = Ret (s1, Some x) ->
  nexts bwd_next (S m) s = Ret (s2, Some y) -> y - x = bwd_increment s.
Proof.
  intros p s m x s1 y s2 M E1 E2. pose proof (bwd_made_ok p s M) as H.
  destruct (bwd_nexts m s H) as (t & Et & E1'). destruct (bwd_nexts (S m) s H) as (t2 & Et2 & E2').
  rewrite E1 in E1'. rewrite E2 in E2'. unfold bwd_increment, tv_neg.
  destruct (- oo <? t) eqn:L1; [|discriminate]. destruct (- oo <? t2) eqn:L2; [|discriminate].
  injection E1' as _ ->. injection E2' as _ ->. destruct H. nia.
Qed.
(** The increment of a forward sequence is the opposite of the difference of two items. *)
Theorem C61_forward_increment_opposite : forall p s m x s1 y s2, fwd_made p s -> nexts fwd_next m s = Ret (s1, Some x) ->
  nexts fwd_next (S m) s = Ret (s2, Some y) -> y - x = - fwd_increment s /\ fwd_increment s < 0.
Proof.
  intros p s m x s1 y s2 M E1 E2. pose proof (fwd_made_ok p s M) as H.
  destruct (fwd_nexts m s H) as (t & Et & E1'). destruct (fwd_nexts (S m) s H) as (t2 & Et2 & E2').
  rewrite E1 in E1'. rewrite E2 in E2'. unfold fwd_increment, tv_neg.
  destruct (t <? oo) eqn:L1; [|discriminate]. destruct (t2 <? oo) eqn:L2; [|discriminate].
  injection E1' as _ ->. injection E2' as _ ->. destruct H. nia.
Qed.
Theorem C61_forward_increment_refuted : exists s s1 s2 x y, forward_sequence 100 7 = Ret s /\
  nexts fwd_next 0 s = Ret (s1, Some x) /\ nexts fwd_next 1 s = Ret (s2, Some y) /\ y - x <> fwd_increment s.
Proof.
  eexists _, _, _, _, _. split; [reflexivity|]. split; [reflexivity|]. split; [reflexivity|]. discriminate.
Qed.

(** ** Examples *)

Example C57_case : exists s, forward_sequence 100 7 = Ret s /\ nth_item fwd_next s 0 (Some 100) /\
  nth_item fwd_next s 3 (Some 121) /\ exists s', forward_sequence (oo - 10) 7 = Ret s' /\
  nth_item fwd_next s' 1 (Some (oo - 3)) /\ nth_item fwd_next s' 2 None.
Proof.
  eexists. split; [reflexivity|]. split; [eexists; reflexivity|]. split; [eexists; reflexivity|].
  eexists. split; [reflexivity|]. split; eexists; reflexivity.
Qed.
Example C57_periods_case : forall p, is_ceil 7 100 105 /\ exists s, forward_periods p 100 7 = Ret s /\
  nth_item fwd_next s 0 (Some 105) /\ nth_item fwd_next s 1 (Some 112).
Proof.
  intros p. split; [split; [exists 15; lia|lia]|]. eexists. split; [destruct p; reflexivity|]. split; eexists; reflexivity.
Qed.
Example C58_case : forall p, exists s, backward_sequence 100 7 = Ret s /\ nth_item bwd_next s 0 (Some 86) /\
  nth_item bwd_next s 1 (Some 79) /\ exists s', backward_periods p 100 7 = Ret s' /\ nth_item bwd_next s' 0 (Some 91).
Proof.
  intros p. eexists. split; [reflexivity|]. split; [eexists; reflexivity|]. split; [eexists; reflexivity|].
  eexists. split; [destruct p; reflexivity|]. eexists. reflexivity.
Qed.
Example C59_case : forall p, fwd_made p (mkQ 90 10) /\ (oo - 90) mod 10 <> 0 /\
  fwd_count p (mkQ 90 10) = Ret 922337203685477571 /\ fwd_last p (mkQ 90 10) = Ret (Some 9223372036854775800) /\
  exists s', nexts fwd_next 2 (mkQ 90 10) = Ret (s', Some 120) /\ fwd_nth p (mkQ 90 10) 3 = Ret (s', Some 120).
Proof.
  intros p. split; [apply (fm_new p 100 10); unfold valid, oo; try lia; reflexivity|].
  split; [vm_compute; discriminate|]. split; [destruct p; vm_compute; reflexivity|]. split; [destruct p; vm_compute; reflexivity|].
  eexists. split; [reflexivity|]. destruct p; vm_compute; reflexivity.
Qed.
Example C59_bwd_case : forall p, bwd_made p (mkQ (- 110) 10) /\ (- 110 + oo) mod 10 <> 0 /\ (- 110 + oo + 1) mod 10 <> 0 /\
  bwd_count p (mkQ (- 110) 10) = Ret 922337203685477569 /\
  exists s', nexts bwd_next 2 (mkQ (- 110) 10) = Ret (s', Some (- 140)) /\ bwd_nth p (mkQ (- 110) 10) 3 = Ret (s', Some (- 140)).
Proof.
  intros p. split; [apply (bm_new p (- 100) 10); unfold valid, oo; try lia; reflexivity|].
  split; [vm_compute; discriminate|]. split; [vm_compute; discriminate|]. split; [destruct p; vm_compute; reflexivity|].
  eexists. split; [reflexivity|]. destruct p; vm_compute; reflexivity.
Qed.
Example C61_case : forall p, fwd_made p (mkQ 90 10) /\ exists s', nexts fwd_next 2 (mkQ 90 10) = Ret (s', Some 120) /\
  nth_item bwd_next (fwd_reverse s') 0 (Some 110) /\ nth_item bwd_next (fwd_reverse s') 4 (Some 70).
Proof.
  intros p. split; [apply (fm_new p 100 10); unfold valid, oo; try lia; reflexivity|].
  exists (mkQ 120 10). split; [vm_compute; reflexivity|].
  split; [exists (mkQ 110 10)|exists (mkQ 70 10)]; vm_compute; reflexivity.
Qed.

Print Assumptions C57_items.
Print Assumptions C58_items_partial.
Print Assumptions C59_fwd_count_partial.
Print Assumptions C59_bwd_count_partial.
Print Assumptions C61_forward.
