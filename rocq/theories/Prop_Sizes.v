(** C93 Sizes: a canonical set holds the fewest intervals, the results of the operators hold no
    more than a number known in advance, and the iterators of union and intersection go round their
    loops at most once per interval. *)
From Verif Require Import Machine TimeValue Spec Tac TimeValueProofs Interval Iter TimeSet Relns
  Transl Scaling SpecSets SetProofs CollectProofs Prop_Interval SetOpsProofs Prop_TimeSet.

(** ** The fewest intervals *)

Lemma apart a m i x y j : canonical a -> (forall z, In_set z m -> In_set z a) ->
  In i a -> In_iv x i -> upper i < y -> In j m -> In_iv x j -> In_iv y j -> False.
Proof.
  intros Ca H Hi Xi Y Hj Xj Yj. apply canonical_from_iff in Ca.
  apply (canon_upper_not _ _ _ Ca Hi). apply H. exists j. split; auto.
  unfold In_iv, finite in *. lia.
Qed.

(** No list of intervals with the same dates, in any order and overlapping or not, is shorter than
    the canonical set. *)
Theorem C93_fewest : forall a m, canonical a ->
  (forall x, In_set x a <-> In_set x m) -> (length a <= length m)%nat.
Proof.
  intros a m Ca H.
  assert (G : forall s B, incl s a -> canon_from B s ->
    exists ys, NoDup ys /\ incl ys m /\ length ys = length s /\
      forall y, In y ys -> exists x, In_set x s /\ In_iv x y).
  { induction s as [|i r IH]; intros B I C.
    - exists []. repeat split; [constructor|intros ? []|intros ? []].
    - cbn in C. destruct C as (_ & W & C).
      destruct (IH _ (fun z Hz => I z (or_intror Hz)) C) as (ys & ND & In1 & L & P).
      assert (Hi : In i a) by (apply I; cbn; auto).
      destruct (wf_nonempty i W) as (x & Hx).
      destruct (proj1 (H x)) as (j & Hj & Xj); [exists i; auto|].
      exists (j :: ys). repeat split.
      + constructor; auto. intros Hy. destruct (P _ Hy) as (y & Yr & Yj).
        apply (apart a m i x y j); auto; [apply H|].
        pose proof (canon_from_In_set _ _ _ C Yr). lia.
      + intros z [->|Hz]; auto.
      + cbn. now rewrite L.
      + intros z [->|Hz].
        * exists x. split; auto. apply In_set_cons. auto.
        * destruct (P _ Hz) as (y & Yr & Yz). exists y. split; auto. apply In_set_cons. auto. }
  destruct (G a (- oo - 1)) as (ys & ND & I & L & _); [apply incl_refl|now apply canonical_from_iff|].
  rewrite <- L. now apply NoDup_incl_length.
Qed.
Example C93_fewest_case : canonical [mkI 1 5; mkI 8 9] /\
  (forall x, In_set x [mkI 1 5; mkI 8 9] <-> In_set x [mkI 8 9; mkI 2 5; mkI 1 3]).
Proof.
  split; [cbn; unfold wf_iv, oo; cbn; lia|]. intros x.
  rewrite !In_set_cons, !In_set_nil. unfold In_iv, finite, oo; cbn [lower upper]. lia.
Qed.

(** ** Turns of the loops of the iterators *)

(** iter/intersect.rs:107-214 and iter/union.rs:108-228: the number of turns of the loop over all the
    calls of [next] until it returns [None], and what they returned.  The turns are those of [Iter]. *)
Fixpoint all_turns {S A} (step : S -> S * turn A) (fuel : nat) (s : S) : outcome (list A * nat) :=
  match fuel with
  | O => NoFuel
  | Datatypes.S f =>
    match step s with
    | (s', Again) => r <- all_turns step f s' ;; Ret (fst r, Datatypes.S (snd r))
    | (s', Yield a) => r <- all_turns step f s' ;; Ret (a :: fst r, Datatypes.S (snd r))
    | (_, Stop) => Ret ([], 1%nat)
    end
  end.

Section Turns.
  Context {S A : Type}.
  Variable step : S -> S * turn A.
  Variable mu : S -> nat.
  Hypothesis dec : forall s s' t, step s = (s', t) -> t <> Stop -> (mu s' < mu s)%nat.

  Lemma all_turns_spec f : forall s, (mu s < f)%nat ->
    exists l n, all_turns step f s = Ret (l, n) /\ emits step s l /\
      (length l < n)%nat /\ (n <= mu s + 1)%nat.
  Proof.
    induction f as [|f IH]; intros s L; [lia|]. cbn.
    destruct (step s) as [s' [|a|]] eqn:E.
    - assert (D : (mu s' < mu s)%nat) by (eapply dec; eauto; congruence).
      destruct (IH s') as (l & n & -> & El & ? & ?); [lia|].
      exists l, (Datatypes.S n). cbn. repeat split; try lia. eapply em_again; eauto.
    - assert (D : (mu s' < mu s)%nat) by (eapply dec; eauto; congruence).
      destruct (IH s') as (l & n & -> & El & ? & ?); [lia|].
      exists (a :: l), (Datatypes.S n). cbn. repeat split; try lia. eapply em_yield; eauto.
    - exists [], 1%nat. cbn. repeat split; try lia. eapply em_stop; eauto.
  Qed.
End Turns.

Definition inter_mu' (s : inter_state) : nat :=
  match in_phase s with
  | IInit => length (in_i s) + length (in_j s) - 1
  | _ => length (in_i s) + length (in_j s)
  end.
Lemma inter_dec' s s' t : inter_turn s = (s', t) -> t <> Stop -> (inter_mu' s' < inter_mu' s)%nat.
Proof.
  destruct s as [a b ph tmp]. unfold inter_turn, inter_mu'; cbn [in_i in_j in_phase in_tmp].
  destruct ph, a, b; cbn; intros E N;
    repeat match goal with
           | H : context [if ?c then _ else _] |- _ => destruct c
           end; inv E; cbn in *; try congruence; lia.
Qed.

(** The intersection goes round its loop at most once for each interval of the operands, and gives
    fewer intervals than they have together: for all lists, sorted or not. *)
Theorem C93_inter_turns : forall a b,
  exists l n, all_turns inter_turn (length a + length b + 1) (inter_init a b) = Ret (l, n) /\
    inter_list a b = Ret l /\ (n <= Nat.max 1 (length a + length b))%nat /\
    (length l < n)%nat /\ (a = [] \/ b = [] -> n = 1%nat /\ l = []).
Proof.
  intros a b.
  destruct (all_turns_spec inter_turn inter_mu' inter_dec' (length a + length b + 1) (inter_init a b))
    as (l & n & E & El & L1 & L2); [cbn; lia|].
  exists l, n. split; auto. split; [now apply inter_collect_emits|].
  cbn in L2. split; [lia|]. split; auto.
  intros H. assert (Q : all_turns inter_turn (length a + length b + 1) (inter_init a b) = Ret ([], 1%nat)).
  { rewrite Nat.add_1_r. cbn. unfold inter_turn; cbn.
    destruct H as [->| ->]; [reflexivity|]. now destruct a. }
  rewrite E in Q. inv Q. auto.
Qed.
(** the numbers are reached *)
Example C93_inter_turns_case :
  all_turns inter_turn 5 (inter_init [mkI 1 5; mkI 10 20] [mkI 3 12; mkI 18 30]) =
  Ret ([mkI 3 5; mkI 10 12; mkI 18 20], 4%nat).
Proof. reflexivity. Qed.

(** The same for the union, with one turn more. *)
Theorem C93_union_turns : forall a b,
  exists l n, all_turns union_turn (length a + length b + 1) (union_init a b) = Ret (l, n) /\
    union_list a b = Ret l /\ (n <= length a + length b + 1)%nat /\ (length l < n)%nat.
Proof.
  intros a b.
  destruct (all_turns_spec union_turn union_mu union_dec (length a + length b + 1) (union_init a b))
    as (l & n & E & El & L1 & L2); [cbn; lia|].
  exists l, n. split; auto. split; [now apply union_collect_emits|]. cbn in L2. lia.
Qed.
Example C93_union_turns_case :
  all_turns union_turn 5 (union_init [mkI 1 5; mkI 20 30] [mkI 8 9; mkI 32 40]) =
  Ret ([mkI 1 5; mkI 8 9; mkI 20 30; mkI 32 40], 5%nat).
Proof. reflexivity. Qed.

(** ** Sizes of the results *)

Lemma union_list_size a b l : union_list a b = Ret l -> (length l <= length a + length b)%nat.
Proof.
  intros H. destruct (C93_union_turns a b) as (l' & n & _ & E & ? & ?).
  rewrite H in E. inv E. lia.
Qed.
Lemma inter_list_size a b l : inter_list a b = Ret l -> (length l <= length a + length b - 1)%nat.
Proof.
  intros H. destruct (C93_inter_turns a b) as (l' & n & _ & E & ? & ? & ?).
  rewrite H in E. inv E. lia.
Qed.
Lemma iv_into_iter_size i : (length (iv_into_iter i) <= 1)%nat.
Proof. unfold iv_into_iter. destruct (iv_is_empty i); cbn; lia. Qed.
Lemma set_of_convex_size c : (length (set_of_convex c) <= 1)%nat.
Proof. unfold set_of_convex. destruct (cx_is_empty c); cbn; lia. Qed.

Lemma from_iter_d_size d : forall l r, from_iter_d d l = Ret r -> (length r <= length l)%nat.
Proof.
  induction d as [|d IH]; intros l r H; [discriminate|].
  rewrite from_iter_d_eq in H. destruct l as [|first rest]; [now inv H|].
  assert (G : forall rest acc r,
    ofold (fun r i => if just_after (set_upper r) <? lower i then Ret (r ++ [i])
                      else u <- union_list r (iv_into_iter i) ;; from_iter_d d u) acc rest = Ret r ->
    (length r <= length acc + length rest)%nat).
  { clear H r rest. induction rest as [|i s IHs]; intros acc r H; cbn [ofold] in H; [inv H; cbn; lia|].
    destruct (just_after (set_upper acc) <? lower i).
    - cbn [bind] in H. apply IHs in H. rewrite app_length in H. cbn in *. lia.
    - destruct (union_list acc (iv_into_iter i)) as [u| | |] eqn:U; try discriminate. cbn [bind] in H.
      destruct (from_iter_d d u) as [v| | |] eqn:V; try discriminate. cbn [bind] in H.
      apply IHs in H. apply IH in V. apply union_list_size in U.
      pose proof (iv_into_iter_size i). cbn. lia. }
  apply G in H. pose proof (set_of_convex_size (CIv first)). cbn [length] in *. lia.
Qed.

(** Collecting, union and intersection never make more intervals than they read, whatever the lists. *)
Theorem C93_collect : forall l r, from_iter l = Ret r -> (length r <= length l)%nat.
Proof. intros l r. apply from_iter_d_size. Qed.
Theorem C93_or : forall a b r, set_or a b = Ret r -> (length r <= length a + length b)%nat.
Proof.
  unfold set_or. intros a b r H. destruct (union_list a b) as [u| | |] eqn:U; try discriminate.
  cbn in H. apply C93_collect in H. apply union_list_size in U. lia.
Qed.
Theorem C93_and : forall a b r, set_and a b = Ret r -> (length r <= length a + length b - 1)%nat.
Proof.
  unfold set_and. intros a b r H. destruct (inter_list a b) as [u| | |] eqn:U; try discriminate.
  cbn in H. apply C93_collect in H. apply inter_list_size in U. lia.
Qed.
Theorem C93_or_convex : forall a c r, set_or_cx a c = Ret r -> (length r <= length a + 1)%nat.
Proof.
  unfold set_or_cx. intros a c r H.
  destruct (union_list a (iv_into_iter (cx_into c))) as [u| | |] eqn:U; try discriminate.
  cbn in H. apply C93_collect in H. apply union_list_size in U.
  pose proof (iv_into_iter_size (cx_into c)). lia.
Qed.
Theorem C93_and_convex : forall a c r, set_and_cx a c = Ret r -> (length r <= length a)%nat.
Proof.
  unfold set_and_cx. intros a c r H.
  destruct (inter_list a (iv_into_iter (cx_into c))) as [u| | |] eqn:U; try discriminate.
  cbn in H. apply C93_collect in H. apply inter_list_size in U.
  pose proof (iv_into_iter_size (cx_into c)). lia.
Qed.
(** bounds reached *)
Example C93_ops_case :
  set_or [mkI 1 5; mkI 20 30] [mkI 8 9; mkI 32 40] = Ret [mkI 1 5; mkI 8 9; mkI 20 30; mkI 32 40] /\
  set_and [mkI 1 5; mkI 10 20] [mkI 3 12; mkI 18 30] = Ret [mkI 3 5; mkI 10 12; mkI 18 20] /\
  set_or_cx [mkI 1 5; mkI 20 30] (CPoint 10) = Ret [mkI 1 5; mkI 10 10; mkI 20 30] /\
  set_and_cx [mkI 1 5; mkI 20 30] (CRange 3 25) = Ret [mkI 3 5; mkI 20 24] /\
  from_iter [mkI 3 4; mkI 4 9; mkI 12 13] = Ret [mkI 3 9; mkI 12 13].
Proof. vm_compute. auto. Qed.

Lemma last_head {A} (s : list A) : forall j d, last (j :: s) d = last s j.
Proof.
  induction s as [|a s IH]; intros j d; auto.
  change (last (a :: s) d = last (a :: s) j). now rewrite !IH.
Qed.

(** The complement has one interval more, less one for each end of the time line that the set
    reaches. *)
Theorem C93_not : forall first r, canonical (first :: r) ->
  (length (set_not (first :: r)) + (if Z_le_dec (lower first) (- oo + 1) then 1 else 0) +
     (if Z_le_dec (oo - 1) (upper (last r first)) then 1 else 0) = length (first :: r) + 1)%nat.
Proof.
  intros first r C. assert (O : oo = 9223372036854775807) by reflexivity.
  assert (G : forall r i, wf_iv i -> canon_from (upper i + 1) r ->
    (length (not_gaps (just_after (upper i)) r) +
     (if Z_le_dec (oo - 1) (upper (last r i)) then 1 else 0) = length r + 1)%nat).
  { clear -O. induction r as [|j s IH]; intros i W C.
    - cbn [last not_gaps length]. unfold wf_iv in W.
      rewrite just_after_spec by (unfold valid; lia). unfold is_future_infinite. change INF with oo.
      destruct (upper i =? oo) eqn:E1, (upper i =? - oo) eqn:E2; cbn [orb];
        destruct (Z_le_dec _ _);
        match goal with |- context [if ?c then [] else _] => destruct c eqn:E3 end; cbn [length]; lia.
    - cbn [canon_from] in C. destruct C as (L & Wj & Cs).
      rewrite last_head.
      cbn [not_gaps length]. specialize (IH j Wj Cs). lia. }
  cbn in C. destruct C as (W & L & C).
  assert (C1 : canon_from (upper first + 1) r).
  { destruct r as [|j s]; [exact I|]. apply canonical_from_iff in C. cbn in *. tauto. }
  specialize (G r first W C1). unfold set_not. rewrite app_length. unfold wf_iv in W.
  rewrite just_before_spec by (unfold valid; lia). unfold is_past_infinite. change INF with oo.
  cbn [length].
  destruct (lower first =? oo) eqn:E1, (lower first =? - oo) eqn:E2; cbn [orb];
    destruct (Z_le_dec (lower first) _);
    match goal with |- context [if ?c then [] else _] => destruct c eqn:E3 end; cbn [length]; lia.
Qed.
Example C93_not_case : canonical [mkI (- oo) 5; mkI 8 9] /\
  set_not [mkI (- oo) 5; mkI 8 9] = [mkI 6 7; mkI 10 oo] /\
  set_not [mkI 1 5; mkI 8 9] = [mkI (- oo) 0; mkI 6 7; mkI 10 oo].
Proof. split; [cbn; unfold wf_iv, oo; cbn; lia|split; reflexivity]. Qed.

Lemma omapM_size {A B} (f : A -> outcome B) l : forall r, omapM f l = Ret r -> length r = length l.
Proof.
  induction l as [|a s IH]; intros r H; cbn in H; [now inv H|].
  destruct (f a); try discriminate. cbn in H. destruct (omapM f s); try discriminate. cbn in H.
  inv H. cbn. f_equal. auto.
Qed.
Lemma skipn_update_size {A} (f : A -> A) n : forall l, length (update_at n f l) = length l.
Proof. induction n; intros [|x r]; cbn; auto. Qed.

(** Negation and translations by a duration keep the number of intervals; truncations, restrictions
    to a convex window, sums with a span, products and quotients never increase it; the sum of two
    sets has at most one interval per pair. *)
Theorem C93_neg : forall l, length (set_neg l) = length l.
Proof. intros. unfold set_neg. now rewrite map_length, rev_length. Qed.
Theorem C93_truncate : forall l t,
  (length (fst (set_truncate_before l t)) <= length l)%nat /\
  (length (fst (set_truncate_after l t)) <= length l)%nat.
Proof.
  intros l t. split.
  - unfold set_truncate_before. destruct (position _ l) as [[|n]|].
    + destruct l as [|i r]; auto. destruct (iv_truncate_before i t). auto.
    + cbn [fst]. rewrite skipn_update_size, skipn_length. lia.
    + destruct l; cbn; lia.
  - unfold set_truncate_after. destruct (rposition _ l) as [n|].
    + destruct (Nat.eqb _ _); cbn [fst]; rewrite skipn_update_size; auto. rewrite firstn_length. lia.
    + destruct l; cbn; lia.
Qed.
Theorem C93_restrict : forall l c, (length (set_and_assign l c) <= length l)%nat.
Proof.
  intros. unfold set_and_assign.
  destruct (C93_truncate (fst (set_truncate_after l (cx_upper c))) (cx_lower c)) as [H _].
  destruct (C93_truncate l (cx_upper c)) as [_ H']. lia.
Qed.
Theorem C93_translate : forall p l v r, set_add_v p l v = Ret r \/ set_sub_v p l v = Ret r ->
  length r = length l.
Proof. intros p l v r [H|H]; eapply omapM_size; eauto. Qed.
Theorem C93_add_span : forall p l j r, set_add_span p l j = Ret r \/ set_sub_span p l j = Ret r ->
  (length r <= length l)%nat.
Proof.
  assert (G : forall (f : interval -> outcome interval) l acc r,
    ofold (fun r i => x <- f i ;; set_or_cx r (CIv x)) acc l = Ret r ->
    (length r <= length acc + length l)%nat).
  { intros f. induction l as [|i s IH]; intros acc r H; cbn [ofold] in H; [inv H; cbn; lia|].
    destruct (f i) as [x| | |]; try discriminate. cbn [bind] in H.
    destruct (set_or_cx acc (CIv x)) as [u| | |] eqn:U; try discriminate. cbn [bind] in H.
    apply IH in H. apply C93_or_convex in U. cbn. lia. }
  intros p l j r [H|H].
  - apply (G (fun i => iv_add_span p i j)) in H. cbn in H. lia.
  - apply (G (fun i => iv_sub_span p i j)) in H. cbn in H. lia.
Qed.
Theorem C93_add_spans : forall p l m r, set_add_spans p l m = Ret r \/ set_sub_spans p l m = Ret r ->
  (length r <= length l * length m)%nat.
Proof.
  intros p l m r [H|H]; unfold set_add_spans, set_sub_spans in H;
    destruct (omapM _ _) as [s| | |] eqn:E; try discriminate; cbn [bind] in H;
    apply C93_collect in H; apply omapM_size in E; rewrite prod_length in E; lia.
Qed.
Lemma joined_size l : forall k, (length (joined k l) <= length l + 1)%nat.
Proof.
  induction l as [|i r IH]; intros k; cbn; [lia|].
  destruct (_ <=? _); cbn; [specialize (IH (mkI (lower k) (upper i)))|specialize (IH i)]; lia.
Qed.
Lemma filter_size {A} (f : A -> bool) l : (length (filter f l) <= length l)%nat.
Proof. induction l as [|a r IH]; cbn; auto. destruct (f a); cbn; lia. Qed.
Theorem C93_scale : forall g l n r,
  spans_mul g l n = Ret r \/ spans_mul_assign g l n = Ret r \/ spans_div g l n = Ret r ->
  (length r <= length l)%nat.
Proof.
  intros g l n r [H|[H|H]].
  - unfold spans_mul in H. destruct (n =? 0); [destruct l; inv H; cbn; lia|].
    destruct (omapM _ _) as [s| | |] eqn:E; try discriminate. cbn [bind] in H. inv H.
    apply omapM_size in E. destruct (n <? 0); rewrite ?rev_length;
    pose proof (filter_size (fun tw => negb (iv_is_empty tw)) s); lia.
  - unfold spans_mul_assign in H. destruct (n =? 0); [destruct l; inv H; cbn; lia|].
    destruct (omapM _ _) as [s| | |] eqn:E; try discriminate. cbn [bind] in H. inv H.
    apply omapM_size in E. destruct (n <? 0); rewrite ?rev_length; lia.
  - unfold spans_div in H. destruct (n =? 0); [discriminate|]. cbn [negb assert_ bind] in H.
    destruct (omapM _ _) as [s| | |] eqn:E; try discriminate. cbn [bind] in H. inv H.
    apply omapM_size in E.
    assert (Q : length (if n <? 0 then rev s else s) = length l)
      by (destruct (n <? 0); rewrite ?rev_length; auto).
    destruct (if n <? 0 then rev s else s) as [|i q]; cbn in *; [lia|].
    pose proof (joined_size q i). lia.
Qed.
Example C93_arith_case :
  set_add_span Debug [mkI 1 5; mkI 8 9] (mkI 0 3) = Ret [mkI 1 12] /\
  set_add_v Debug [mkI 1 5; mkI 8 9] 3 = Ret [mkI 4 8; mkI 11 12] /\
  set_add_spans Debug [mkI 0 1; mkI 100 101] [mkI 0 1; mkI 10 20] =
    Ret [mkI 0 2; mkI 10 21; mkI 100 102; mkI 110 121] /\
  spans_div Small [mkI 1 5; mkI 8 9] 3 = Ret [mkI 0 3] /\
  set_truncate_before [mkI 1 5; mkI 8 9] 6 = ([mkI 8 9], true).
Proof. vm_compute. auto. Qed.
