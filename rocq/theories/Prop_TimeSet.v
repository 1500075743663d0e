(** C16 (sets), C18 (sets), C22-C27, C30-C35: time sets and their iterators. *)
From Verif Require Import Machine TimeValue Spec Tac TimeValueProofs Interval Iter TimeSet Relns
  SpecSets SetProofs CollectProofs SetOpsProofs Prop_Interval.

(** ** C22 canonical form *)

Theorem C22_constructors : forall lo up t, valid lo -> valid up -> finite t ->
  canonical set_all /\ canonical set_empty /\ canonical (set_convex lo up) /\
  canonical (set_singleton t) /\
  (forall x, In_set x set_all <-> finite x) /\ (forall x, ~ In_set x set_empty) /\
  (forall x, In_set x (set_convex lo up) <-> finite x /\ lo <= x <= up) /\
  (forall x, In_set x (set_singleton t) <-> x = t).
Proof.
  intros lo up t Vl Vu Ft.
  pose proof (proj1 (C11_constructors_proper lo up Vl Vu)) as P.
  unfold set_convex.
  assert (X : canonical (if iv_is_empty (iv_new lo up) then [] else [iv_new lo up]) /\
              forall x, In_set x (if iv_is_empty (iv_new lo up) then [] else [iv_new lo up]) <->
                        finite x /\ lo <= x <= up).
  { pose proof (fun x => C11_new lo up x Vl Vu) as D.
    destruct (iv_is_empty (iv_new lo up)) eqn:E.
    - split; [exact I|]. intros x. rewrite In_set_nil, <- D. split; [tauto|].
      apply C12_is_empty_partial; auto.
    - split; [|intros x; rewrite In_set_one; apply D].
      apply canonical_one. destruct P as [|P]; auto.
      unfold iv_is_empty in E. unfold is_empty_repr in P. pts. lia. }
  destruct X as [X1 X2].
  assert (A : wf_iv iv_all) by (unfold wf_iv, iv_all; cbn; pts; lia).
  assert (S : iv_singleton t = mkI t t) by (unfold iv_singleton; pts; tests; auto; lia).
  split; [now apply canonical_one|]. split; [exact I|]. split; [exact X1|].
  split; [unfold set_singleton; rewrite S; apply canonical_one; iv; lia|].
  split; [intros x; unfold set_all; rewrite In_set_one; iv; lia|].
  split; [intros x; now rewrite In_set_nil|]. split; [exact X2|].
  intros x. unfold set_singleton. rewrite S, In_set_one. iv; lia.
Qed.
Example C22_constructors_case : set_convex 5 3 = [] /\ set_convex 3 5 = [mkI 3 5] /\
  set_singleton 4 = [mkI 4 4].
Proof. vm_compute. auto. Qed.

(** A set made from a convex window (full statement: any valid one; an infinite time point
    is refuted below). *)
Theorem C22_from_convex_partial : forall c, valid_cx c ->
  cx_is_empty c = true \/ (exists x, In_cx x c) ->
  canonical (set_of_convex c) /\ forall x, In_set x (set_of_convex c) <-> In_cx x c.
Proof.
  intros c V H. pose proof (fun x => proj1 (C11_convex_bounds c x V)) as D.
  unfold set_of_convex. destruct (cx_is_empty c) eqn:E.
  - split; [exact I|]. intros x. rewrite In_set_nil. split; [tauto|].
    apply (proj1 (C11_is_empty_partial c V) E).
  - destruct H as [|[x0 H]]; [congruence|]. apply D in H as H0.
    assert (valid (cx_lower c) /\ valid (cx_upper c)) by (clear - V; destruct c; iv; tests; lia).
    split; [apply canonical_one; unfold wf_iv, valid, finite in *; cbn [lower upper]; lia|].
    intros x. rewrite In_set_one, D. unfold In_iv; cbn [lower upper]. tauto.
Qed.
Example C22_from_convex_case : set_of_convex (CRange 3 6) = [mkI 3 5] /\ In_cx 4 (CRange 3 6).
Proof. vm_compute. intuition congruence. Qed.
(** Finding: [TimeSet::singleton] and [From] at an infinite time point. *)
Theorem C22_singleton_refuted : ~ canonical (set_singleton oo) /\
  set_is_empty (set_singleton oo) = false /\ ~ canonical (set_of_convex (CPoint oo)) /\
  (forall x, ~ In_set x (set_singleton oo)).
Proof.
  split; [vm_compute; intuition congruence|]. split; [reflexivity|].
  split; [vm_compute; intuition congruence|].
  intros x H. apply In_set_one in H. change (In_iv x iv_empty) in H. iv. lia.
Qed.

Theorem C22_neg : forall l, canonical l ->
  canonical (set_neg l) /\ (forall x, In_set x (set_neg l) <-> In_set (- x) l) /\
  set_neg (set_neg l) = l.
Proof.
  intros l C. unfold set_neg. split; [|split].
  - apply canonical_from_iff in C. apply (canon_from_canonical (- oo - 1)).
    revert C. generalize (- oo - 1) at 1 as b. intros b C.
    assert (G : forall l b, canon_from b l ->
        canon_from (- oo - 1) (map iv_neg (rev l)) /\
        forall k, In k (map iv_neg (rev l)) -> upper k < - b).
    { clear. induction l as [|i r IH]; intros b C; [split; [exact I|intros k []]|].
      destruct C as (L & W & C). destruct (IH _ C) as [I1 I2]. cbn [rev]. rewrite map_app. cbn [map].
      split.
      - apply canon_from_app. split; auto.
        assert (W' : wf_iv (iv_neg i)) by (unfold wf_iv, iv_neg in *; cbn; pts; lia).
        destruct (last_opt (map iv_neg (rev r))) as [z|] eqn:E.
        + apply last_opt_Some in E. specialize (I2 z).
          rewrite E, in_app_iff in I2. cbn in I2.
          apply canon_cons; auto; [|exact I]. unfold iv_neg; cbn. pts.
          pose proof (I2 (or_intror (or_introl eq_refl))). lia.
        + apply canon_cons; auto; [|exact I]. unfold wf_iv in W'. lia.
      - intros k H. apply in_app_iff in H. destruct H as [H|[<-|[]]].
        + apply I2 in H. unfold wf_iv in W. lia.
        + unfold iv_neg; cbn. pts. lia. }
    apply (G l b C).
  - intros x. unfold In_set. split.
    + intros (i & Hi & Hx). apply in_map_iff in Hi. destruct Hi as (j & <- & Hj).
      rewrite <- in_rev in Hj. exists j. split; auto. unfold iv_neg, In_iv, finite in *; cbn in *.
      pts. lia.
    + intros (j & Hj & Hx). exists (iv_neg j). split; [apply in_map, in_rev; now rewrite rev_involutive|].
      unfold iv_neg, In_iv, finite in *; cbn in *. pts. lia.
  - rewrite <- map_rev, rev_involutive, map_map. rewrite <- (map_id l) at 2.
    apply map_ext. intros [a b]. unfold iv_neg; cbn. pts. f_equal; lia.
Qed.
Example C22_neg_case : set_neg [mkI 1 2; mkI 5 oo] = [mkI (- oo) (-5); mkI (-2) (-1)].
Proof. reflexivity. Qed.

(** ** C23 union *)

(** The union of two canonical sets is canonical, contains the second operand, nothing but
    the operands, and is exact when every interval of the first operand but its last one ends
    before the end of the second operand.  Full statement: exact without that condition
    (refuted below). *)
Theorem C23_or_partial : forall a b, canonical a -> canonical b ->
  exists out, set_or a b = Ret out /\ union_list a b = Ret out /\ canonical out /\
    (forall x, In_set x b -> In_set x out) /\
    (forall x, In_set x out -> In_set x a \/ In_set x b) /\
    ((b = [] \/ Forall (fun i => upper i < set_upper b) (removelast a)) ->
     forall x, In_set x out <-> In_set x a \/ In_set x b).
Proof.
  intros a b Ca Cb. destruct (union_list_spec a b Ca Cb) as (out & E & C & D).
  exists out. split; [unfold set_or; rewrite E; cbn [bind]; now apply from_iter_canonical|].
  split; auto. split; auto. split; [intros x H; apply D; auto|].
  split; [intros x H; apply D in H as [H|H]; auto; left; eapply union_kept_incl; eauto|].
  intros H x. rewrite D.
  assert (K : union_kept a b = a).
  { destruct H as [->|H]; [reflexivity|]. destruct b as [|j rb]; [reflexivity|].
    cbn [union_kept]. apply canonical_from_iff in Cb. eapply keep_all; eauto. congruence. }
  rewrite K. tauto.
Qed.
Example C23_or_case : set_or [mkI 1 2; mkI 10 20] [mkI 3 5; mkI 15 30] = Ret [mkI 1 5; mkI 10 30]
  /\ Forall (fun i => upper i < set_upper [mkI 3 5; mkI 15 30]) (removelast [mkI 1 2; mkI 10 20]).
Proof. split; [reflexivity|]. cbn. repeat constructor. Qed.

(** Exactly which points the union has, when no interval of [a] ends where [b] ends: those
    of [b], and those of the intervals of [a] all of whose predecessors end before the end
    of [b]. *)
Theorem C23_or_exactly : forall a b, canonical a -> canonical b -> b <> [] ->
  (forall i, In i a -> upper i <> set_upper b) ->
  exists out, set_or a b = Ret out /\
    forall x, In_set x out <-> In_set x b \/
      exists i, In i a /\ In_iv x i /\
        forall k, In k a -> upper k < lower i -> upper k < set_upper b.
Proof.
  intros a b Ca Cb N T. destruct (set_or_spec a b Ca Cb) as (out & E & C & D).
  exists out. split; auto. intros x. rewrite D. apply canonical_from_iff in Ca, Cb.
  assert (K : union_kept a b = keep a b) by (destruct b; [congruence|reflexivity]).
  rewrite K. unfold In_set at 2.
  split; (intros [H|H]; [auto|right]).
  - destruct H as (i & Hi & Hx). apply (keep_no_tie a b _ _ Ca Cb N T) in Hi. exists i. tauto.
  - destruct H as (i & Hi & Hx & Hk). exists i. split; auto.
    apply (keep_no_tie a b _ _ Ca Cb N T). auto.
Qed.
Example C23_or_exactly_case :
  set_or [mkI 1 2; mkI 10 20; mkI 30 40] [mkI 3 5] = Ret [mkI 1 5; mkI 10 20].
Proof. reflexivity. Qed.

(** Finding: points of the first operand get lost, and union is not commutative. *)
Theorem C23_or_refuted : exists a b x r s, canonical a /\ canonical b /\
  set_or a b = Ret r /\ set_or b a = Ret s /\ In_set x a /\ ~ In_set x r /\ In_set x s.
Proof.
  exists [mkI 10 11; mkI 20 21; mkI 30 31], [mkI 1 2], 30, [mkI 1 2; mkI 10 11],
    [mkI 1 2; mkI 10 11; mkI 20 21; mkI 30 31].
  repeat split; try reflexivity; try (cbn; iv; lia).
  - exists (mkI 30 31). split; [cbn; auto 10|iv; lia].
  - intros (i & [<-|[<-|[]]] & H); iv; lia.
  - exists (mkI 30 31). split; [cbn; auto 10|iv; lia].
Qed.

(** The union with a non-empty convex window. *)
(** Partial: not always exact: the intervals after the window may be lost (C23_or_refuted). *)
Theorem C23_or_convex_partial : forall a c, canonical a -> valid_cx c -> (exists x, In_cx x c) ->
  exists out, set_or_cx a c = Ret out /\ canonical out /\
    (forall x, In_cx x c -> In_set x out) /\
    (forall x, In_set x out -> In_set x a \/ In_cx x c) /\
    (Forall (fun i => upper i <= cx_upper c) (removelast a) ->
     forall x, In_set x out <-> In_set x a \/ In_cx x c).
Proof.
  intros a c Ca V [x0 H0].
  assert (W : wf_iv (cx_into c) /\ upper (cx_into c) = cx_upper c).
  { assert (In_iv x0 (cx_into c)) by (apply C11_convex_bounds; auto).
    destruct c; iv; tests_all; tests; cbn in *; try lia. }
  destruct W as [W U].
  destruct (set_or_cx_wf a (cx_into c) Ca W) as (out & E & C & D).
  exists out. split; auto. split; auto.
  assert (D' : forall x, In_set x out <-> In_cx x c \/ In_set x (keep a [cx_into c])).
  { intros x. rewrite D. now rewrite (proj2 (C11_convex_bounds c x V)). }
  split; [intros x H; apply D'; auto|]. split.
  - intros x H. apply D' in H as [H|(i & H & Hx)]; auto. left. exists i. split; auto.
    eapply keep_incl; eauto.
  - intros F x. rewrite D', keep_one_all by (now rewrite U). tauto.
Qed.
Example C23_or_convex_case :
  set_or_cx [mkI 1 2; mkI 10 20] (CRange 3 13) = Ret [mkI 1 20] /\ In_cx 5 (CRange 3 13).
Proof. split; [reflexivity|]. iv; lia. Qed.

(** The union with an empty window gives the set back. *)
Theorem C23_or_empty_convex : forall a c, canonical a -> iv_is_empty (cx_into c) = true ->
  set_or_cx a c = Ret a.
Proof.
  intros a c Ca E. unfold set_or_cx, iv_into_iter. rewrite E.
  change (u <- union_list a [] ;; from_iter u) with (set_or a []).
  assert (H : union_list a [] = Ret a).
  { apply union_collect_emits. destruct a as [|i r]; [eapply em_stop; reflexivity|].
    eapply em_yield; [reflexivity|]. apply union_only_i. }
  unfold set_or. rewrite H. cbn [bind]. now apply from_iter_canonical.
Qed.
Example C23_or_empty_case : set_or_cx [mkI 1 2; mkI 5 6] (CIv iv_empty) = Ret [mkI 1 2; mkI 5 6].
Proof. reflexivity. Qed.

(** ** C24 intersection *)

(** Points exact, for the operator and for the iterator. *)
Theorem C24_and_points : forall a b, canonical a -> canonical b ->
  exists out, set_and a b = Ret out /\ inter_list a b = Ret out /\
    forall x, In_set x out <-> In_set x a /\ In_set x b.
Proof.
  intros a b Ca Cb. exists (all_caps a b). split; [now apply set_and_caps|].
  split; [now apply inter_list_caps|]. intros x. apply In_set_all_caps.
Qed.
Example C24_and_case : set_and [mkI 1 5; mkI 10 20] [mkI 3 12; mkI 15 30]
  = Ret [mkI 3 5; mkI 10 12; mkI 15 20].
Proof. reflexivity. Qed.

(** [a] and [b] are nowhere side by side without meeting. *)
Definition never_adjacent (a b : list interval) : Prop := forall x,
  ~ (In_set x a /\ ~ In_set x b /\ In_set (x + 1) b /\ ~ In_set (x + 1) a) /\
  ~ (In_set x b /\ ~ In_set x a /\ In_set (x + 1) a /\ ~ In_set (x + 1) b).

(** Full statement: canonical, and empty iff no common point, without condition (refuted).
    Proved: canonical exactly when the operands are never side by side, and then empty iff
    no common point; in general empty iff no two points at distance at most one. *)
Theorem C24_and_canonical_partial : forall a b out, canonical a -> canonical b ->
  set_and a b = Ret out ->
  (canonical out <-> never_adjacent a b) /\
  (set_is_empty out = true <->
   forall x y, In_set x a -> In_set y b -> 1 < Z.abs (x - y)) /\
  (never_adjacent a b ->
   (set_is_empty out = true <-> forall x, ~ (In_set x a /\ In_set x b))).
Proof.
  intros a b out Ca Cb E. rewrite set_and_caps in E by auto. inv E.
  assert (Can : canonical (all_caps a b) <-> never_adjacent a b).
  { pose proof Ca as Fa. pose proof Cb as Fb. rewrite canonical_from_iff in Fa, Fb. split.
    - intros C x. split; intros (H1 & H2 & H3 & H4).
      + destruct H1 as (i & Hi & Hx), H3 as (j & Hj & Hy).
        assert (K : In (cap i j) (all_caps a b)).
        { apply all_caps_In. exists i, j. repeat split; auto.
          apply touch_near; eauto using canonical_In. exists x, (x + 1). split; auto. split; auto. lia. }
        apply (canonical_In _ _ C) in K. unfold wf_iv, cap in K; cbn [lower upper] in K.
        assert (~ In_iv (x + 1) i) by (intros ?; apply H4; exists i; auto).
        assert (~ In_iv x j) by (intros ?; apply H2; exists j; auto).
        unfold In_iv in *. intuition lia.
      + destruct H1 as (j & Hj & Hy), H3 as (i & Hi & Hx).
        assert (K : In (cap i j) (all_caps a b)).
        { apply all_caps_In. exists i, j. repeat split; auto.
          apply touch_near; eauto using canonical_In. exists (x + 1), x. split; auto. split; auto. lia. }
        apply (canonical_In _ _ C) in K. unfold wf_iv, cap in K; cbn [lower upper] in K.
        assert (~ In_iv (x + 1) j) by (intros ?; apply H4; exists j; auto).
        assert (~ In_iv x i) by (intros ?; apply H2; exists i; auto).
        unfold In_iv in *. intuition lia.
    - intros N. eapply canon_from_canonical. apply gap_canon; [eapply all_caps_gap; eauto|].
      apply Forall_forall. intros k Hk. apply all_caps_In in Hk.
      destruct Hk as (i & j & Hi & Hj & T & ->). unfold cap; cbn [lower upper].
      destruct (Z_le_gt_dec (Z.max (lower i) (lower j)) (Z.min (upper i) (upper j))) as [|G]; auto.
      exfalso. assert (Wi := canonical_In _ _ Ca Hi). assert (Wj := canonical_In _ _ Cb Hj).
      unfold touch in T.
      assert (A : forall c m, canon_from (- oo - 1) c -> In m c ->
                  ~ In_set (lower m - 1) c /\ ~ In_set (upper m + 1) c).
      { intros c m Cc Hm. split; [eapply canon_lower_not; eauto|eapply canon_upper_not; eauto]. }
      destruct (A a i Fa Hi) as [A1 A2], (A b j Fb Hj) as [B1 B2].
      destruct (Z_lt_le_dec (upper i) (lower j)).
      + assert (Eq : lower j = upper i + 1) by (unfold wf_iv in *; lia).
        apply (proj1 (N (upper i))). rewrite Eq in B1. replace (upper i + 1 - 1) with (upper i) in B1 by lia.
        split; [exists i; split; auto; unfold In_iv, wf_iv, finite in *; lia|].
        split; auto. split; auto. exists j. split; auto. unfold In_iv, wf_iv, finite in *; lia.
      + assert (Eq : lower i = upper j + 1) by (unfold wf_iv in *; lia).
        apply (proj2 (N (upper j))). rewrite Eq in A1. replace (upper j + 1 - 1) with (upper j) in A1 by lia.
        split; [exists j; split; auto; unfold In_iv, wf_iv, finite in *; lia|].
        split; auto. split; auto. exists i. split; auto. unfold In_iv, wf_iv, finite in *; lia. }
  split; auto. split.
  - rewrite <- all_caps_nil_iff by auto. destruct (all_caps a b); cbn; split; congruence.
  - intros N. apply Can in N.
    pose proof (fun x => In_set_all_caps x a b) as D.
    destruct (all_caps a b) as [|k r] eqn:E; cbn.
    + split; auto. intros _ x H. apply D in H. now apply In_set_nil in H.
    + split; [discriminate|]. intros H. exfalso.
      destruct (wf_nonempty k) as [x Hx]; [apply (canonical_In _ _ N); cbn; auto|].
      apply (H x). apply D, In_set_cons. auto.
Qed.
Example C24_and_canonical_case : never_adjacent [mkI 1 5] [mkI 3 8].
Proof.
  intros x. rewrite !In_set_one. iv. lia.
Qed.

(** Finding: two sets side by side have a non-empty "intersection" with no point. *)
Theorem C24_and_refuted : exists a b r, canonical a /\ canonical b /\ set_and a b = Ret r /\
  set_is_empty r = false /\ ~ canonical r /\ forall x, ~ In_set x r.
Proof.
  exists [mkI 1 5], [mkI 6 8], [mkI 6 5]. split; [cbn; iv; lia|]. split; [cbn; iv; lia|].
  split; [reflexivity|]. split; [reflexivity|]. split; [cbn; iv; lia|].
  intros x. rewrite In_set_one. iv. lia.
Qed.

(** With a convex window: the same as with the one-interval set. *)
Theorem C24_and_convex : forall a c, canonical a -> valid_cx c ->
  (exists x, In_cx x c) \/ iv_is_empty (cx_into c) = true ->
  exists out, set_and_cx a c = Ret out /\
    forall x, In_set x out <-> In_set x a /\ In_cx x c.
Proof.
  intros a c Ca V H. pose proof (fun x => proj2 (C11_convex_bounds c x V)) as D.
  assert (Ci : canonical (iv_into_iter (cx_into c)) /\
               forall x, In_set x (iv_into_iter (cx_into c)) <-> In_iv x (cx_into c)).
  { unfold iv_into_iter. destruct (iv_is_empty (cx_into c)) eqn:E.
    - split; [exact I|]. intros x. rewrite In_set_nil. split; [tauto|].
      unfold iv_is_empty in E. unfold In_iv. pts. lia.
    - rewrite iv_eta. split; [|intros x; apply In_set_one]. apply canonical_one.
      destruct H as [[x Hx]|]; [|congruence]. apply D in Hx.
      assert (valid_iv (cx_into c)) by (clear - V; destruct c; iv; tests; cbn; lia).
      unfold wf_iv, valid_iv, In_iv, valid, finite in *. lia. }
  destruct Ci as [Ci Di].
  destruct (C24_and_points a _ Ca Ci) as (out & E & _ & R).
  exists out. split; [exact E|]. intros x. now rewrite R, Di, D.
Qed.
Example C24_and_convex_case :
  set_and_cx [mkI 1 5; mkI 10 20] (CRangeFrom 3) = Ret [mkI 3 5; mkI 10 20].
Proof. reflexivity. Qed.

(** ** C25 complement *)

Theorem C25_not : forall l, canonical l ->
  canonical (set_not l) /\ forall x, In_set x (set_not l) <-> finite x /\ ~ In_set x l.
Proof. exact set_not_spec. Qed.
Theorem C25_not_not : forall l, canonical l ->
  canonical (set_not (set_not l)) /\ forall x, In_set x (set_not (set_not l)) <-> In_set x l.
Proof.
  intros l C. destruct (set_not_spec l C) as [C1 D1].
  destruct (set_not_spec _ C1) as [C2 D2]. split; auto. intros x. rewrite D2, D1.
  pose proof (In_set_finite x l). destruct (In_set_dec x l); tauto.
Qed.
(** the same list back when the infinite ends are written as such *)
Theorem C25_not_involutive : forall l, canonical l -> strict_ends l ->
  strict_ends (set_not (set_not l)) -> set_not (set_not l) = l.
Proof.
  intros l C S S'. destruct (C25_not_not l C) as [C2 D2].
  apply canonical_from_iff in C, C2.
  eapply canonical_unique; eauto.
Qed.
Theorem C25_de_morgan : forall a b, canonical a -> canonical b ->
  exists out, set_and (set_not a) (set_not b) = Ret out /\
    forall x, In_set x out <-> finite x /\ ~ (In_set x a \/ In_set x b).
Proof.
  intros a b Ca Cb. destruct (set_not_spec a Ca) as [C1 D1], (set_not_spec b Cb) as [C2 D2].
  destruct (C24_and_points _ _ C1 C2) as (out & E & _ & D). exists out. split; auto.
  intros x. rewrite D, D1, D2. tauto.
Qed.
Example C25_case : set_not [mkI 1 5; mkI 10 oo] = [mkI (- oo) 0; mkI 6 9] /\
  set_not (set_not [mkI 1 5; mkI 10 oo]) = [mkI 1 5; mkI 10 oo].
Proof. vm_compute. auto. Qed.

(** ** C26 the complement iterator *)

Theorem C26_compl_iter : forall l, canonical l -> compl_list l = Ret (set_not l).
Proof. exact compl_list_not. Qed.
Example C26_case : compl_list [mkI (- oo) 5; mkI 10 20] = Ret [mkI 6 9; mkI 21 oo].
Proof. reflexivity. Qed.

(** ** C27 exclusion *)

(** Full statement: it yields nothing iff [a] is included in [b] (refuted below).  Proved:
    the points are exact, and it yields nothing iff every point at distance at most one of a
    point of [a] is in [b]. *)
Theorem C27_excl_partial : forall a b, canonical a -> canonical b ->
  exists out, excl_list a b = Ret out /\
    (forall x, In_set x out <-> In_set x a /\ ~ In_set x b) /\
    (out = [] <-> forall x y, In_set x a -> finite y -> Z.abs (x - y) <= 1 -> In_set y b).
Proof.
  intros a b Ca Cb. destruct (set_not_spec b Cb) as [C1 D1].
  exists (all_caps a (set_not b)). unfold excl_list. rewrite compl_list_not by auto. cbn [bind].
  split; [now apply inter_list_caps|]. split.
  - intros x. rewrite In_set_all_caps, D1. pose proof (In_set_finite x a). tauto.
  - rewrite all_caps_nil_iff by auto. split.
    + intros H x y Hx Hy D. destruct (In_set_dec y b) as [|N]; auto. exfalso.
      specialize (H x y Hx). rewrite D1 in H. specialize (H (conj Hy N)). lia.
    + intros H x y Hx Hy. apply D1 in Hy. destruct Hy as [Fy N].
      destruct (Z_lt_le_dec 1 (Z.abs (x - y))); auto. exfalso. apply N. eauto.
Qed.
Example C27_case : excl_list [mkI 1 9] [mkI 3 5] = Ret [mkI 1 2; mkI 6 9].
Proof. reflexivity. Qed.
(** Finding: excluding a set from itself yields intervals without points. *)
Theorem C27_excl_refuted : exists a r, canonical a /\ excl_list a a = Ret r /\ r <> [].
Proof. exists [mkI 1 5], [mkI 1 0; mkI 6 5]. split; [cbn; iv; lia|]. split; [reflexivity|congruence]. Qed.

(** ** C30 collecting *)

(** Non-empty intervals: canonical result, nothing added, the last interval present; exact
    when no interval lies entirely before an earlier one.  Full statement: exact for every
    list (refuted). *)
Theorem C30_collect_partial : forall l, Forall wf_iv l ->
  exists out, from_iter l = Ret out /\ canonical out /\
    (forall x, In_set x out -> In_set x l) /\
    (forall x i, last_opt l = Some i -> In_iv x i -> In_set x out) /\
    (ForallOrdPairs (fun i j => lower i <= upper j) l ->
     forall x, In_set x out <-> In_set x l).
Proof.
  intros l F. destruct (from_iter_wf l F) as (out & E & C & D1 & D2).
  exists out. split; auto. split; auto. split; auto. split; auto. intros H.
  destruct (from_iter_forward l F H) as (out' & E' & _ & D). rewrite E in E'. inv E'. apply D.
Qed.
Example C30_case : from_iter [mkI 1 5; mkI 3 8; mkI 2 20; mkI 30 31]
  = Ret [mkI 1 20; mkI 30 31].
Proof. reflexivity. Qed.
Theorem C30_collect_canonical_id : forall l, canonical l -> from_iter l = Ret l.
Proof. exact from_iter_canonical. Qed.
(** Findings: an interval before two earlier ones drops the last of them; an empty interval
    that is not the first is stored. *)
Theorem C30_collect_refuted :
  (exists l r x, Forall wf_iv l /\ from_iter l = Ret r /\ In_set x l /\ ~ In_set x r) /\
  (exists l r, Forall proper_iv l /\ from_iter l = Ret r /\ ~ canonical r).
Proof.
  split.
  - exists [mkI 10 20; mkI 30 40; mkI 1 2], [mkI 1 2; mkI 10 20], 35.
    split; [repeat constructor; iv; lia|]. split; [reflexivity|]. split.
    + exists (mkI 30 40). split; [cbn; auto 10|iv; lia].
    + intros (i & [<-|[<-|[]]] & H); iv; lia.
  - exists [mkI 1 2; iv_empty], [mkI 1 2; iv_empty].
    split; [repeat constructor; unfold proper_iv; iv; lia|]. split; [reflexivity|].
    vm_compute. intuition congruence.
Qed.

(** Collecting sets: exact when every set ends no earlier than the earlier ones. *)
(** Partial: false for sets in another order (C30_collect_sets_refuted). *)
Theorem C30_collect_sets_partial : forall ls, Forall canonical ls ->
  exists out, set_from_sets ls = Ret out /\ canonical out /\
    (forall x, In_set x out -> exists s, In s ls /\ In_set x s) /\
    (ForallOrdPairs (fun s t => t = [] \/ set_upper s <= set_upper t) ls ->
     forall x, In_set x out <-> exists s, In s ls /\ In_set x s).
Proof.
  assert (G : forall ls acc src, canonical acc -> Forall canonical ls ->
    (forall x, In_set x acc -> exists s, In s src /\ In_set x s) ->
    exists out, ofold set_or acc ls = Ret out /\ canonical out /\
      (forall x, In_set x out -> exists s, In s (src ++ ls) /\ In_set x s) /\
      (ForallOrdPairs (fun s t => t = [] \/ set_upper s <= set_upper t) (src ++ ls) ->
       (forall x, In_set x acc <-> exists s, In s src /\ In_set x s) ->
       Forall canonical src ->
       forall x, In_set x out <-> exists s, In s (src ++ ls) /\ In_set x s)).
  { induction ls as [|s r IH]; intros acc src Ca F H.
    - exists acc. cbn [ofold]. rewrite app_nil_r. repeat split; auto; apply H1.
    - inv F. destruct (set_or_spec acc s Ca H2) as (u & E & Cu & D).
      destruct (IH u (src ++ [s])) as (out & E' & C' & D1 & D2); auto.
      { intros x Hx. apply D in Hx as [Hx|Hx].
        - exists s. rewrite in_app_iff. cbn. auto.
        - apply union_kept_incl in Hx. apply H in Hx as (t & Ht & Hx). exists t.
          rewrite in_app_iff. auto. }
      rewrite <- app_assoc in D1, D2. cbn [app] in D1, D2.
      exists out. cbn [ofold]. rewrite E. cbn [bind].
      split; auto. split; auto. split; auto. intros P Hacc Fs.
      assert (K : union_kept acc s = acc).
      { destruct s as [|j s']; [reflexivity|]. cbn [union_kept].
        pose proof H2 as H2'. apply canonical_from_iff in H2'.
        apply (keep_all acc (j :: s') _ H2'); [congruence|].
        pose proof Ca as Ca'. apply canonical_from_iff in Ca'.
        apply Forall_forall. intros i Hi.
        destruct (last_opt acc) as [z|] eqn:L; [|apply last_opt_None in L; subst; destruct Hi].
        pose proof (canonical_removelast_upper _ _ _ Ca' L) as R.
        rewrite Forall_forall in R. pose proof (R _ Hi) as Rz.
        assert (Hz : In z acc) by (rewrite (last_opt_Some _ _ L); apply in_app_iff; cbn; auto).
        assert (Hi' : In i acc) by (rewrite (last_opt_Some _ _ L); apply in_app_iff; auto).
        pose proof (canonical_In _ _ Ca Hz) as Wz. pose proof (canonical_In _ _ Ca Hi') as Wi.
        assert (Pz : In_set (lower z) acc).
        { exists z. split; auto. unfold In_iv, wf_iv, finite in *. lia. }
        apply Hacc in Pz as (t & Ht & m & Hm & Hx).
        assert (Ct : canonical t) by (rewrite Forall_forall in Fs; auto).
        apply canonical_from_iff in Ct. pose proof (canon_from_upper_In _ _ _ Ct Hm) as Um.
        assert (set_upper t <= set_upper (j :: s')).
        { clear - P Ht. revert Ht P. induction src as [|a src IHs]; [intros []|].
          intros [->|Ht] P; inv P; auto.
          rewrite Forall_forall in H1. destruct (H1 (j :: s')); auto; [|discriminate].
          apply in_app_iff. cbn. auto. }
        unfold In_iv in Hx. lia. }
      apply D2; auto.
      + intros x. rewrite D, K, Hacc. split.
        * intros [Hx|(t & Ht & Hx)]; [exists s|exists t]; rewrite in_app_iff; cbn; auto.
        * intros (t & Ht & Hx). rewrite in_app_iff in Ht. destruct Ht as [Ht|[<-|[]]]; eauto.
      + apply Forall_app; auto. }
  intros [|s r] F.
  - exists []. cbn. split; auto. split; auto. split.
    + intros x H. now apply In_set_nil in H.
    + intros _ x. rewrite In_set_nil. split; [tauto|]. intros (t & [] & _).
  - inv F. destruct (G r s [s]) as (out & E & C & D1 & D2); auto.
    { intros x Hx. exists s. cbn; auto. }
    exists out. cbn [set_from_sets]. split; auto. split; auto. split; auto.
    intros P. apply D2; auto. intros x. split.
    + intros Hx. exists s. cbn; auto.
    + intros (t & [<-|[]] & Hx); auto.
Qed.
Example C30_collect_sets_case :
  set_from_sets [[mkI 1 2; mkI 10 12]; [mkI 4 5; mkI 11 20]] = Ret [mkI 1 2; mkI 4 5; mkI 10 20].
Proof. reflexivity. Qed.
Theorem C30_collect_sets_refuted : exists ls r x s, Forall canonical ls /\
  set_from_sets ls = Ret r /\ In s ls /\ In_set x s /\ ~ In_set x r.
Proof.
  exists [[mkI 10 11; mkI 20 21; mkI 30 31]; [mkI 1 2]], [mkI 1 2; mkI 10 11], 30,
    [mkI 10 11; mkI 20 21; mkI 30 31].
  split; [repeat constructor; cbn; iv; lia|]. split; [reflexivity|]. split; [cbn; auto|]. split.
  - exists (mkI 30 31). split; [cbn; auto 10|iv; lia].
  - intros (i & [<-|[<-|[]]] & H); iv; lia.
Qed.

(** ** C16 truncation of a set *)

(** Full statement: at any valid time.  Proved: every time but [+oo] for [truncate_before]
    and [-oo] for [truncate_after]. *)
Theorem C16_set_truncate_before_partial : forall l t, canonical l -> valid t -> t < oo ->
  canonical (fst (set_truncate_before l t)) /\
  (forall x, In_set x (fst (set_truncate_before l t)) <-> In_set x l /\ t <= x) /\
  (snd (set_truncate_before l t) = true <-> fst (set_truncate_before l t) <> l).
Proof. exact truncate_before_spec. Qed.
(** Partial: [t = -oo] is left out (C16_set_truncate_refuted). *)
Theorem C16_set_truncate_after_partial : forall l t, canonical l -> valid t -> - oo < t ->
  canonical (fst (set_truncate_after l t)) /\
  (forall x, In_set x (fst (set_truncate_after l t)) <-> In_set x l /\ x <= t) /\
  (snd (set_truncate_after l t) = true <-> fst (set_truncate_after l t) <> l).
Proof. exact truncate_after_spec. Qed.
Example C16_set_case : set_truncate_before [mkI 1 5; mkI 10 20] 12 = ([mkI 12 20], true) /\
  set_truncate_before [mkI 1 5; mkI 10 20] 1 = ([mkI 1 5; mkI 10 20], false) /\
  set_truncate_after [mkI 1 5; mkI 10 20] 12 = ([mkI 1 5; mkI 10 12], true) /\
  set_truncate_after [mkI 1 5; mkI 10 20] 7 = ([mkI 1 5], true).
Proof. vm_compute. auto. Qed.
Theorem C16_set_truncate_refuted : exists l, canonical l /\
  set_is_empty (fst (set_truncate_before l oo)) = false /\
  (forall x, ~ In_set x (fst (set_truncate_before l oo))).
Proof.
  exists [mkI 3 oo]. split; [cbn; iv; lia|]. split; [reflexivity|].
  intros x H. change (In_set x [mkI oo oo]) in H. apply In_set_one in H. iv; lia.
Qed.

(** ** C31 in-place restriction *)

(** Partial: false for the other empty windows (C31_and_assign_refuted). *)
Theorem C31_and_assign_partial : forall l c, canonical l -> valid_cx c ->
  (exists x, In_cx x c) \/ (cx_lower c = oo /\ cx_upper c = - oo) ->
  canonical (set_and_assign l c) /\
  (forall x, In_set x (set_and_assign l c) <-> In_set x l /\ In_cx x c).
Proof.
  intros l c C V H. pose proof (fun x => proj1 (C11_convex_bounds c x V)) as D.
  assert (valid (cx_lower c) /\ valid (cx_upper c)) as [Vl Vu]
    by (clear - V; destruct c; iv; tests; lia).
  unfold set_and_assign. destruct H as [[x0 H]|[El Eu]].
  - apply D in H as H0.
    destruct (truncate_after_spec l (cx_upper c)) as (C1 & D1 & _); auto;
      [unfold finite in *; lia|].
    destruct (truncate_before_spec _ (cx_lower c) C1) as (C2 & D2 & _); auto;
      [unfold finite in *; lia|].
    split; auto. intros x. rewrite D2, D1, D. pose proof (In_set_finite x l). tauto.
  - rewrite El, Eu.
    assert (Z0 : fst (set_truncate_before (fst (set_truncate_after l (- oo))) oo) = []).
    { assert (F : Forall (fun i => upper i < oo) (fst (set_truncate_after l (- oo)))).
      { unfold set_truncate_after.
        pose proof (rposition_spec (fun i => lower i <=? - oo) l) as P.
        destruct (rposition (fun i => lower i <=? - oo) l) as [n|].
        - destruct P as (a & i & b & -> & <- & Hi & Fb).
          apply canonical_from_iff in C. destruct (canon_from_app_inv _ _ _ C) as (Ca & q & Cb & U).
          assert (a = []).
          { destruct a as [|k a]; auto. exfalso.
            destruct Ca as (_ & Wk & _). pose proof (U k (or_introl eq_refl)).
            destruct Cb as (Lq & Wi & _). unfold wf_iv in *. lia. }
          subst a. destruct Cb as (Lq & Wi & Cb).
          assert (T : upper (fst (iv_truncate_after i (- oo))) < oo).
          { unfold iv_truncate_after. destruct (upper i <=? - oo) eqn:E1; [unfold wf_iv in Wi; lia|].
            destruct (- oo <? lower i) eqn:E2; cbn; pts; lia. }
          cbn [length app Nat.add]. destruct (Nat.eqb 1 (S (length b))) eqn:E.
          + destruct b; [|cbn in E; discriminate]. cbn [update_at fst]. auto.
          + cbn [firstn update_at fst]. auto.
        - destruct l; cbn; auto. }
      unfold set_truncate_before.
      assert (Q : position (fun i => oo <=? upper i) (fst (set_truncate_after l (- oo))) = None).
      { induction F as [|i r Hi F IH]; cbn; auto. replace (oo <=? upper i) with false by lia.
        now rewrite IH. }
      rewrite Q. now destruct (fst (set_truncate_after l (- oo))). }
    rewrite Z0. split; [exact I|]. intros x. rewrite In_set_nil, D, El, Eu. pts. lia.
Qed.
Theorem C31_agrees_with_and : forall l c, canonical l -> valid_cx c -> (exists x, In_cx x c) ->
  exists out, set_and_cx l c = Ret out /\
    forall x, In_set x (set_and_assign l c) <-> In_set x out.
Proof.
  intros l c C V H. destruct (C24_and_convex l c C V (or_introl H)) as (out & E & D).
  exists out. split; auto. intros x. rewrite D. now apply C31_and_assign_partial; auto.
Qed.
Example C31_case : set_and_assign [mkI 1 5; mkI 10 20] (CRange 3 12) = [mkI 3 5; mkI 10 11] /\
  set_and_assign [mkI (- oo) 5; mkI 10 oo] (CIv iv_empty) = [].
Proof. vm_compute. auto. Qed.
Theorem C31_and_assign_refuted : exists l c, canonical l /\ valid_cx c /\
  ~ canonical (set_and_assign l c).
Proof.
  exists [mkI 3 oo], (CPoint oo). split; [cbn; iv; lia|]. split; [iv; lia|].
  vm_compute. intuition congruence.
Qed.

(** ** C32 contains, overlaps *)

Lemma cx_box c : valid_cx c -> (exists x, In_cx x c) ->
  wf_iv (mkI (cx_lower c) (cx_upper c)) /\
  forall x, In_cx x c <-> finite x /\ cx_lower c <= x <= cx_upper c.
Proof.
  intros V [x0 H]. pose proof (fun x => proj1 (C11_convex_bounds c x V)) as D.
  assert (valid (cx_lower c) /\ valid (cx_upper c)) as [Vl Vu]
    by (clear - V; destruct c; iv; tests; lia).
  split; auto. apply D in H. unfold wf_iv, valid, finite in *; cbn; lia.
Qed.

(** A set contains a convex window iff it has all its points (the window having one). *)
Theorem C32_contains_convex : forall l c, canonical l -> valid_cx c -> (exists x, In_cx x c) ->
  (set_contains_cx l c = true -> forall x, In_cx x c -> In_set x l) /\
  (strict_ends l -> (forall x, In_cx x c -> In_set x l) -> set_contains_cx l c = true).
Proof.
  intros l c C V H. destruct (cx_box c V H) as [W D]. clear H.
  unfold wf_iv in W; cbn [lower upper] in W. unfold set_contains_cx.
  apply canonical_from_iff in C. pose proof (find_upper l (cx_lower c) _ C) as F.
  destruct (find (fun ts => cx_lower c <=? upper ts) l) as [k|].
  - destruct F as (Hk & Hu & Hm). unfold cx_contains; cbn [w_lower w_upper cx_lower cx_upper].
    pose proof (canon_from_In _ _ _ C Hk) as [_ Wk].
    split.
    + intros E x Hx. apply D in Hx. exists k. split; auto. unfold In_iv. split; [tauto|]. lia.
    + intros S Sub.
      assert (Sk : lower k <> - oo + 1 /\ upper k <> oo - 1).
      { unfold strict_ends in S. rewrite Forall_forall in S. auto. }
      assert (X0 : In_cx (Z.max (cx_lower c) (- oo + 1)) c) by (apply D; pts; lia).
      apply Sub in X0 as (m & Hm' & Fx & Hx). unfold wf_iv in Wk.
      destruct (Hm m Hm') as [->|[U|U]].
      * assert (L : lower k <= cx_lower c) by (pts; lia).
        destruct (Z_le_gt_dec (cx_upper c) (upper k)) as [|G]; [lia|]. exfalso.
        assert (X1 : In_cx (upper k + 1) c) by (apply D; pts; lia).
        apply Sub in X1. eapply canon_upper_not in X1; eauto.
      * pts. lia.
      * pts. lia.
  - split; [discriminate|]. intros S Sub. exfalso.
    assert (X0 : In_cx (Z.max (cx_lower c) (- oo + 1)) c) by (apply D; pts; lia).
    apply Sub in X0 as (m & Hm' & Fx & Hx). pose proof (F m Hm').
    pose proof (canon_from_In _ _ _ C Hm') as [_ Wm]. unfold wf_iv in Wm. pts. lia.
Qed.
Theorem C32_contains_set : forall l m, canonical l -> canonical m ->
  (set_contains l m = true -> forall x, In_set x m -> In_set x l) /\
  (strict_ends l -> (forall x, In_set x m -> In_set x l) -> set_contains l m = true).
Proof.
  intros l m Cl Cm. unfold set_contains.
  assert (K : forall i, In i m -> valid_cx (CIv i) /\ (exists x, In_cx x (CIv i))).
  { intros i Hi. pose proof (canonical_In _ _ Cm Hi) as W. split; [iv; lia|].
    destruct (wf_nonempty i W) as [x Hx]. exists x. exact Hx. }
  split.
  - intros E x (i & Hi & Hx). rewrite forallb_forall in E.
    destruct (K i Hi) as [V N]. eapply (proj1 (C32_contains_convex l (CIv i) Cl V N)); auto.
  - intros S Sub. apply forallb_forall. intros i Hi. destruct (K i Hi) as [V N].
    apply (C32_contains_convex l (CIv i) Cl V N); auto.
    intros x Hx. apply Sub. exists i. split; auto.
Qed.
(** A convex window contains a set iff it has all its points. *)
Theorem C32_convex_contains_set : forall i m, wf_iv i -> canonical m ->
  (cx_contains (CIv i) (WSet m) = true -> forall x, In_set x m -> In_iv x i) /\
  (strict_ends [i] -> (forall x, In_set x m -> In_iv x i) ->
   cx_contains (CIv i) (WSet m) = true).
Proof.
  intros i m W C. unfold cx_contains; cbn [w_lower w_upper cx_lower cx_upper].
  pose proof C as C'. apply canonical_from_iff in C'.
  split.
  - intros E x (k & Hk & F & Hx). split; auto.
    pose proof (canon_from_upper_In _ _ _ C' Hk).
    assert (set_lower m <= lower k).
    { destruct m as [|j r]; [destruct Hk|]. cbn [set_lower]. destruct Hk as [->|Hk]; [lia|].
      destruct C' as (_ & Wj & C'). destruct (canon_from_In _ _ _ C' Hk). unfold wf_iv in Wj. lia. }
    lia.
  - intros S Sub. unfold strict_ends in S. inv S. clear H2. destruct H1 as [S1 S2].
    destruct (last_opt m) as [z|] eqn:L.
    + assert (Hz : In z m) by (rewrite (last_opt_Some _ _ L); apply in_app_iff; cbn; auto).
      destruct m as [|j r]; [destruct Hz|].
      pose proof (canonical_In _ _ C Hz) as Wz.
      pose proof (canonical_In _ _ C (or_introl eq_refl)) as Wj.
      assert (Pj : In_set (Z.max (lower j) (- oo + 1)) (j :: r)).
      { exists j. split; [cbn; auto|]. iv; lia. }
      assert (Pz : In_set (Z.min (upper z) (oo - 1)) (j :: r)).
      { exists z. split; auto. iv; lia. }
      apply Sub in Pj, Pz. unfold set_upper. rewrite L. cbn [set_lower]. iv. lia.
    + apply last_opt_None in L. subst m. cbn. iv. lia.
Qed.
Theorem C32_overlaps_convex : forall l c, canonical l -> valid_cx c -> (exists x, In_cx x c) ->
  (set_overlaps_cx l c = true <-> exists x, In_set x l /\ In_cx x c) /\
  cx_overlaps_set c l = set_overlaps_cx l c.
Proof.
  intros l c C V H. split; [|reflexivity]. destruct (cx_box c V H) as [W D]. clear H.
  unfold wf_iv in W; cbn [lower upper] in W. unfold set_overlaps_cx.
  apply canonical_from_iff in C. pose proof (find_upper l (cx_lower c) _ C) as F.
  destruct (find (fun ts => cx_lower c <=? upper ts) l) as [k|].
  - destruct F as (Hk & Hu & Hm).
    pose proof (canon_from_In _ _ _ C Hk) as [_ Wk]. split.
    + intros E. assert (Wc : wf_iv (mkI (Z.max (lower k) (cx_lower c)) (Z.min (upper k) (cx_upper c))))
        by (unfold wf_iv in *; cbn; lia).
      destruct (wf_nonempty _ Wc) as [x Hx]. exists x.
      unfold In_iv in Hx; cbn [lower upper] in Hx. split.
      * exists k. split; auto. unfold In_iv. split; [tauto|lia].
      * apply D. split; [tauto|lia].
    + intros (x & (m & Hm' & Fx & Hx) & Hc). apply D in Hc. unfold wf_iv in Wk.
      destruct (Hm m Hm') as [->|[U|U]]; lia.
  - split; [discriminate|]. intros (x & (m & Hm' & Fx & Hx) & Hc). apply D in Hc.
    pose proof (F m Hm'). lia.
Qed.
Theorem C32_overlaps_set : forall l m, canonical l -> canonical m ->
  (set_overlaps l m = true <-> exists x, In_set x l /\ In_set x m).
Proof.
  intros l m Cl Cm. unfold set_overlaps. rewrite existsb_exists.
  assert (K : forall i, In i m -> valid_cx (CIv i) /\ (exists x, In_cx x (CIv i))).
  { intros i Hi. pose proof (canonical_In _ _ Cm Hi) as W. split; [iv; lia|].
    destruct (wf_nonempty i W) as [x Hx]. exists x. exact Hx. }
  split.
  - intros (i & Hi & E). destruct (K i Hi) as [V N].
    apply (C32_overlaps_convex l (CIv i) Cl V N) in E as (x & H1 & H2). exists x. split; auto.
    exists i. auto.
  - intros (x & H1 & (i & Hi & Hx)). exists i. split; auto. destruct (K i Hi) as [V N].
    apply (C32_overlaps_convex l (CIv i) Cl V N). exists x. auto.
Qed.
Example C32_case : set_contains_cx [mkI 1 5; mkI 10 20] (CRange 11 20) = true /\
  set_contains_cx [mkI 1 5; mkI 10 20] (CRange 4 12) = false /\
  set_overlaps_cx [mkI 1 5; mkI 10 20] (CRange 6 10) = false /\
  set_contains [mkI 1 5; mkI 10 20] [mkI 2 3; mkI 10 11] = true /\
  set_overlaps [mkI 1 5; mkI 10 20] [mkI 6 9; mkI 20 30] = true.
Proof. vm_compute. auto. Qed.
(** Findings: a bounded set does not contain the empty interval, and the full set overlaps it. *)
Theorem C32_empty_interval_refuted :
  set_contains_cx [mkI 1 5] (CIv iv_empty) = false /\ set_overlaps_cx [iv_all] (CIv iv_empty) = true.
Proof. vm_compute. auto. Qed.

(** ** C33 equality and bounds *)

Lemma list_eq_iff l : forall m, list_eq l m = true <-> l = m.
Proof.
  induction l as [|i r IH]; intros [|j s]; cbn [list_eq]; try (split; congruence).
  rewrite Bool.andb_true_iff, IH, (proj1 (C18_eq_interval i j)). split; [intros [-> ->]; auto|].
  intros E; inv E; auto.
Qed.
Theorem C33_set_eq : forall l m,
  (set_eq l (WSet m) = true <-> l = m) /\
  (canonical l -> canonical m -> strict_ends l -> strict_ends m ->
   (set_eq l (WSet m) = true <-> forall x, In_set x l <-> In_set x m)).
Proof.
  intros l m. unfold set_eq; cbn [w_iter]. rewrite list_eq_iff. split; [reflexivity|].
  intros Cl Cm Sl Sm. split; [now intros ->|]. intros E. apply canonical_from_iff in Cl, Cm.
  eapply canonical_unique; eauto.
Qed.
Theorem C33_set_eq_convex : forall l c,
  set_eq l (WCx c) = true <->
  l = (if cx_is_empty c then [] else [mkI (cx_lower c) (cx_upper c)]).
Proof. intros l c. unfold set_eq; cbn [w_iter]. apply list_eq_iff. Qed.
Example C33_eq_case : set_eq [mkI 1 5] (WSet [mkI 1 5]) = true /\
  set_eq [mkI 1 5] (WCx (CRange 1 6)) = true /\ set_eq [mkI 1 5] (WSet [mkI 1 6]) = false.
Proof. vm_compute. auto. Qed.

Lemma set_lower_le b l i : canon_from b l -> In i l -> set_lower l <= lower i.
Proof.
  intros C H. destruct l as [|j r]; [destruct H|]. cbn [set_lower]. destruct H as [->|H]; [lia|].
  destruct C as (_ & W & C). destruct (canon_from_In _ _ _ C H). unfold wf_iv in W. lia.
Qed.

(** The bounds of a non-empty set are its extreme points, or the infinities when there are
    points as far as one likes. *)
Theorem C33_bounds : forall l, canonical l -> l <> [] ->
  (forall x, In_set x l -> set_lower l <= x <= set_upper l) /\
  (finite (set_lower l) -> In_set (set_lower l) l) /\
  (finite (set_upper l) -> In_set (set_upper l) l) /\
  (set_lower l = - oo -> exists x, finite x /\ forall y, finite y -> y <= x -> In_set y l) /\
  (set_upper l = oo -> exists x, finite x /\ forall y, finite y -> x <= y -> In_set y l) /\
  valid (set_lower l) /\ valid (set_upper l) /\ set_lower l <= set_upper l /\
  set_envelope l = mkI (set_lower l) (set_upper l).
Proof.
  intros l C N. pose proof C as C'. apply canonical_from_iff in C'.
  destruct (last_opt l) as [z|] eqn:L; [|apply last_opt_None in L; congruence].
  assert (Hz : In z l) by (rewrite (last_opt_Some _ _ L); apply in_app_iff; cbn; auto).
  assert (U : set_upper l = upper z) by (unfold set_upper; now rewrite L).
  destruct l as [|j r]; [congruence|]. assert (Hj : In j (j :: r)) by (cbn; auto).
  pose proof (canonical_In _ _ C Hz) as Wz. pose proof (canonical_In _ _ C Hj) as Wj.
  pose proof (set_lower_le _ _ _ C' Hz) as Lz. rewrite U. change (set_lower (j :: r)) with (lower j) in *.
  split.
  { intros x (i & Hi & F & Hx). pose proof (canon_from_upper_In _ _ _ C' Hi).
    pose proof (set_lower_le _ _ _ C' Hi). change (set_lower (j :: r)) with (lower j) in *. lia. }
  split; [intros F; exists j; split; auto; iv; lia|].
  split; [intros F; exists z; split; auto; iv; lia|].
  split.
  { intros E. exists (Z.min (upper j) (oo - 1)). split; [iv; lia|].
    intros y Fy Hy. exists j. split; auto. iv; lia. }
  split.
  { intros E. exists (Z.max (lower z) (- oo + 1)). split; [iv; lia|].
    intros y Fy Hy. exists z. split; auto. iv; lia. }
  split; [iv; lia|]. split; [iv; lia|]. split; [unfold wf_iv in *; lia|].
  unfold set_envelope. rewrite U. reflexivity.
Qed.
Theorem C33_empty_bounds : set_lower [] = oo /\ set_upper [] = - oo /\
  is_empty_repr (set_envelope []).
Proof. vm_compute. auto. Qed.

Theorem C33_queries : forall l, canonical l ->
  (set_is_empty l = true <-> forall x, ~ In_set x l) /\
  (set_is_low_bounded l = true <-> l <> [] /\ set_lower l <> - oo) /\
  (set_is_up_bounded l = true <-> l <> [] /\ set_upper l <> oo) /\
  (set_is_bounded l = true <-> l <> [] /\ finite (set_lower l) /\ finite (set_upper l)) /\
  (set_is_convex l = true <->
     forall x y z, In_set x l -> In_set z l -> x <= y <= z -> In_set y l) /\
  (set_is_all l = true -> forall x, finite x -> In_set x l \/ l = []) /\
  (strict_ends l -> (forall x, finite x -> In_set x l) -> set_is_all l = true).
Proof.
  intros l C.
  assert (E : set_is_empty l = true <-> forall x, ~ In_set x l).
  { destruct l as [|i r]; cbn [set_is_empty].
    - split; auto. intros _ x. now rewrite In_set_nil.
    - split; [discriminate|]. intros H. exfalso.
      destruct (wf_nonempty i) as [x Hx]; [eapply canonical_In; eauto; cbn; auto|].
      apply (H x). apply In_set_cons. auto. }
  assert (LB : set_is_low_bounded l = true <-> l <> [] /\ set_lower l <> - oo).
  { destruct l as [|i r]; cbn [set_is_low_bounded set_lower]; [split; [discriminate|tauto]|].
    unfold iv_is_low_bounded. pts. split; [intros H; split; [congruence|lia]|intros [_ H]; lia]. }
  assert (UB : set_is_up_bounded l = true <-> l <> [] /\ set_upper l <> oo).
  { unfold set_is_up_bounded, set_upper. destruct (last_opt l) as [z|] eqn:L.
    - assert (l <> []) by (intros ->; discriminate).
      unfold iv_is_up_bounded. pts. split; [intros H'; split; [auto|lia]|intros [_ H']; lia].
    - apply last_opt_None in L. subst. split; [discriminate|tauto]. }
  split; auto. split; auto. split; auto. split.
  { unfold set_is_bounded. rewrite Bool.andb_true_iff, LB, UB. split.
    - intros [[N H1] [_ H2]]. destruct (C33_bounds l C N) as (_ & _ & _ & _ & _ & V1 & V2 & V3 & _).
      pts. repeat split; auto; lia.
    - intros (N & F1 & F2). pts. repeat split; auto; lia. }
  split.
  { unfold set_is_convex, set_convex_count. split.
    - intros H x y z Hx Hz Hy. destruct l as [|i [|j r]].
      + now apply In_set_nil in Hx.
      + rewrite In_set_one in *. iv; lia.
      + cbn [length] in H. lia.
    - intros H. destruct l as [|i [|j r]]; [reflexivity|reflexivity|]. exfalso.
      pose proof C as C'. apply canonical_from_iff in C'.
      pose proof (canonical_In _ _ C (or_introl eq_refl)) as Wi.
      pose proof (canonical_In _ _ C (or_intror (or_introl eq_refl))) as Wj.
      destruct C as (_ & G & _).
      eapply canon_upper_not; [exact C'|left; reflexivity|].
      apply (H (upper i) _ (lower j)); [|  |lia].
      + exists i. split; [cbn; auto|]. iv; lia.
      + exists j. split; [cbn; auto|]. iv; lia. }
  split.
  { unfold set_is_all, set_is_convex, set_convex_count. intros H x Fx.
    destruct l as [|i [|j r]]; auto; [|cbn [length] in H; lia]. left.
    apply In_set_one. unfold set_is_low_bounded, set_is_up_bounded in H. cbn [last_opt] in H.
    unfold iv_is_low_bounded, iv_is_up_bounded in H. iv. lia. }
  intros S H. destruct l as [|i r].
  { exfalso. apply (In_set_nil 0). apply H. pts; lia. }
  pose proof (H (- oo + 1) ltac:(pts; lia)) as H1. pose proof (H (oo - 1) ltac:(pts; lia)) as H2.
  pose proof C as C'. apply canonical_from_iff in C'.
  assert (N : i :: r <> []) by congruence.
  assert (r = []).
  { destruct r as [|j r]; auto. exfalso.
    pose proof (canonical_In _ _ C (or_introl eq_refl)) as Wi.
    pose proof (canonical_In _ _ C (or_intror (or_introl eq_refl))) as Wj.
    destruct C as (_ & G & _).
    eapply canon_upper_not; [exact C'|left; reflexivity|]. apply H. iv; lia. }
  subst r. apply In_set_one in H1, H2. unfold strict_ends in S. inv S.
  unfold set_is_all, set_is_convex, set_convex_count, set_is_low_bounded, set_is_up_bounded.
  cbn [length last_opt]. pose proof (canonical_In _ _ C (or_introl eq_refl)) as Wi.
  unfold iv_is_low_bounded, iv_is_up_bounded. iv. lia.
Qed.
Theorem C33_is_singleton : forall l, canonical l ->
  (set_is_singleton l = true -> exists t, forall x, In_set x l <-> x = t) /\
  (forall t, (forall x, In_set x l <-> x = t) -> - oo + 1 < t < oo - 1 -> set_is_singleton l = true).
Proof.
  intros l C. split.
  - destruct l as [|i [|j r]]; cbn [set_is_singleton]; try discriminate.
    intros E. exists (lower i). intros x. rewrite In_set_one.
    pose proof (canonical_In _ _ C (or_introl eq_refl)) as Wi.
    unfold iv_is_singleton in E. iv. lia.
  - intros t H R. assert (Ht : In_set t l) by now apply H.
    assert (A : ~ In_set (t - 1) l) by (rewrite H; lia).
    assert (B : ~ In_set (t + 1) l) by (rewrite H; lia).
    destruct Ht as (i & Hi & Hx).
    assert (Ei : i = mkI t t).
    { assert (~ In_iv (t - 1) i) by (intros ?; apply A; exists i; auto).
      assert (~ In_iv (t + 1) i) by (intros ?; apply B; exists i; auto).
      apply iv_ext; iv; lia. }
    assert (All : forall k, In k l -> k = i).
    { intros k Hk. pose proof (canonical_In _ _ C Hk) as Wk.
      destruct (wf_nonempty k Wk) as [x Hx'].
      assert (x = t) by (apply H; exists k; auto). subst x.
      assert (~ In_iv (t - 1) k) by (intros ?; apply A; exists k; auto).
      assert (~ In_iv (t + 1) k) by (intros ?; apply B; exists k; auto).
      rewrite Ei. apply iv_ext; iv; lia. }
    destruct l as [|j [|k r]]; [destruct Hi| |].
    + rewrite (All j (or_introl eq_refl)), Ei. cbn [set_is_singleton]. unfold iv_is_singleton; cbn. lia.
    + exfalso. pose proof (All j (or_introl eq_refl)). pose proof (All k (or_intror (or_introl eq_refl))).
      subst j k. destruct C as (W & G & _). unfold wf_iv in W. lia.
Qed.
Example C33_case : set_lower [mkI 1 5; mkI 10 oo] = 1 /\ set_upper [mkI 1 5; mkI 10 oo] = oo /\
  set_is_low_bounded [mkI 1 5; mkI 10 oo] = true /\ set_is_up_bounded [mkI 1 5; mkI 10 oo] = false.
Proof. vm_compute. auto. Qed.

(** ** C18 comparison of sets *)

Theorem C18_set_lt : forall l m, canonical l -> canonical m -> l <> [] -> m <> [] ->
  (set_lt l (WSet m) = true <-> forall x y, In_set x l -> In_set y m -> x < y) /\
  set_gt l (WSet m) = set_lt m (WSet l) /\
  (set_lt l (WSet m) = true -> set_lt m (WSet l) = false).
Proof.
  intros l m Cl Cm Nl Nm. unfold set_lt, set_gt, bd_lt, bd_gt; cbn [w_lower w_upper].
  destruct (C33_bounds l Cl Nl) as (B1 & _ & F1 & _ & I1 & V1 & V1' & L1 & _).
  destruct (C33_bounds m Cm Nm) as (B2 & F2 & _ & I2 & _ & V2 & V2' & L2 & _).
  split; [|split; [reflexivity|lia]]. split.
  - intros E x y Hx Hy. apply B1 in Hx. apply B2 in Hy. lia.
  - intros H. destruct (Z_lt_le_dec (set_upper l) (set_lower m)); [lia|]. exfalso.
    assert (X : exists x, In_set x l /\ (x = set_upper l \/ (set_upper l = oo /\ x = oo - 1))).
    { destruct (Z.eq_dec (set_upper l) oo) as [E|E].
      - destruct (I1 E) as (x & Fx & Hx). exists (oo - 1). split; [apply Hx; pts; lia|].
        right. auto.
      - exists (set_upper l). split; auto. apply F1. split; [|unfold valid in *; lia].
        destruct (last_opt l) as [z|] eqn:L; [|apply last_opt_None in L; congruence].
        unfold set_upper. rewrite L.
        assert (Hz : In z l) by (rewrite (last_opt_Some _ _ L); apply in_app_iff; cbn; auto).
        apply (canonical_In _ _ Cl) in Hz. unfold wf_iv in Hz. lia. }
    destruct X as (x & Hx & Ex).
    assert (Lm : set_lower m < oo).
    { destruct m as [|j r]; [congruence|]. cbn [set_lower].
      pose proof (canonical_In _ _ Cm (or_introl eq_refl)) as W. unfold wf_iv in W. lia. }
    destruct (Z.eq_dec (set_lower m) (- oo)) as [E|E].
    + destruct (I2 E) as (y & Fy & Hy). pose proof (In_set_finite _ _ Hx).
      assert (Hy' : In_set (- oo + 1) m) by (apply Hy; unfold finite in *; pts; lia).
      specialize (H _ _ Hx Hy'). unfold finite in *. lia.
    + assert (Hy' : In_set (set_lower m) m) by (apply F2; unfold finite, valid in *; lia).
      pose proof (In_set_finite _ _ Hx). pose proof (In_set_finite _ _ Hy').
      specialize (H _ _ Hx Hy'). unfold finite in *. lia.
Qed.
Theorem C18_set_lt_trans : forall l m n, canonical m -> m <> [] ->
  set_lt l (WSet m) = true -> set_lt m (WSet n) = true -> set_lt l (WSet n) = true.
Proof.
  intros l m n C N. unfold set_lt, bd_lt; cbn [w_lower].
  destruct (C33_bounds m C N) as (_ & _ & _ & _ & _ & _ & _ & L & _). lia.
Qed.
Theorem C18_set_partial_cmp : forall l m, canonical l -> canonical m -> l <> [] -> m <> [] ->
  match set_partial_cmp l (WSet m) with
  | Some Lt => set_lt l (WSet m) = true /\ set_gt l (WSet m) = false /\ l <> m
  | Some Gt => set_lt l (WSet m) = false /\ set_gt l (WSet m) = true /\ l <> m
  | Some Eq => set_lt l (WSet m) = false /\ set_gt l (WSet m) = false /\ l = m
  | None => set_lt l (WSet m) = false /\ set_gt l (WSet m) = false /\ l <> m
  end /\
  (set_le l (WSet m) = true <->
     set_partial_cmp l (WSet m) = Some Lt \/ set_partial_cmp l (WSet m) = Some Eq) /\
  (set_ge l (WSet m) = true <->
     set_partial_cmp l (WSet m) = Some Gt \/ set_partial_cmp l (WSet m) = Some Eq).
Proof.
  intros l m Cl Cm Nl Nm. unfold set_partial_cmp, bd_partial_cmp, set_le, set_ge.
  fold (set_lt l (WSet m)). fold (set_gt l (WSet m)).
  destruct (C33_bounds l Cl Nl) as (_ & _ & _ & _ & _ & _ & _ & L1 & _).
  destruct (C33_bounds m Cm Nm) as (_ & _ & _ & _ & _ & _ & _ & L2 & _).
  pose proof (proj1 (C33_set_eq l m)) as E.
  assert (A : set_lt l (WSet m) = true -> set_gt l (WSet m) = false /\ l <> m).
  { unfold set_lt, set_gt, bd_lt, bd_gt; cbn [w_lower w_upper]. intros H. split; [lia|].
    intros ->. lia. }
  assert (B : set_gt l (WSet m) = true -> l <> m).
  { unfold set_gt, bd_gt; cbn [w_upper]. intros H ->. lia. }
  destruct (set_lt l (WSet m)), (set_gt l (WSet m)), (set_eq l (WSet m)); cbn;
    intuition congruence.
Qed.
Example C18_set_case : set_partial_cmp [mkI 1 2; mkI 5 6] (WSet [mkI 7 9]) = Some Lt /\
  set_partial_cmp [mkI 1 2; mkI 5 6] (WSet [mkI 4 9]) = None.
Proof. vm_compute. auto. Qed.

(** ** C34 size hints, C35 termination and fusion *)

(** What an iterator state still yields: the items of successive calls of [next] up to the
    first [None]. *)
Inductive yields {S A} (next : S -> outcome (option A * S)) : S -> list A -> Prop :=
| yields_none s s' : next s = Ret (None, s') -> yields next s []
| yields_some s s' a l : next s = Ret (Some a, s') -> yields next s' l -> yields next s (a :: l).

Lemma emits_yields {S A} (step : S -> S * turn A) mu fuel :
  (forall s s' t, step s = (s', t) -> t <> Stop -> (mu s' < mu s)%nat) ->
  (forall s, (mu s < fuel s)%nat) ->
  forall l s, emits step s l -> yields (fun s => run_next step (fuel s) s) s l.
Proof.
  intros dec Hf. induction l as [|a l IH]; intros s H;
    pose proof (run_next_emits step mu dec (fuel s) s _ H (Hf s)) as N.
  - destruct N as [s' N]. econstructor 1; eauto.
  - destruct N as (s' & N & H' & _). econstructor 2; eauto.
Qed.
Lemma yields_fun {S A} (next : S -> outcome (option A * S)) s l : yields next s l ->
  forall m, yields next s m -> l = m.
Proof.
  induction 1 as [s s' E|s s' a l E H IH]; intros m Hm; inv Hm; try congruence.
  rewrite E in H0. inv H0. f_equal. auto.
Qed.

(** From any state whatever, the three iterators reach [None] after finitely many calls. *)
Theorem C35_terminates :
  (forall s, exists l, yields inter_next s l) /\
  (forall s, exists l, yields union_next s l) /\
  (forall s, exists l, yields (fun s => Ret (compl_next s)) s l).
Proof.
  split; [|split].
  - intros s. destruct (emits_total inter_turn inter_mu inter_dec s) as [l H]. exists l.
    apply (emits_yields inter_turn inter_mu inter_fuel inter_dec); [|assumption].
    intros; unfold inter_fuel, inter_mu; lia.
  - intros s. destruct (emits_total union_turn union_mu union_dec s) as [l H]. exists l.
    apply (emits_yields union_turn union_mu union_fuel union_dec); [|assumption].
    intros; unfold union_fuel, union_mu; destruct (un_phase _); lia.
  - intros [l lo].
    assert (G : forall n l lo, (length l <= n)%nat ->
      exists m, yields (fun s => Ret (compl_next s)) (mkCompl l lo) m).
    { assert (Z0 : forall lo, exists m, yields (fun s => Ret (compl_next s)) (mkCompl [] lo) m).
      { intros lo'. destruct (is_future_infinite lo') eqn:E.
        - exists []. econstructor 1. unfold compl_next; cbn [co_iter co_lower].
          destruct (is_past_infinite lo'); cbn [compl_for]; rewrite E; reflexivity.
        - exists [mkI lo' INF]. econstructor 2.
          + unfold compl_next; cbn [co_iter co_lower].
            destruct (is_past_infinite lo'); cbn [compl_for]; rewrite E; reflexivity.
          + econstructor 1. reflexivity. }
      assert (F : forall l lo, match compl_for l lo with
                | (None, _) => True
                | (Some _, s') => (length (co_iter s') <= length l)%nat /\
                                  (l = [] -> co_iter s' = [] /\ co_lower s' = INF) /\
                                  (l <> [] -> (length (co_iter s') < length l)%nat \/
                                     (co_iter s' = [] /\ co_lower s' = INF)) end).
      { clear. induction l as [|n r IH]; intros lo; cbn [compl_for].
        - destruct (is_future_infinite lo); [exact I|]. cbn. split; [lia|]. split; [auto|]. intros; congruence.
        - destruct (lo <? lower n); [cbn; split; [lia|]; split; [congruence|]; intros; left; lia|].
          specialize (IH lo). destruct (compl_for r lo) as [[k|] s']; auto.
          destruct IH as (I1 & I2 & I3). cbn [length]. split; [lia|]. split; [congruence|].
          intros _. destruct r as [|q r]; [right; auto|].
          destruct I3 as [I3|I3]; [congruence|left; cbn in *; lia|right; auto]. }
      induction n as [|n IH]; intros m lo' Hm.
      - destruct m; [apply Z0|cbn in Hm; lia].
      - destruct m as [|k r]; [apply Z0|].
        destruct (compl_next (mkCompl (k :: r) lo')) as [[y|] s'] eqn:E.
        + assert (Hs : (length (co_iter s') <= n)%nat \/ co_iter s' = []).
          { unfold compl_next in E. cbn [co_iter co_lower] in E.
            destruct (is_past_infinite lo').
            - destruct (just_before (lower k) =? - INF).
              + pose proof (F r (just_after (upper k))) as Fr. rewrite E in Fr.
                cbn [length] in Hm. left. lia.
              + inv E. cbn in *. left. lia.
            - pose proof (F (k :: r) lo') as Fr. rewrite E in Fr. destruct Fr as (_ & _ & Fr).
              destruct Fr as [Fr|[Fr _]]; [congruence| |auto]. left. cbn in *. lia. }
          destruct s' as [l' lo'']; cbn [co_iter] in Hs.
          assert (exists m', yields (fun s => Ret (compl_next s)) (mkCompl l' lo'') m') as [m' Hm'].
          { destruct Hs as [Hs| ->]; [apply IH; auto|apply Z0]. }
          exists (y :: m'). econstructor 2; [rewrite E; reflexivity|exact Hm'].
        + exists []. econstructor 1. rewrite E. reflexivity. }
    apply (G (length l)); lia.
Qed.
(** Once [None], always [None]. *)
Theorem C35_fused :
  (forall s s', inter_next s = Ret (None, s') -> inter_next s' = Ret (None, s')) /\
  (forall s s', union_next s = Ret (None, s') -> union_next s' = Ret (None, s')) /\
  (forall s s', compl_next s = (None, s') -> compl_next s' = (None, s')).
Proof.
  split; [|split].
  - assert (G : forall f s s', run_next inter_turn f s = Ret (None, s') -> inter_turn s' = (s', Stop)).
    { induction f as [|f IH]; intros s s' H; [discriminate|]. cbn in H.
      destruct (inter_turn s) as [s'' [|a|]] eqn:E; eauto; [discriminate|]. inv H.
      clear IH. destruct s as [i j ph t]. unfold inter_turn in E; cbn in E.
      destruct ph, i, j; tests_in E; inv E; reflexivity. }
    intros s s' H. apply G in H. unfold inter_next, inter_fuel. cbn [run_next]. now rewrite H.
  - assert (G : forall f s s', run_next union_turn f s = Ret (None, s') -> union_turn s' = (s', Stop)).
    { induction f as [|f IH]; intros s s' H; [discriminate|]. cbn in H.
      destruct (union_turn s) as [s'' [|a|]] eqn:E; eauto; [discriminate|]. inv H.
      clear IH. destruct s as [i j ph t]. unfold union_turn in E; cbn in E.
      destruct ph, i, j; tests_in E; inv E; reflexivity. }
    intros s s' H. apply G in H. unfold union_next, union_fuel. cbn [run_next]. now rewrite H.
  - assert (F : forall l lo s', compl_for l lo = (None, s') ->
              s' = mkCompl [] lo /\ is_future_infinite lo = true).
    { induction l as [|n r IH]; intros lo s' H; cbn [compl_for] in H.
      - destruct (is_future_infinite lo) eqn:E; inv H. auto.
      - destruct (lo <? lower n); [discriminate|]. auto. }
    assert (K : forall lo, is_future_infinite lo = true ->
              compl_next (mkCompl [] lo) = (None, mkCompl [] lo)).
    { intros lo E. unfold compl_next; cbn [co_iter co_lower].
      destruct (is_past_infinite lo); cbn [compl_for]; now rewrite E. }
    intros [l lo] s' H. unfold compl_next in H; cbn [co_iter co_lower] in H.
    destruct (is_past_infinite lo).
    + destruct l as [|n r].
      * apply F in H as [-> H]. auto.
      * destruct (just_before (lower n) =? - INF); [|discriminate]. apply F in H as [-> H]. auto.
    + apply F in H as [-> H]. auto.
Qed.
Example C35_case : yields inter_next (inter_init [mkI 1 5; mkI 10 12] [mkI 3 11]) [mkI 3 5; mkI 10 11].
Proof. repeat (econstructor; [reflexivity|]). econstructor. reflexivity. Qed.

(** Intersection: at every state, the hint brackets the number of items to come. *)
Theorem C34_inter_hint : forall s l, yields inter_next s l ->
  fst (inter_hint s) <= Z.of_nat (length l) /\
  exists hi, snd (inter_hint s) = Some hi /\ Z.of_nat (length l) <= hi.
Proof.
  intros s l H.
  destruct (emits_total inter_turn inter_mu inter_dec s) as [l' E].
  assert (l' = l).
  { eapply yields_fun; [|exact H].
    apply (emits_yields inter_turn inter_mu inter_fuel inter_dec); [|assumption].
    intros; unfold inter_fuel, inter_mu; lia. }
  subst l'. clear H.
  assert (L : (length l <= inter_mu s)%nat).
  { induction E as [s s' E|s s' l E H IH|s s' a l E H IH]; cbn [length]; [lia| |].
    - apply inter_dec in E; [lia|congruence].
    - apply inter_dec in E; [lia|congruence]. }
  unfold inter_hint, inter_mu in *. destruct (in_phase s) eqn:P; cbn [fst snd];
    (split; [lia|eexists; split; [reflexivity|]]); try lia.
  inversion E; subst; [cbn; lia| |]; exfalso;
    match goal with H : inter_turn s = _ |- _ => unfold inter_turn in H; rewrite P in H; discriminate end.
Qed.
Example C34_inter_case : inter_hint (inter_init [mkI 1 5; mkI 10 12] [mkI 3 11]) = (0, Some 3).
Proof. reflexivity. Qed.

(** Union.  Full statement: as for the intersection (refuted below).  Proved: the upper hint
    is at most one too small, and right before the first call; the lower hint is right. *)
Theorem C34_union_hint_partial : forall s l, yields union_next s l ->
  fst (union_hint s) <= Z.of_nat (length l) /\
  exists hi, snd (union_hint s) = Some hi /\ Z.of_nat (length l) <= hi + 1 /\
    (un_phase s = UInit -> Z.of_nat (length l) <= hi).
Proof.
  intros s l H.
  destruct (emits_total union_turn union_mu union_dec s) as [l' E].
  assert (l' = l).
  { eapply yields_fun; [|exact H].
    apply (emits_yields union_turn union_mu union_fuel union_dec); [|assumption].
    intros; unfold union_fuel, union_mu; destruct (un_phase _); lia. }
  subst l'. clear H.
  assert (L : (length l <= union_mu s)%nat).
  { induction E as [s s' E|s s' l E H IH|s s' a l E H IH]; cbn [length]; [lia| |].
    - apply union_dec in E; [lia|congruence].
    - apply union_dec in E; [lia|congruence]. }
  destruct s as [i j ph t]. unfold union_hint, union_mu in *. cbn [un_i un_j un_phase] in *.
  destruct ph; cbn [fst snd]; try (split; [lia|eexists; split; [reflexivity|]]; split; [lia|intros; (lia || discriminate)]).
  - rewrite (emits_fun union_turn _ _ E _ (union_only_i i j t)).
    split; [lia|eexists; split; [reflexivity|]]; split; [lia|discriminate].
  - rewrite (emits_fun union_turn _ _ E _ (union_only_j i j t)).
    split; [lia|eexists; split; [reflexivity|]]; split; [lia|discriminate].
  - inversion E; subst; cbn in *; try discriminate.
    split; [lia|eexists; split; [reflexivity|]]; split; [lia|discriminate].
Qed.
Theorem C34_union_hint_refuted : exists a b x s l hi, canonical a /\ canonical b /\
  union_next (union_init a b) = Ret (Some x, s) /\ yields union_next s l /\
  snd (union_hint s) = Some hi /\ hi < Z.of_nat (length l).
Proof.
  exists [mkI 1 2], [mkI 10 11], (mkI 1 2), (mkUnion [] [] UWaitI (mkI 10 11)), [mkI 10 11], 0.
  split; [cbn; iv; lia|]. split; [cbn; iv; lia|]. split; [reflexivity|]. split.
  - econstructor 2; [reflexivity|]. econstructor 1. reflexivity.
  - split; [reflexivity|]. cbn. lia.
Qed.

(** Complement.  Proved: right before the first call on a canonical list; refuted later. *)
Theorem C34_compl_hint_partial : forall l, canonical l ->
  fst (compl_hint (compl_init l)) <= Z.of_nat (length (set_not l)) /\
  exists hi, snd (compl_hint (compl_init l)) = Some hi /\ Z.of_nat (length (set_not l)) <= hi.
Proof.
  intros l C. unfold compl_hint, compl_init; cbn [co_iter co_lower fst snd].
  replace (is_finite (- INF)) with false by reflexivity.
  assert (G : forall r p, (length r <= length (not_gaps p r) <= S (length r))%nat).
  { induction r as [|i r IH]; intros p; cbn [not_gaps].
    - destruct (is_future_infinite p); cbn; lia.
    - cbn [length]. specialize (IH (just_after (upper i))). lia. }
  destruct l as [|i r]; cbn [set_not].
  - cbn. split; [lia|]. eexists. split; [reflexivity|]. lia.
  - rewrite app_length. specialize (G r (just_after (upper i))). cbn [length] in *.
    destruct (is_past_infinite _); cbn [length]; (split; [lia|]; eexists; split; [reflexivity|]; lia).
Qed.
Example C34_compl_case : compl_hint (compl_init [mkI 1 2; mkI 5 6]) = (1, Some 3) /\
  set_not [mkI 1 2; mkI 5 6] = [mkI (- oo) 0; mkI 3 4; mkI 7 oo].
Proof. vm_compute. auto. Qed.
Theorem C34_compl_hint_refuted : exists l x s m hi, canonical l /\
  compl_next (compl_init l) = (Some x, s) /\ yields (fun s => Ret (compl_next s)) s m /\
  snd (compl_hint s) = Some hi /\ hi < Z.of_nat (length m).
Proof.
  exists [mkI 1 2], (mkI (- oo) 0), (mkCompl [] 3), [mkI 3 oo], 0.
  split; [cbn; iv; lia|]. split; [reflexivity|]. split.
  - econstructor 2; [reflexivity|]. econstructor 1. reflexivity.
  - split; [reflexivity|]. cbn. lia.
Qed.
