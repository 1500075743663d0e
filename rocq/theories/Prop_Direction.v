(** C100: the direction of time does not matter, except for unions. *)
From Verif Require Import Machine TimeValue Spec Tac TimeValueProofs Interval Iter TimeSet Relns
  Transl SpecSets SetProofs CollectProofs Prop_Interval SetOpsProofs Prop_TimeSet Prop_Transl
  Graph SpecGraph GraphProofs GraphInv GraphSound Prop_Graph Prop_Propagation
  Scheduler SpecSched SchedProofs SchedBox SchedConv Prop_Scheduler Prop_SchedConvex.

(** ** Sets *)

Lemma neg_touch i j : touch (iv_neg i) (iv_neg j) = touch i j.
Proof. unfold touch, iv_neg, tv_neg. cbn [lower upper]. lia. Qed.
Lemma neg_cap i j : cap (iv_neg i) (iv_neg j) = iv_neg (cap i j).
Proof. unfold cap, iv_neg, tv_neg. cbn [lower upper]. f_equal; lia. Qed.
Lemma neg_caps i b : caps (iv_neg i) (set_neg b) = set_neg (caps i b).
Proof.
  unfold caps, set_neg. rewrite <- map_rev. rewrite !map_rev, <- !map_rev.
  assert (F : forall m, filter (touch (iv_neg i)) (map iv_neg m) = map iv_neg (filter (touch i) m)).
  { induction m as [|j r IH]; auto. cbn [map filter]. rewrite neg_touch. destruct (touch i j); cbn [map]; now rewrite IH. }
  rewrite F. assert (Rv : forall m, filter (touch i) (rev m) = rev (filter (touch i) m)).
  { induction m as [|j r IH]; auto. cbn [rev filter]. rewrite filter_app, IH. cbn [filter].
    destruct (touch i j); cbn [rev]; auto. now rewrite app_nil_r. }
  rewrite Rv, !map_map. apply map_ext. intros j. apply neg_cap.
Qed.
Lemma neg_app l m : set_neg (l ++ m) = set_neg m ++ set_neg l.
Proof. unfold set_neg. now rewrite rev_app_distr, map_app. Qed.
Lemma all_caps_app a a' b : all_caps (a ++ a') b = all_caps a b ++ all_caps a' b.
Proof. induction a as [|i r IH]; auto. cbn [app all_caps]. now rewrite IH, app_assoc. Qed.
Lemma neg_all_caps a b : all_caps (set_neg a) (set_neg b) = set_neg (all_caps a b).
Proof.
  induction a as [|i r IH]; auto. change (i :: r) with ([i] ++ r). rewrite neg_app, !all_caps_app, neg_app, IH.
  f_equal. change (set_neg [i]) with [iv_neg i]. cbn [all_caps]. now rewrite !app_nil_r, neg_caps.
Qed.
Lemma neg_fin x : is_finite (- x) = is_finite x.
Proof. unfold is_finite. now rewrite Z.abs_opp. Qed.
Lemma neg_jb x : just_before (- x) = - just_after x.
Proof. unfold just_before, just_after. rewrite neg_fin. destruct (is_finite x); lia. Qed.
Lemma neg_ja x : just_after (- x) = - just_before x.
Proof. unfold just_before, just_after. rewrite neg_fin. destruct (is_finite x); lia. Qed.

(** the gaps between the intervals of a list *)
Fixpoint gaps (l : tset) : tset :=
  match l with
  | i :: (j :: _) as r => mkI (just_after (upper i)) (just_before (lower j)) :: gaps r
  | _ => []
  end.
Definition below (i : interval) : tset :=
  if is_past_infinite (just_before (lower i)) then [] else [mkI (- INF) (just_before (lower i))].
Definition above (i : interval) : tset :=
  if is_future_infinite (just_after (upper i)) then [] else [mkI (just_after (upper i)) INF].
Lemma not_shape i r z : last_opt (i :: r) = Some z -> set_not (i :: r) = below i ++ gaps (i :: r) ++ above z.
Proof.
  intros E. unfold set_not, below. f_equal. clear - E. revert i E. induction r as [|j r IH]; intros i E.
  - inv E. reflexivity.
  - cbn [not_gaps gaps app]. f_equal. apply IH. exact E.
Qed.
Lemma gaps_app l i j m : gaps ((l ++ [i]) ++ j :: m) = gaps (l ++ [i]) ++ mkI (just_after (upper i)) (just_before (lower j)) :: gaps (j :: m).
Proof.
  induction l as [|k r IH]; auto. destruct r as [|k2 r]; auto. cbn [app gaps] in *. now rewrite IH.
Qed.
Lemma neg_gaps l : gaps (set_neg l) = set_neg (gaps l).
Proof.
  induction l as [|i r IH]; auto. destruct r as [|j r]; auto.
  change (gaps (i :: j :: r)) with ([mkI (just_after (upper i)) (just_before (lower j))] ++ gaps (j :: r)).
  rewrite neg_app, <- IH. unfold set_neg. cbn [rev]. rewrite !map_app. cbn [map app].
  rewrite gaps_app. f_equal. cbn [gaps]. unfold iv_neg, tv_neg. cbn [lower upper]. now rewrite neg_ja, neg_jb.
Qed.
Lemma neg_below i : below (iv_neg i) = set_neg (above i).
Proof.
  unfold below, above, iv_neg, tv_neg. cbn [lower]. rewrite neg_jb. unfold is_past_infinite, is_future_infinite.
  replace (- just_after (upper i) =? - INF) with (just_after (upper i) =? INF) by lia.
  destruct (_ =? _); reflexivity.
Qed.
Lemma neg_above i : above (iv_neg i) = set_neg (below i).
Proof.
  unfold below, above, iv_neg, tv_neg. cbn [upper]. rewrite neg_ja. unfold is_past_infinite, is_future_infinite.
  replace (- just_before (lower i) =? INF) with (just_before (lower i) =? - INF) by lia.
  destruct (_ =? _); [reflexivity|]. unfold set_neg, iv_neg, tv_neg. cbn [rev app map lower upper]. now rewrite Z.opp_involutive.
Qed.
Lemma last_app {A} (l : list A) x : last_opt (l ++ [x]) = Some x.
Proof. induction l as [|y [|z r] IH]; auto. Qed.
Lemma last_split {A} (x : A) l : exists m z, x :: l = m ++ [z] /\ last_opt (x :: l) = Some z.
Proof.
  revert x. induction l as [|y r IH]; intros x; [exists [], x; auto|].
  destruct (IH y) as (m & z & E & L). exists (x :: m), z. cbn [app]. rewrite <- E. auto.
Qed.
Lemma neg_not l : set_not (set_neg l) = set_neg (set_not l).
Proof.
  destruct l as [|i r]; auto. destruct (last_split i r) as (m & z & E & L).
  rewrite (not_shape i r z L), !neg_app.
  assert (N : set_neg (i :: r) = iv_neg z :: set_neg m) by (rewrite E, neg_app; reflexivity).
  assert (L2 : last_opt (iv_neg z :: set_neg m) = Some (iv_neg i)).
  { rewrite <- N. unfold set_neg. cbn [rev]. rewrite map_app. apply last_app. }
  rewrite N, (not_shape _ _ _ L2), <- N, neg_gaps, neg_below, neg_above, app_assoc. reflexivity.
Qed.

(** Intersection and complement commute with the reversal of time: the very same lists.
    The complement does so for lists that are not canonical too. *)
Theorem C100_sets : forall a b, canonical a -> canonical b ->
  set_and (set_neg a) (set_neg b) = omap set_neg (set_and a b) /\
  inter_list (set_neg a) (set_neg b) = omap set_neg (inter_list a b) /\
  excl_list (set_neg a) (set_neg b) = omap set_neg (excl_list a b).
Proof.
  intros a b Ca Cb. destruct (C22_neg a Ca) as (Na & _). destruct (C22_neg b Cb) as (Nb & _).
  destruct (set_not_spec b Cb) as [Cn _]. destruct (C22_neg _ Cn) as (Nn & _).
  rewrite !set_and_caps, !inter_list_caps by assumption. cbn [omap bind]. rewrite neg_all_caps.
  split; auto. split; auto. unfold excl_list. rewrite !compl_list_not by assumption. cbn [bind].
  rewrite neg_not, !inter_list_caps by assumption. cbn [omap bind]. now rewrite neg_all_caps.
Qed.
Theorem C100_not : forall l i, set_not (set_neg l) = set_neg (set_not l) /\
  (proper_iv i -> iv_not (iv_neg i) = set_neg (iv_not i)).
Proof.
  intros l i. split; [apply neg_not|]. intros [W|[E1 E2]].
  - assert (Q : forall k, wf_iv k -> iv_not k = set_not [k]).
    { intros k Wk. unfold iv_not, set_not, not_gaps, iv_is_empty. cbn [app].
      replace (is_future_infinite (lower k)) with false by (unfold wf_iv in Wk; pts; lia).
      destruct (is_past_infinite _), (is_future_infinite _); reflexivity. }
    rewrite (Q i W). rewrite Q by (unfold wf_iv, iv_neg, tv_neg in *; cbn [lower upper]; pts; lia).
    now rewrite <- neg_not.
  - destruct i as [x y]. cbn [lower upper] in *. subst. reflexivity.
Qed.
Example C100_sets_case :
  set_and (set_neg [mkI 1 5; mkI 9 oo]) (set_neg [mkI 6 12]) = Ret [mkI (-12) (-9); mkI (-5) (-6)] /\
  set_and [mkI 1 5; mkI 9 oo] [mkI 6 12] = Ret [mkI 6 5; mkI 9 12] /\
  set_neg [mkI 6 5; mkI 9 12] = [mkI (-12) (-9); mkI (-5) (-6)] /\
  set_not (set_neg [mkI 1 5; mkI 9 oo]) = [mkI (-8) (-6); mkI 0 oo].
Proof. vm_compute. auto. Qed.

(** The union does not: [-(A | B)] and [-A | -B] may differ. *)
Theorem C100_or_refuted : exists a b c d, canonical a /\ canonical b /\
  set_or a b = Ret c /\ set_or (set_neg a) (set_neg b) = Ret d /\ d <> set_neg c.
Proof.
  exists [mkI 10 11; mkI 20 21; mkI 30 31], [mkI 1 2], [mkI 1 2; mkI 10 11],
    [mkI (-31) (-30); mkI (-21) (-20); mkI (-11) (-10); mkI (-2) (-1)].
  split; [cbn; iv; lia|]. split; [cbn; iv; lia|]. split; [reflexivity|]. split; [reflexivity|]. vm_compute. discriminate.
Qed.
(** It does on the points when neither direction loses any (see C23_or_partial). *)
Theorem C100_or_partial : forall a b c d, canonical a -> canonical b ->
  set_or a b = Ret c -> set_or (set_neg a) (set_neg b) = Ret d ->
  b = [] \/ (Forall (fun i => upper i < set_upper b) (removelast a) /\
             Forall (fun i => set_lower b < lower i) (tl a)) ->
  forall x, In_set x d <-> In_set x (set_neg c).
Proof.
  intros a b c d Ca Cb Ec Ed H x.
  destruct (C22_neg a Ca) as (Na & Da & _). destruct (C22_neg b Cb) as (Nb & Db & _).
  destruct (C23_or_partial a b Ca Cb) as (c' & Ec' & _ & Cc & _ & _ & Xc).
  destruct (C23_or_partial _ _ Na Nb) as (d' & Ed' & _ & _ & _ & _ & Xd).
  rewrite Ec in Ec'. rewrite Ed in Ed'.
  assert (c = c') by (injection Ec'; auto). assert (d = d') by (injection Ed'; auto). subst c' d'.
  destruct (C22_neg c Cc) as (_ & Dc & _). rewrite Dc. rewrite Xc, Xd, Da, Db; [tauto| |].
  - destruct H as [-> |[_ H]]; [now left|right].
    assert (U : set_upper (set_neg b) = - set_lower b).
    { unfold set_upper, set_lower, set_neg. destruct b as [|j s]; auto. cbn [rev]. rewrite map_app. cbn [map].
      now rewrite last_app. }
    rewrite U. destruct a as [|i r]; [constructor|]. cbn [tl] in H.
    unfold set_neg. cbn [rev]. rewrite map_app. cbn [map]. rewrite removelast_last.
    apply Forall_map. apply Forall_rev. eapply Forall_impl; [|exact H].
    intros k Hk. cbn beta in *. unfold iv_neg, tv_neg. cbn [upper]. lia.
  - destruct H as [-> |[H _]]; [now left|now right].
Qed.
Example C100_or_case : set_or [mkI 1 3; mkI 8 9] [mkI 0 0; mkI 5 12] = Ret [mkI 0 3; mkI 5 12] /\
  set_or (set_neg [mkI 1 3; mkI 8 9]) (set_neg [mkI 0 0; mkI 5 12]) = Ret [mkI (-12) (-5); mkI (-3) 0].
Proof. vm_compute. auto. Qed.

(** ** Relations *)

Lemma contains_pieces l i : canonical l -> lower i <= upper i -> (set_contains_cx l (CIv i) = true <->
  exists k, In k l /\ lower k <= lower i /\ upper i <= upper k).
Proof.
  intros C L. split.
  - intros H. unfold set_contains_cx, cx_contains in H. cbn [cx_lower cx_upper w_lower w_upper] in H.
    destruct (find _ l) as [k|] eqn:F; [|discriminate]. apply find_some in F. destruct F as [Hk _].
    exists k. split; auto. lia.
  - intros (k & Hk & L1 & L2). unfold set_contains_cx, cx_contains.
    cbn [cx_lower cx_upper w_lower w_upper]. apply canonical_from_iff in C. revert C Hk.
    generalize (- oo - 1). induction l as [|j r IH]; intros b C Hk; [destruct Hk|].
    cbn in C. destruct C as (Lj & Wj & C). cbn [find].
    destruct (lower i <=? upper j) eqn:T.
    + destruct Hk as [->|Hk]; [lia|]. exfalso.
      assert (upper j + 1 < lower k).
      { clear - C Hk. revert j C. induction r as [|m r IH]; intros j C; [destruct Hk|].
        cbn in C. destruct C as (L & W & C). destruct Hk as [->|Hk]; [lia|].
        specialize (IH Hk m C). unfold wf_iv in W. lia. }
      lia.
    + destruct Hk as [->|Hk]; [lia|]. eapply IH; eauto.
Qed.
Lemma neg_contains a b : canonical a -> canonical b -> set_contains (set_neg a) (set_neg b) = true <->
  set_contains a b = true.
Proof.
  intros Ca Cb. destruct (C22_neg a Ca) as (Na & _ & Ia).
  assert (G : forall a b, canonical a -> canonical b -> (set_contains a b = true <->
    forall i, In i b -> exists k, In k a /\ lower k <= lower i /\ upper i <= upper k)).
  { clear. intros a b Ca Cb. unfold set_contains. rewrite forallb_forall. split; intros H i Hi.
    - specialize (H i Hi). pose proof (canonical_In _ _ Cb Hi) as W. unfold wf_iv in W.
      apply (contains_pieces a i Ca) in H; auto. lia.
    - pose proof (canonical_In _ _ Cb Hi) as W. unfold wf_iv in W. apply (contains_pieces a i Ca); auto. lia. }
  rewrite (G a b Ca Cb), (G _ _ Na) by now apply C22_neg.
  assert (S : forall l k, In k (set_neg l) <-> exists i, In i l /\ k = iv_neg i).
  { intros l k. unfold set_neg. rewrite in_map_iff. split; intros (i & X & Y).
    - exists i. split; [now apply in_rev|auto].
    - exists i. split; [auto|now apply -> in_rev]. }
  split.
  - intros H i Hi. destruct (H (iv_neg i)) as (k & Hk & L); [apply S; eauto|].
    apply S in Hk. destruct Hk as (j & Hj & ->). exists j. split; auto.
    unfold iv_neg, tv_neg in L. cbn [lower upper] in L. lia.
  - intros H k Hk. apply S in Hk. destruct Hk as (j & Hj & ->). destruct (H j Hj) as (i & Hi & L).
    exists (iv_neg i). split; [apply S; eauto|]. unfold iv_neg, tv_neg. cbn [lower upper]. lia.
Qed.
Lemma neg_bounds l : set_lower (set_neg l) = - set_upper l /\ set_upper (set_neg l) = - set_lower l.
Proof.
  split.
  - destruct l as [|i r]; auto. destruct (last_split i r) as (m & z & E & L). unfold set_upper. rewrite L, E, neg_app. reflexivity.
  - unfold set_upper, set_lower, set_neg. destruct l as [|j s]; auto. cbn [rev]. rewrite map_app. cbn [map]. now rewrite last_app.
Qed.
Lemma list_eq_iff l : forall m, list_eq l m = true <-> l = m.
Proof.
  induction l as [|[a b] r IH]; intros [|[c d] s]; cbn [list_eq]; try (split; [discriminate|discriminate]); [tauto|].
  rewrite andb_true_iff, IH. unfold iv_eq. cbn [w_is_convex w_lower w_upper cx_lower cx_upper lower upper andb].
  split; [intros [X ->]; f_equal; f_equal; lia|]. intros E. inv E. split; auto. lia.
Qed.
Lemma neg_inj l m : set_neg l = set_neg m -> l = m.
Proof.
  intros E. assert (I : forall l, set_neg (set_neg l) = l).
  { clear. intros l. unfold set_neg. rewrite <- map_rev, rev_involutive, map_map. rewrite <- (map_id l) at 2.
    apply map_ext. intros [a b]. unfold iv_neg, tv_neg. cbn. f_equal; lia. }
  rewrite <- (I l), E, I. reflexivity.
Qed.

(** Containment and overlap answer the same; the order is reversed. *)
Theorem C100_relations : forall a b, canonical a -> canonical b ->
  set_contains (set_neg a) (set_neg b) = set_contains a b /\
  set_overlaps (set_neg a) (set_neg b) = set_overlaps a b /\
  set_eq (set_neg a) (WSet (set_neg b)) = set_eq a (WSet b) /\
  set_lt (set_neg a) (WSet (set_neg b)) = set_gt a (WSet b) /\
  (a <> [] -> b <> [] ->
   set_partial_cmp (set_neg a) (WSet (set_neg b)) = option_map CompOpp (set_partial_cmp a (WSet b))).
Proof.
  intros a b Ca Cb. destruct (C22_neg a Ca) as (Na & Da & _). destruct (C22_neg b Cb) as (Nb & Db & _).
  destruct (neg_bounds a) as [La Ua]. destruct (neg_bounds b) as [Lb Ub].
  assert (E : set_eq (set_neg a) (WSet (set_neg b)) = set_eq a (WSet b)).
  { apply eq_true_iff_eq. unfold set_eq. cbn [w_iter]. rewrite !list_eq_iff. split; [apply neg_inj|now intros ->]. }
  split; [apply eq_true_iff_eq; now apply neg_contains|]. split.
  { apply eq_true_iff_eq. rewrite !C32_overlaps_set by assumption. split; intros (x & X & Y); exists (- x).
    - rewrite Da in X. rewrite Db in Y. auto.
    - rewrite Da, Db, Z.opp_involutive. auto. }
  split; auto. split.
  { unfold set_lt, set_gt, bd_lt, bd_gt. cbn [w_lower w_upper]. rewrite Ua, Lb. lia. }
  intros Ne Nf. unfold set_partial_cmp, bd_partial_cmp, bd_lt, bd_gt. cbn [w_lower w_upper]. rewrite E, La, Ua, Lb, Ub.
  assert (Wa : set_lower a <= set_upper a).
  { destruct a as [|i r]; [congruence|]. pose proof (canonical_In _ i Ca (or_introl eq_refl)) as W.
    apply canonical_from_iff in Ca. pose proof (canon_from_upper_In _ _ i Ca (or_introl eq_refl)).
    cbn [set_lower]. unfold wf_iv in W. lia. }
  assert (Wb : set_lower b <= set_upper b).
  { destruct b as [|i r]; [congruence|]. pose proof (canonical_In _ i Cb (or_introl eq_refl)) as W.
    apply canonical_from_iff in Cb. pose proof (canon_from_upper_In _ _ i Cb (or_introl eq_refl)).
    cbn [set_lower]. unfold wf_iv in W. lia. }
  replace (- set_lower a <? - set_upper b) with (set_upper b <? set_lower a) by lia.
  replace (- set_lower b <? - set_upper a) with (set_upper a <? set_lower b) by lia.
  destruct (set_upper a <? set_lower b) eqn:T1; destruct (set_upper b <? set_lower a) eqn:T2; try reflexivity; try lia.
  destruct (set_eq a (WSet b)); reflexivity.
Qed.
Example C100_relations_case :
  set_contains (set_neg [mkI 1 9; mkI 12 oo]) (set_neg [mkI 2 3; mkI 15 17]) = true /\
  set_partial_cmp (set_neg [mkI 1 9]) (WSet (set_neg [mkI 12 13])) = Some Gt /\
  set_partial_cmp [mkI 1 9] (WSet [mkI 12 13]) = Some Lt.
Proof. vm_compute. auto. Qed.

(** ** Translation *)

Lemma neg_tv_add x v : valid x -> valid v -> tv_add (- x) (- v) = omap Z.opp (tv_add x v).
Proof.
  intros X V. unfold tv_add, valid in *. pts. unfold sat64, i64_min, i64_max in *.
  tests; cbn [omap bind]; try reflexivity; try lia; f_equal; lia.
Qed.
Lemma neg_iv_checked p lo up : valid lo -> valid up -> iv_checked p (- up) (- lo) = omap iv_neg (iv_checked p lo up).
Proof.
  intros L U. unfold iv_checked.
  assert (E : iv_new (- up) (- lo) = iv_neg (iv_new lo up)).
  { unfold iv_new, iv_singleton. destruct (Z.compare_spec lo up), (Z.compare_spec (- up) (- lo)); try lia; try reflexivity.
    subst. rewrite neg_fin. destruct (is_finite up); reflexivity. }
  assert (F : iv_is_empty (iv_neg (iv_new lo up)) = iv_is_empty (iv_new lo up)).
  { unfold iv_is_empty, iv_new, iv_singleton, iv_empty, iv_neg. unfold valid in *.
    destruct (Z.compare_spec lo up); [destruct (is_finite lo) eqn:Fl| |]; cbn [lower upper]; auto; pts; lia. }
  rewrite E, F. destruct p, (iv_is_empty (iv_new lo up)); reflexivity.
Qed.
Lemma neg_iv_add p i v : valid (lower i) -> valid (upper i) -> valid v ->
  iv_add_v p (iv_neg i) (- v) = omap iv_neg (iv_add_v p i v).
Proof.
  intros L U V. unfold iv_add_v. unfold iv_neg at 1 2, tv_neg. cbn [lower upper]. rewrite !neg_tv_add by assumption.
  pose proof (tv_add_ret (lower i) v) as Rl. pose proof (tv_add_ret (upper i) v) as Ru.
  destruct (tv_add (lower i) v) as [x| | |] eqn:E; destruct (tv_add (upper i) v) as [y| | |] eqn:F;
    cbn [omap bind]; try reflexivity; try (revert E F; unfold tv_add; tests; discriminate).
  apply neg_iv_checked; [now apply (Rl x)|now apply (Ru y)].
Qed.
Lemma iv_add_shape p i v : (exists k, iv_add_v p i v = Ret k) \/ iv_add_v p i v = Panic.
Proof.
  unfold iv_add_v, iv_checked, debug_assert, tv_add.
  destruct p; tests; cbn [bind]; try (right; reflexivity); eauto; tests; cbn [bind]; eauto.
Qed.
Lemma omapM_app {A B} (f : A -> outcome B) l m : omapM f (l ++ m) = (x <- omapM f l ;; y <- omapM f m ;; Ret (x ++ y)).
Proof.
  induction l as [|a r IH]; cbn [omapM app bind]; [destruct (omapM f m); reflexivity|].
  destruct (f a); cbn [bind]; auto. rewrite IH. destruct (omapM f r); cbn [bind]; auto.
  destruct (omapM f m); reflexivity.
Qed.

(** Translating by the opposite; the panics are the same too. *)
Theorem C100_add : forall p l v, Forall (fun i => valid (lower i) /\ valid (upper i)) l -> valid v ->
  set_add_v p (set_neg l) (- v) = omap set_neg (set_add_v p l v).
Proof.
  intros p l v A V. unfold set_add_v. induction A as [|i r [L U] A IH]; auto.
  change (i :: r) with ([i] ++ r) at 1. rewrite neg_app, omapM_app, IH. change (set_neg [i]) with [iv_neg i].
  cbn [omapM]. rewrite neg_iv_add by assumption.
  assert (Sh : (exists k, omapM (fun tw => iv_add_v p tw v) r = Ret k) \/ omapM (fun tw => iv_add_v p tw v) r = Panic).
  { clear. induction r as [|j r IH]; cbn [omapM]; eauto. destruct (iv_add_shape p j v) as [[k ->]|E]; [|rewrite E; auto].
    cbn [bind]. destruct IH as [[m ->]|E]; [|rewrite E]; cbn [bind]; eauto. }
  destruct (iv_add_shape p i v) as [[k ->]|E]; [|rewrite E; destruct Sh as [[m ->]|E2]; [|rewrite E2]; reflexivity].
  destruct Sh as [[m ->]|E2]; [|rewrite E2; reflexivity]. cbn [omap bind]. f_equal.
  change (k :: m) with ([k] ++ m). now rewrite neg_app.
Qed.
Example C100_add_case : set_add_v Debug (set_neg [mkI 1 5; mkI 9 oo]) (- 3) = Ret [mkI (- oo) (-12); mkI (-8) (-4)] /\
  set_add_v Debug [mkI 1 5; mkI 9 oo] 3 = Ret [mkI 4 8; mkI 12 oo] /\
  set_add_v Debug [mkI 1 5; mkI 9 oo] oo = Panic /\ set_add_v Debug (set_neg [mkI 1 5; mkI 9 oo]) (- oo) = Panic.
Proof. vm_compute. auto. Qed.

(** ** Graphs *)

(** The constraint on the opposite dates *)
Definition mirror (k : kons) : kons := mkK (k_from k) (k_to k) (k_empty k) (- k_up k) (- k_lo k).
Lemma sat_mirror k t : sat (mirror k) t <-> sat k (fun i => - t i).
Proof. unfold sat, In_ext, mirror. cbn [k_from k_to k_lo k_up lower upper]. lia. Qed.
Lemma sats_mirror ks t : Forall (fun k => sat k t) (map mirror ks) <-> Forall (fun k => sat k (fun i => - t i)) ks.
Proof.
  rewrite Forall_map. split; intros F; eapply Forall_impl; try exact F; intros k; apply sat_mirror.
Qed.
Lemma sat_ext k t u : (forall i, t i = u i) -> sat k t -> sat k u.
Proof. intros E. unfold sat. now rewrite !E. Qed.
Lemma sats_mirror' ks t : Forall (fun k => sat k (fun i => - t i)) (map mirror ks) <-> Forall (fun k => sat k t) ks.
Proof.
  rewrite sats_mirror. split; intros F; eapply Forall_impl; try exact F; intros k; apply sat_ext; intros i; lia.
Qed.
Lemma mirror_good N B k : good N B k -> good N B (mirror k).
Proof.
  unfold good, mirror, wf_iv, within. cbn [k_from k_to k_empty k_lo k_up lower upper].
  rewrite !Z.abs_opp. intuition lia.
Qed.
(** an interval is determined by its integers *)
Lemma ext_unique a b : valid (lower a) -> valid (upper a) -> valid (lower b) -> valid (upper b) ->
  lower a < oo -> - oo < upper a -> lower b < oo -> - oo < upper b ->
  lower a <= upper a -> lower b <= upper b -> (forall v, In_ext v a <-> In_ext v b) -> a = b.
Proof.
  destruct a as [l u], b as [l' u']. cbn [lower upper]. intros V1 V2 V3 V4 L1 U1 L2 U2 W1 W2 E.
  unfold In_ext, valid in *. cbn [lower upper] in E.
  assert (l = l').
  { destruct (Z.eq_dec l (- oo)) as [Z1|Z1], (Z.eq_dec l' (- oo)) as [Z2|Z2]; [congruence| | |].
    - pose proof (E (Z.min (l' - 1) u)). destruct (Z.eq_dec u oo), (Z.eq_dec u' oo); lia.
    - pose proof (E (Z.min (l - 1) u')). destruct (Z.eq_dec u oo), (Z.eq_dec u' oo); lia.
    - pose proof (E l). pose proof (E l'). lia. }
  assert (u = u').
  { destruct (Z.eq_dec u oo) as [Z1|Z1], (Z.eq_dec u' oo) as [Z2|Z2]; [congruence| | |].
    - pose proof (E (Z.max (u' + 1) l)). destruct (Z.eq_dec l (- oo)), (Z.eq_dec l' (- oo)); lia.
    - pose proof (E (Z.max (u + 1) l')). destruct (Z.eq_dec l (- oo)), (Z.eq_dec l' (- oo)); lia.
    - pose proof (E u). pose proof (E u'). lia. }
  congruence.
Qed.
Lemma history_bounds p N B ks g i j iv : room N B -> history p N B ks g ->
  0 <= i < g_size g -> 0 <= j < g_size g -> g_timespan p g i j = Ret iv ->
  valid (lower iv) /\ valid (upper iv) /\ lower iv < oo /\ - oo < upper iv.
Proof.
  intros R H Hi Hj E. pose proof (history_inv _ _ _ _ _ R H) as I. destruct (inv_finite _ _ _ _ R I) as (V & L).
  rewrite timespan_ok in E by (auto; apply I). injection E as <-. cbn [lower upper].
  pose proof (V i j Hi Hj). pose proof (V j i Hj Hi). pose proof (L i j Hi Hj). pose proof (L j i Hj Hi).
  unfold valid in *. lia.
Qed.
(** A graph of constraints on dates and a graph of the mirrored constraints on the opposite
    dates report opposite intervals, and then answer the same to mirrored constraints. *)
(** Partial: the limits of [room] and [history]. *)
Theorem C100_graph_partial : forall p N B ks ks' g g', room N B ->
  history p N B ks g -> history p N B ks' g' -> g_size g' = g_size g ->
  (forall k, In k ks' <-> In k (map mirror ks)) ->
  (forall i j, 0 <= i < g_size g -> 0 <= j < g_size g ->
    exists iv, g_timespan p g i j = Ret iv /\ g_timespan p g' i j = Ret (iv_neg iv)) /\
  (forall t, solution p g' t <-> solution p g (fun i => - t i)) /\
  forall k, good N B k -> inside g k -> exists h h' r, g_propagate p g k = Ret (h, r) /\
    g_propagate p g' (mirror k) = Ret (h', r) /\
    (accepted r -> history p N B (k :: ks) h /\ history p N B (mirror k :: ks') h' /\ g_size h' = g_size h).
Proof.
  intros p N B ks ks' g g' R H H' Sz K.
  assert (Q : forall t, Forall (fun k => sat k t) ks' <-> Forall (fun k => sat k (fun i => - t i)) ks).
  { intros t. rewrite <- (sats_mirror ks). rewrite !Forall_forall. split; intros F k Ik; apply F, K, Ik. }
  assert (Q' : forall t, Forall (fun k => sat k (fun i => - t i)) ks' <-> Forall (fun k => sat k t) ks).
  { intros t. rewrite <- (sats_mirror' ks). rewrite !Forall_forall. split; intros F k Ik; apply F, K, Ik. }
  assert (Sol : forall t, solution p g' t <-> solution p g (fun i => - t i)).
  { intros t. rewrite (proj1 (C40_solutions_partial p N B ks' g' t R H')).
    rewrite (proj1 (C40_solutions_partial p N B ks g (fun i => - t i) R H)). apply Q. }
  assert (Sol' : forall t, solution p g' (fun i => - t i) <-> solution p g t).
  { intros t. rewrite (proj1 (C40_solutions_partial p N B ks' g' _ R H')).
    rewrite (proj1 (C40_solutions_partial p N B ks g t R H)). apply Q'. }
  split; [|split; auto].
  - intros i j Hi Hj.
    destruct (C40_minimal_partial p N B ks g R H i j Hi Hj) as (a & Ea & La & Xa).
    rewrite <- Sz in Hi, Hj.
    destruct (C40_minimal_partial p N B ks' g' R H' i j Hi Hj) as (b & Eb & Lb & Xb).
    pose proof (history_bounds p N B ks' g' i j b R H' Hi Hj Eb) as Bb.
    rewrite Sz in Hi, Hj. pose proof (history_bounds p N B ks g i j a R H Hi Hj Ea) as Ba.
    exists a. split; auto. rewrite Eb. f_equal. symmetry.
    apply ext_unique; unfold iv_neg, tv_neg; cbn [lower upper]; unfold valid in *; try lia.
    intros v. rewrite Xb. transitivity (In_ext (- v) a).
    { unfold In_ext. cbn [lower upper]. lia. }
    rewrite Xa. split; intros (t & F & E); exists (fun i => - t i).
    + split; [now apply Q'|lia].
    + split; [now apply Q|lia].
  - intros k G In. pose proof (mirror_good N B k G) as G'.
    assert (In' : inside g' (mirror k)) by (unfold inside, mirror in *; cbn [k_from k_to]; lia).
    destruct (C41_exact_partial p N B ks g k R H G In) as (h & r & E & NF & Rec & _).
    destruct (C41_exact_partial p N B ks' g' (mirror k) R H' G' In') as (h' & r' & E' & NF' & Rec' & _).
    destruct (C42_exact_partial p N B ks g k h r R H G In E) as (Un & _ & Pr).
    destruct (C42_exact_partial p N B ks' g' (mirror k) h' r' R H' G' In' E') as (Un' & _ & Pr').
    assert (Sk : forall t, sat (mirror k) (fun i => - t i) <-> sat k t).
    { intros t. rewrite sat_mirror. split; apply sat_ext; intros i; lia. }
    assert (r' = r).
    { assert (A1 : r = Recovered <-> r' = Recovered).
      { rewrite Rec, Rec'. split; intros F t [X Y].
        - apply (F (fun i => - t i)). rewrite <- Sol. split; auto. now apply sat_mirror.
        - apply (F (fun i => - t i)). rewrite Sol', Sk. auto. }
      assert (A2 : r = Unchanged <-> r' = Unchanged).
      { rewrite Un, Un'. split; intros F t X.
        - apply sat_mirror, F. now rewrite <- Sol.
        - apply Sk, F. now rewrite Sol'. }
      destruct r, r'; try reflexivity; try congruence; exfalso; intuition congruence. }
    subst r'. exists h, h', r. split; auto. split; auto. intros A.
    pose proof (history_inv _ _ _ _ _ R H) as I. pose proof (history_inv _ _ _ _ _ R H') as I'.
    destruct (propagate_inv p N B ks g k R I G In) as (h2 & r2 & E2 & S & _).
    destruct (propagate_inv p N B ks' g' (mirror k) R I' G' In') as (h2' & r2' & E2' & S' & _).
    rewrite E in E2. rewrite E' in E2'. injection E2 as <- <-. injection E2' as <- <-.
    split; [eapply h_propagate; eauto|]. split; [eapply h_propagate; eauto|]. congruence.
Qed.
Lemma h3m_history : history Debug 3 10 [mirror k12; mirror k01] (mkG 3 [0; 5; 0; -10; 12; 7; 0; -8; -18]).
Proof.
  eapply h_extend with (hint := None) (ks' := [mirror k12]) (ks := [mirror k01]) (r := Propagated)
    (g := mkG 2 [0; 5; 0; -10]).
  - eapply h_propagate with (r := Propagated) (g := mkG 2 [0; - oo; 0; - oo]).
    + apply (h_new _ _ _ 2); [lia|reflexivity].
    + unfold good, wf_iv, within, oo; cbn; lia.
    + unfold inside; cbn; lia.
    + vm_compute. reflexivity.
    + right; auto.
  - constructor; auto. unfold good, wf_iv, within, oo; cbn; lia.
  - exact I.
  - discriminate.
  - vm_compute. reflexivity.
  - right; auto.
Qed.
Example C100_graph_case : room 3 10 /\ history Debug 3 10 [k12; k01] h3 /\
  history Debug 3 10 [mirror k12; mirror k01] (mkG 3 [0; 5; 0; -10; 12; 7; 0; -8; -18]) /\
  g_timespan Debug h3 0 2 = Ret (mkI 12 18) /\
  g_timespan Debug (mkG 3 [0; 5; 0; -10; 12; 7; 0; -8; -18]) 0 2 = Ret (mkI (-18) (-12)).
Proof.
  split; [exact room3|]. split; [apply h3_history; lia|]. split; [exact h3m_history|]. vm_compute. auto.
Qed.

(** ** Schedulers *)

Lemma box_far p N B ks g W s : room N B -> history p N B ks g -> 0 <= W -> W + 2 * (N * B) < oo ->
  convex_session p g W s -> forall i, 0 <= i < g_size g ->
  exists a b, (forall x, possible s i x <-> finite x /\ a <= x <= b) /\
    (a = - oo \/ Z.abs a <= W + N * B) /\ (b = oo \/ Z.abs b <= W + N * B).
Proof.
  intros R H W0 Sp Se i Hi. pose proof (history_inv _ _ _ _ _ R H) as I. pose proof (c0 N B R) as K.
  destruct (convex_box p g (N * B) W (i_mem _ _ _ _ I) (cl p N B ks g R H) (bd p N B ks g R H) K W0) with (s := s)
    as (f & u & Bo); [lia|auto|].
  exists (f i), (- u i). split; [intros x; apply (box_possible g (W + N * B) s f u i x Bo Hi)|].
  destruct Bo as (_ & Bx). pose proof (h_bnd _ _ _ _ (b_low _ _ _ _ _ Bx) i Hi) as X.
  pose proof (h_bnd _ _ _ _ (b_up _ _ _ _ _ Bx) i Hi) as Y. unfold bnd in *. lia.
Qed.
(** two such sets of dates that agree on the near dates are mirrored *)
Lemma box_agree (P Q : Z -> Prop) a b a' b' M X : 0 <= M -> M < X -> X < oo ->
  (forall x, P x <-> finite x /\ a <= x <= b) -> (forall x, Q x <-> finite x /\ a' <= x <= b') ->
  (a = - oo \/ Z.abs a <= M) -> (b = oo \/ Z.abs b <= M) ->
  (a' = - oo \/ Z.abs a' <= M) -> (b' = oo \/ Z.abs b' <= M) ->
  (forall x, Z.abs x <= X -> (Q x <-> P (- x))) -> forall x, Q x <-> P (- x).
Proof.
  intros M0 L Lo HP HQ A1 A2 A3 A4 Ag x.
  destruct (Z_le_gt_dec (Z.abs x) X) as [N|Fa]; [now apply Ag|].
  pose proof (Ag X ltac:(lia)) as G1. pose proof (Ag (- X) ltac:(lia)) as G2.
  rewrite HQ, HP in G1, G2. rewrite HQ, HP. unfold finite in *. clear HP HQ Ag.
  remember oo as w eqn:Ew. clear Ew.
  destruct A1 as [A1|A1], A2 as [A2|A2], A3 as [A3|A3], A4 as [A4|A4];
    (destruct (Z_le_gt_dec 0 x); [clear G2|clear G1]; split; intros [Fx Bx]; split; try lia).
Qed.

(** A scheduler over a graph and one over the mirrored graph, with opposite dates, accept
    the same restrictions by opposite intervals, and have opposite dates afterwards. *)
(** Partial: restrictions by intervals within [W], graphs with the margins of [room]. *)
Theorem C100_scheduler_partial : forall p N B ks ks' g g' W s s' i c c', room N B ->
  history p N B ks g -> history p N B ks' g' -> g_size g' = g_size g ->
  (forall k, In k ks' <-> In k (map mirror ks)) ->
  0 <= W -> 4 * W + 9 * (N * B) + 2 < oo ->
  convex_session p g W s -> convex_session p g' W s' ->
  (forall j x, 0 <= j < g_size g -> (possible s' j x <-> possible s j (- x))) ->
  0 <= i < g_size g -> narrow W c -> narrow W c' -> (forall x, In_cx x c' <-> In_cx (- x) c) ->
  exists t t' r r', sc_retain p s i (WCx c) = Ret (t, r) /\ sc_retain p s' i (WCx c') = Ret (t', r') /\
    (accepted r <-> accepted r') /\
    (accepted r -> forall j x, 0 <= j < g_size g -> (possible t' j x <-> possible t j (- x))).
Proof.
  intros p N B ks ks' g g' W s s' i c c' R H H' Sz K W0 Sp Se Se' Ag Hi Na Na' Cc.
  pose proof (c0 N B R) as K0.
  destruct (C100_graph_partial p N B ks ks' g g' R H H' Sz K) as (_ & Sol & _).
  assert (Hi' : 0 <= i < g_size g') by lia.
  destruct (C54_retain_partial p N B ks g W s R H W0) with (i := i) (c := c) as (t & r & E & Sh & A); auto; [lia|].
  destruct (C54_retain_partial p N B ks' g' W s' R H' W0) with (i := i) (c := c') as (t' & r' & E' & Sh' & A'); auto; [lia|].
  exists t, t', r, r'. split; auto. split; auto.
  assert (Aa : accepted r <-> accepted r').
  { rewrite A, A'. split; intros (x & X & Y); exists (- x).
    - rewrite Ag, Cc, Z.opp_involutive by auto. auto.
    - rewrite Ag in X by auto. apply Cc in Y. auto. }
  split; auto. intros Ac j x Hj. pose proof (proj1 Aa Ac) as Ac'. revert x.
  assert (Hj' : 0 <= j < g_size g') by lia.
  pose proof (v_retain p g W s i c t r Se (proj1 Hi) Na E) as St.
  pose proof (v_retain p g' W s' i c' t' r' Se' (proj1 Hi) Na' E') as St'.
  destruct (box_far p N B ks g W t R H W0 ltac:(lia) St j Hj) as (a & b & P & B1 & B2).
  destruct (box_far p N B ks' g' W t' R H' W0 ltac:(lia) St' j Hj') as (a' & b' & P' & B1' & B2').
  apply (box_agree (possible t j) (possible t' j) a b a' b' (W + N * B) (W + N * B + 1)); auto; try lia.
  assert (Gs : sc_graph s = g).
  { destruct (convex_box p g (N * B) W (i_mem _ _ _ _ (history_inv _ _ _ _ _ R H)) (cl p N B ks g R H) (bd p N B ks g R H) K0 W0)
      with (s := s) as (f & u & Eg & _); auto. lia. }
  assert (Gs' : sc_graph s' = g').
  { destruct (convex_box p g' (N * B) W (i_mem _ _ _ _ (history_inv _ _ _ _ _ R H')) (cl p N B ks' g' R H') (bd p N B ks' g' R H') K0 W0)
      with (s := s') as (f & u & Eg & _); auto. lia. }
  intros x Hx.
  rewrite (C54_exact_partial p N B ks g W s R H W0 ltac:(lia) Se (W + N * B + 1) i c t r ltac:(lia) Na Hi E Ac j (- x) Hj ltac:(lia)).
  rewrite (C54_exact_partial p N B ks' g' W s' R H' W0 ltac:(lia) Se' (W + N * B + 1) i c' t' r' ltac:(lia) Na' Hi' E' Ac' j x Hj' ltac:(lia)).
  assert (Sch : forall u, schedule p s' u <-> schedule p s (fun k => - u k)).
  { intros u. unfold schedule. rewrite Gs, Gs', Sol, Sz. split; intros [X Y]; (split; [exact X|]); intros k Hk.
    - apply Ag; auto.
    - apply Ag; auto. }
  split; intros (u & X & Y & Z).
  - exists (fun k => - u k). split; [now apply Sch|]. split; [now apply Cc|lia].
  - exists (fun k => - u k). split.
    + apply Sch. destruct X as [X1 X2]. split.
      * assert (Ex : forall v, (forall k, v k = u k) -> solution p (sc_graph s) v).
        { intros v Ev k l Hk Hl. rewrite !Ev. apply X1; auto. }
        apply Ex. intros k. lia.
      * intros k Hk. rewrite Z.opp_involutive. auto.
    + split; [apply Cc; now rewrite Z.opp_involutive|lia].
Qed.

(** A deadline and the opposite startline are refused in the same cases. *)
(** Partial: as C100_scheduler_partial. *)
Theorem C100_deadline_partial : forall p N B ks ks' g g' W s s' d, room N B ->
  history p N B ks g -> history p N B ks' g' -> g_size g' = g_size g ->
  0 <= W -> W + 2 * (N * B) < oo ->
  convex_session p g W s -> convex_session p g' W s' ->
  (forall j x, 0 <= j < g_size g -> (possible s' j x <-> possible s j (- x))) -> Z.abs d <= W ->
  exists t t' r r', sc_set_deadline p s d = Ret (t, r) /\ sc_set_startline p s' (- d) = Ret (t', r') /\
    (accepted r <-> accepted r').
Proof.
  intros p N B ks ks' g g' W s s' d R H H' Sz W0 Sp Se Se' Ag Hd.
  destruct (C56_deadline_convex_partial p N B ks g W s R H W0 Sp Se d Hd) as (t & r & E & Sh & A).
  destruct (C56_startline_convex_partial p N B ks' g' W s' R H' W0 Sp Se' (- d)) as (t' & r' & E' & Sh' & A'); [lia|].
  exists t, t', r, r'. split; auto. split; auto.
  assert (Q : r = Recovered <-> r' = Recovered).
  { rewrite A, A'. rewrite Sz. split; intros (j & Hj & F); exists j; (split; [exact Hj|]); intros x X.
    - apply Ag in X; auto. specialize (F _ X). lia.
    - specialize (F (- x)). rewrite Ag, Z.opp_involutive in F by auto. specialize (F X). lia. }
  assert (D : forall r, accepted r -> r <> Recovered) by (intros q [-> | ->]; discriminate).
  split; intros X.
  - destruct Sh' as [Y|Y]; auto. destruct (D r X). now apply Q.
  - destruct Sh as [Y|Y]; auto. destruct (D r' X). now apply Q.
Qed.

Definition gAm : graph := mkG 3 [0; 3; 0; - 48; 3; 0; 0; - 60; - 108].
Lemma histAm p : history p 3 200 (map mirror ksA) gAm.
Proof.
  unfold ksA. cbn [map mirror]. two_steps p (mirror (kk 0 1 3 48)) (mirror (kk 1 2 0 60))
    (mkG 3 [0; - oo; 0; - oo; - oo; - oo; 0; - oo; - oo]) (mkG 3 [0; 3; 0; - 48; - oo; - oo; 0; - oo; - oo]).
Qed.
Example C100_scheduler_case : forall p, room 3 200 /\ history p 3 200 ksA gA /\ history p 3 200 (map mirror ksA) gAm /\
  convex_session p gA 1000 (sc_new gA) /\ convex_session p gAm 1000 (sc_new gAm) /\
  (forall j x, 0 <= j < g_size gA -> (possible (sc_new gAm) j x <-> possible (sc_new gA) j (- x))) /\
  narrow 1000 (CRangeIncl 5 50) /\ narrow 1000 (CRangeIncl (-50) (-5)) /\
  (forall x, In_cx x (CRangeIncl (-50) (-5)) <-> In_cx (- x) (CRangeIncl 5 50)) /\
  sc_retain p (sc_new gA) 0 (WCx (CRangeIncl 5 50)) =
    Ret (mkS gA [[mkI 5 50]; [mkI 8 98]; [mkI 8 158]], Propagated) /\
  sc_retain p (sc_new gAm) 0 (WCx (CRangeIncl (-50) (-5))) =
    Ret (mkS gAm [[mkI (-50) (-5)]; [mkI (-98) (-8)]; [mkI (-158) (-8)]], Propagated).
Proof.
  intros p. split; [apply room_3|]. split; [apply histA|]. split; [apply histAm|]. split; [constructor|].
  split; [constructor|]. split.
  { intros j x Hj. assert (J : j = 0 \/ j = 1 \/ j = 2) by (cbn in Hj; lia).
    assert (E : forall G x, G = gA \/ G = gAm -> (possible (sc_new G) j x <-> finite x)).
    { intros G y HG. unfold possible. split.
      - intros (l & E & k & Hk & F & _). exact F.
      - intros F. exists [mkI (- oo) oo]. split; [destruct HG as [-> | ->], J as [-> |[-> | ->]]; reflexivity|].
        exists (mkI (- oo) oo). split; [left; auto|]. unfold In_iv, finite in *. cbn. lia. }
    rewrite !E by auto. unfold finite. lia. }
  split; [apply narrow_incl; unfold oo; lia|]. split; [apply narrow_incl; unfold oo; lia|].
  split; [intros x; unfold In_cx, finite; lia|]. destruct p; vm_compute; auto.
Qed.

Print Assumptions C100_sets.
Print Assumptions C100_or_partial.
Print Assumptions C100_relations.
Print Assumptions C100_graph_partial.
Print Assumptions C100_scheduler_partial.
