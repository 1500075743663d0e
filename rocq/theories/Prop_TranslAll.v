(** C19, C28: the translations without the condition that the pieces stay representable,
    and exactly when the assigning operators panic. *)
From Verif Require Import Machine TimeValue Spec Tac TimeValueProofs Interval Iter TimeSet Relns
  Transl SpecSets SetProofs CollectProofs Prop_Interval SetOpsProofs Prop_TimeSet Prop_Transl.

(** ** C19 *)

(** [I += J] and [I -= J] panic exactly if both are single points whose sum (difference) is
    representable; otherwise they give exactly the representable sums (differences). *)
Lemma assign_span i j : wf_iv i -> wf_iv j ->
  (iv_add_assign_span i j = Panic <->
     lower i = upper i /\ lower j = upper j /\ finite (lower i + lower j)) /\
  (iv_add_assign_span i j <> Panic -> exists k, iv_add_assign_span i j = Ret k /\
     forall x, In_iv x k <-> finite x /\ exists y z, In_ext y i /\ In_ext z j /\ x = y + z).
Proof.
  intros Wi Wj. unfold iv_add_assign_span, iv_asserted, assert_.
  rewrite add_lower, add_upper by (unfold wf_iv, valid in *; lia). cbn [bind].
  assert (Q : negb (lsum (lower i) (lower j) =? usum (upper i) (upper j)) ||
      negb (is_finite (lsum (lower i) (lower j))) = false <->
      lower i = upper i /\ lower j = upper j /\ finite (lower i + lower j)).
  { unfold lsum, usum. unfold wf_iv in *. split.
    - intros E. pts. tests_in E; lia.
    - intros (E1 & E2 & F). rewrite <- E1, <- E2. pts. tests; lia. }
  destruct (_ || _); cbn [bind]; split.
  - split; [discriminate|]. intros H. apply Q in H. discriminate.
  - intros _. eexists. split; [reflexivity|]. intros x. split.
    + intros [F H]. cbn [lower upper] in H. split; auto. now apply sum_bounds in H.
    + intros [F H]. split; auto. cbn [lower upper]. now apply sum_bounds.
  - split; auto. intros _. now apply Q.
  - intros N. now destruct N.
Qed.
Theorem C19_assign_span_exactly : forall i j, wf_iv i -> wf_iv j ->
  (iv_add_assign_span i j = Panic <->
     lower i = upper i /\ lower j = upper j /\ finite (lower i + lower j)) /\
  (iv_add_assign_span i j <> Panic -> exists k, iv_add_assign_span i j = Ret k /\
     forall x, In_iv x k <-> finite x /\ exists y z, In_ext y i /\ In_ext z j /\ x = y + z) /\
  (iv_sub_assign_span i j = Panic <->
     lower i = upper i /\ lower j = upper j /\ finite (lower i - lower j)) /\
  (iv_sub_assign_span i j <> Panic -> exists k, iv_sub_assign_span i j = Ret k /\
     forall x, In_iv x k <-> finite x /\ exists y z, In_ext y i /\ In_ext z j /\ x = y - z).
Proof.
  intros i j Wi Wj.
  assert (Wn : wf_iv (iv_neg j)) by (apply (proj2 (proj2 (C21_neg j 0 ltac:(iv; lia)))); auto).
  destruct (assign_span i j Wi Wj) as [A1 A2].
  destruct (assign_span i (iv_neg j) Wi Wn) as [B1 B2].
  change (iv_add_assign_span i (iv_neg j)) with (iv_sub_assign_span i j) in *.
  split; auto. split; auto. split.
  - rewrite B1. unfold iv_neg, tv_neg; cbn [lower upper]. unfold wf_iv in *. pts. lia.
  - intros N. destruct (B2 N) as (k & E & D). exists k. split; auto. intros x. rewrite D.
    split; intros (F & y & z & Hy & Hz & ->); (split; [exact F|]); exists y, (- z);
      (split; [exact Hy|]); (split; [|lia]).
    + now apply ext_neg.
    + apply ext_neg. now replace (- - z) with z by lia.
Qed.
Example C19_assign_span_exactly_case :
  iv_add_assign_span (mkI 5 5) (mkI 2 2) = Panic /\ iv_add_assign_span (mkI 5 5) (mkI 2 3) = Ret (mkI 7 8) /\
  iv_sub_assign_span (mkI 5 9) (mkI 2 3) = Ret (mkI 2 7) /\
  iv_sub_assign_span (mkI 5 5) (mkI (- oo) 3) = Ret (mkI 2 oo).
Proof. vm_compute. auto. Qed.

(** ** C28 *)

(** [S += d] and [S -= d] for every canonical set: they panic exactly if some single point
    of [S] is moved onto a representable instant; otherwise the points are the moved ones,
    even if pieces leave the range. *)
Lemma assign_v_ret i v : wf_iv i -> finite v -> ~ (lower i = upper i /\ finite (lower i + v)) ->
  exists k, iv_add_assign_v i v = Ret k /\ forall x, In_iv x k <-> finite x /\ In_ext (x - v) i.
Proof.
  intros W F N. destruct (C19_assign_partial i v W F) as (P & D & _).
  destruct (iv_add_assign_v i v) as [k| | |] eqn:E.
  - exists k. split; auto.
  - destruct N. now apply P.
  - unfold iv_add_assign_v, iv_asserted, assert_ in E.
    rewrite !tv_add_shift in E by (auto; unfold wf_iv, valid in *; lia). cbn [bind] in E.
    destruct (_ || _); discriminate.
  - unfold iv_add_assign_v, iv_asserted, assert_ in E.
    rewrite !tv_add_shift in E by (auto; unfold wf_iv, valid in *; lia). cbn [bind] in E.
    destruct (_ || _); discriminate.
Qed.
Lemma bad_dec l v : (exists i, In i l /\ lower i = upper i /\ finite (lower i + v)) \/
  forall i, In i l -> ~ (lower i = upper i /\ finite (lower i + v)).
Proof.
  induction l as [|i r IH]; [right; intros i []|].
  assert (D : lower i = upper i /\ finite (lower i + v) \/ ~ (lower i = upper i /\ finite (lower i + v)))
    by (unfold finite; lia).
  destruct D as [D|D]; [left; exists i; cbn; auto|].
  destruct IH as [(k & Hk & E)|IH]; [left; exists k; cbn; auto|].
  right. intros k [<-|Hk]; auto.
Qed.
Theorem C28_assign_exactly : forall l v, canonical l -> finite v ->
  (set_add_assign_v l v = Panic <-> exists i, In i l /\ lower i = upper i /\ finite (lower i + v)) /\
  (set_add_assign_v l v <> Panic -> exists out, set_add_assign_v l v = Ret out /\
     forall x, In_set x out <-> Moved l v x) /\
  set_sub_assign_v l v = set_add_assign_v l (- v).
Proof.
  intros l v C F.
  assert (W : forall i, In i l -> wf_iv i) by (intros; eauto using canonical_In). clear C.
  assert (G : (forall i, In i l -> ~ (lower i = upper i /\ finite (lower i + v))) ->
    exists out, set_add_assign_v l v = Ret out /\ forall x, In_set x out <-> Moved l v x).
  { intros N. unfold set_add_assign_v, Moved. induction l as [|i r IH].
    - exists []. split; auto. intros x. rewrite In_set_nil. unfold In_sext. split; [tauto|]. now intros (_ & i & [] & _).
    - destruct (assign_v_ret i v) as (k & Ek & Dk); [apply W; cbn; auto|auto|apply N; cbn; auto|].
      destruct IH as (out & Eo & Do); [intros; apply W; cbn; auto|intros; apply N; cbn; auto|].
      cbn [omapM]. rewrite Ek. cbn [bind]. rewrite Eo. cbn [bind].
      exists (k :: out). split; auto. intros x. rewrite In_set_cons, Dk, Do. unfold In_sext. split.
      + intros [[Fx H]|(Fx & j & Hj & H)]; (split; [auto|]); [exists i|exists j]; cbn; auto.
      + intros (Fx & j & [<-|Hj] & H); [left; auto|right; split; auto; exists j; auto]. }
  assert (B : (exists i, In i l /\ lower i = upper i /\ finite (lower i + v)) -> set_add_assign_v l v = Panic).
  { intros (i & Hi & E & Fi). apply omapM_Panic.
    - intros k Hk. assert (D : lower k = upper k /\ finite (lower k + v) \/ ~ (lower k = upper k /\ finite (lower k + v)))
        by (unfold finite; lia).
      destruct D as [D|D].
      + left. apply (C19_assign_partial k v (W k Hk) F). auto.
      + destruct (assign_v_ret k v (W k Hk) F D) as (o & Eo & _). eauto.
    - exists i. split; auto. apply (C19_assign_partial i v (W i Hi) F). auto. }
  split; [|split; [|reflexivity]].
  - split; auto. intros E. destruct (bad_dec l v) as [H|H]; auto.
    destruct (G H) as (out & Eo & _). rewrite Eo in E. discriminate.
  - intros N. apply G. destruct (bad_dec l v) as [H|H]; [destruct (N (B H))|exact H].
Qed.
Example C28_assign_exactly_case :
  set_add_assign_v [mkI 1 5; mkI 9 9] 4 = Panic /\
  set_add_assign_v [mkI 1 5; mkI (oo - 2) (oo - 2)] 4 = Ret [mkI 5 9; mkI oo oo] /\
  set_sub_assign_v [mkI 1 5; mkI 9 12] 4 = Ret [mkI (-3) 1; mkI 5 8].
Proof. vm_compute. auto. Qed.

(** What the translating iterator gives: in debug builds it panics exactly if some piece
    leaves the range; in release builds it gives the moved pieces before the first one
    that leaves. *)
Definition leaves (i : interval) (v : Z) : Prop := forall x, finite x -> ~ In_ext (x - v) i.
Lemma leaves_dec i v : wf_iv i -> finite v -> leaves i v \/ exists x, finite x /\ In_ext (x - v) i.
Proof.
  intros W F. destruct (checked_moved Debug i v W F) as [[H _]|[H _]]; auto.
Qed.
Theorem C28_iterator_exactly : forall l v, canonical l -> finite v ->
  (transl_list Debug l v = Panic <-> exists i, In i l /\ leaves i v) /\
  exists a b, l = a ++ b /\ stays a v /\
    (b = [] \/ exists i r, b = i :: r /\ leaves i v) /\
    transl_list Release l v = Ret (map (fun i => moved i v) a) /\
    set_add_v Debug a v = Ret (map (fun i => moved i v) a).
Proof.
  intros l v C F. assert (W : forall i, In i l -> wf_iv i) by (intros; eauto using canonical_In).
  clear C. induction l as [|i r IH].
  - split; [split; [discriminate|intros (i & [] & _)]|].
    exists [], []. repeat split; auto. intros i [].
  - destruct IH as (P & a & b & E & S & B & R & D); [intros; apply W; cbn; auto|].
    pose proof (W i (or_introl eq_refl)) as Wi.
    pose proof (checked_moved Debug i v Wi F) as Kd. pose proof (checked_moved Release i v Wi F) as Kr.
    cbn [transl_list].
    destruct Kd as [(X & Ed & Wm)|[X Ed]].
    + destruct Kr as [(_ & Er & _)|[X' _]]; [|destruct X as (x & Fx & Hx); destruct (X' x Fx Hx)].
      rewrite Ed, Er. cbn [bind].
      pose proof (wf_nonempty_b _ Wm) as N. unfold nonempty in N.
      destruct (iv_is_empty (moved i v)); [discriminate|]. split.
      * split.
        -- intros H. destruct (transl_list Debug r v) eqn:T; try discriminate.
           destruct (proj1 P eq_refl) as (k & Hk & L). exists k. cbn; auto.
        -- intros (k & [<-|Hk] & L).
           ++ destruct X as (x & Fx & Hx). destruct (L x Fx Hx).
           ++ rewrite (proj2 P) by eauto. reflexivity.
      * exists (i :: a), b. rewrite E. split; auto. split; [intros k [<-|Hk]; auto|]. split; auto.
        rewrite <- E, R. split; [reflexivity|]. unfold set_add_v in *. cbn [omapM map].
        rewrite Ed. cbn [bind]. rewrite D. reflexivity.
    + destruct Kr as [((x & Fx & Hx) & _)|[_ Er]]; [destruct (X x Fx Hx)|].
      rewrite Ed, Er. cbn [bind]. split.
      * split; auto. intros _. exists i. cbn; auto.
      * exists [], (i :: r). split; auto. split; [intros k []|]. split; [right; eauto|].
        split; reflexivity.
Qed.
Example C28_iterator_exactly_case :
  let l := [mkI 1 5; mkI (oo - 5) (oo - 3); mkI (oo - 1) oo] in
  transl_list Debug l 10 = Panic /\ transl_list Release l 10 = Ret [mkI 11 15] /\
  leaves (mkI (oo - 5) (oo - 3)) 10.
Proof.
  split; [reflexivity|]. split; [reflexivity|]. intros x F H. unfold In_ext in H; cbn in H. pts. lia.
Qed.

(** [t - S] when pieces leave the range: debug builds panic, release builds give exactly
    the reflected points. *)
Theorem C28_ts_sub_spans_exactly : forall l t, canonical l -> finite t ->
  (ts_sub_spans Debug t l = Panic <->
     exists i, In i l /\ forall x, finite x -> ~ In_ext (t - x) i) /\
  exists out, ts_sub_spans Release t l = Ret out /\
    forall x, In_set x out <-> finite x /\ In_sext (t - x) l.
Proof.
  intros l t C F.
  assert (E : forall p, ts_sub_spans p t l = set_add_v p (set_neg l) t).
  { intros p. unfold ts_sub_spans, set_add_v, set_neg. rewrite omapM_map. apply omapM_ext. intros i Hi.
    apply in_rev in Hi. apply (C19_dates p t i (canonical_In _ _ C Hi) F). }
  destruct (C22_neg l C) as [Cn _].
  assert (N : forall x, In_sext (x - t) (set_neg l) <-> In_sext (t - x) l).
  { intros x. unfold In_sext, set_neg. split.
    - intros (k & Hk & H). apply in_map_iff in Hk as (i & <- & Hi). apply in_rev in Hi.
      exists i. split; auto. apply ext_neg in H. now replace (t - x) with (- (x - t)) by lia.
    - intros (i & Hi & H). exists (iv_neg i). split; [apply in_map, in_rev; now rewrite rev_involutive|].
      apply ext_neg. now replace (- (x - t)) with (t - x) by lia. }
  assert (G : stays (set_neg l) t \/ exists k, In k (set_neg l) /\ leaves k t).
  { assert (W : forall k, In k (set_neg l) -> wf_iv k) by (intros; eauto using canonical_In).
    clear - W F. induction (set_neg l) as [|k r IH]; [left; intros i []|].
    destruct (leaves_dec k t (W k (or_introl eq_refl)) F) as [L|L]; [right; exists k; cbn; auto|].
    destruct IH as [S|(k' & Hk & L')]; [intros; apply W; cbn; auto| |right; exists k'; cbn; auto].
    left. intros i [<-|Hi]; auto. }
  assert (Q : (exists k, In k (set_neg l) /\ leaves k t) <->
              exists i, In i l /\ forall x, finite x -> ~ In_ext (t - x) i).
  { unfold set_neg, leaves. split.
    - intros (k & Hk & L). apply in_map_iff in Hk as (i & <- & Hi). apply in_rev in Hi.
      exists i. split; auto. intros x Fx H. apply (L x Fx), ext_neg. now replace (- (x - t)) with (t - x) by lia.
    - intros (i & Hi & L). exists (iv_neg i). split; [apply in_map, in_rev; now rewrite rev_involutive|].
      intros x Fx H. apply (L x Fx). apply ext_neg in H. now replace (t - x) with (- (x - t)) by lia. }
  rewrite !E. split.
  - rewrite <- Q. destruct G as [S|L].
    + split.
      * destruct (C28_add_v Debug (set_neg l) t Cn F S) as (out & Eo & _). rewrite Eo. discriminate.
      * intros (k & Hk & L). destruct (S k Hk) as (x & Fx & Hx). destruct (L x Fx Hx).
    + split; auto. intros _. apply C28_add_v_partial; auto.
      intros S. destruct L as (k & Hk & L). destruct (S k Hk) as (x & Fx & Hx). destruct (L x Fx Hx).
  - assert (X : exists out, set_add_v Release (set_neg l) t = Ret out /\
      forall x, In_set x out <-> Moved (set_neg l) t x).
    { destruct G as [S|(k & Hk & L)].
      - destruct (C28_add_v Release (set_neg l) t Cn F S) as (out & Eo & _ & _ & D). eauto.
      - apply C28_add_v_partial; auto. intros S. destruct (S k Hk) as (x & Fx & Hx). destruct (L x Fx Hx). }
    destruct X as (out & Eo & D). exists out. split; auto. intros x. rewrite D. unfold Moved. now rewrite N.
Qed.
Example C28_ts_sub_exactly_case :
  ts_sub_spans Debug 100 [mkI (- oo + 1) (- oo + 9); mkI 10 20] = Panic /\
  ts_sub_spans Release 100 [mkI (- oo + 1) (- oo + 9); mkI 10 20] = Ret [mkI 80 90; iv_empty].
Proof. vm_compute. auto. Qed.

(** [S + T] for a set of spans [T]: debug builds panic exactly if some two pieces have no
    representable sum. *)
Lemma pairs_dec l m : Forall wf_iv l -> Forall wf_iv m ->
  all_sums_ok l m \/ exists i j, In i l /\ In j m /\ ~ sums_ok i j.
Proof.
  intros Wl Wm. rewrite Forall_forall in Wl, Wm.
  assert (D : forall i j, wf_iv i -> wf_iv j -> sums_ok i j \/ ~ sums_ok i j).
  { intros i j Wi Wj. destruct (add_span_pieces Debug i j Wi Wj) as [[(_ & X & _)|[_ X]] _].
    - left. assumption.
    - right. intros [x H]. destruct (X x H). }
  assert (Dj : forall i, wf_iv i -> (forall j, In j m -> sums_ok i j) \/ exists j, In j m /\ ~ sums_ok i j).
  { intros i Wi. induction m as [|j r IH]; [left; intros j []|].
    destruct (D i j Wi (Wm j (or_introl eq_refl))) as [S|S]; [|right; exists j; cbn; auto].
    destruct IH as [H|(k & Hk & H)]; [intros; apply Wm; cbn; auto| |right; exists k; cbn; auto].
    left. intros k [<-|Hk]; auto. }
  induction l as [|i r IH]; [left; intros i j []|].
  destruct (Dj i (Wl i (or_introl eq_refl))) as [H|(j & Hj & H)]; [|right; exists i, j; cbn; auto].
  destruct IH as [S|(k & j & Hk & Hj & S)]; [intros; apply Wl; cbn; auto| |right; exists k, j; cbn; auto].
  left. intros k j [<-|Hk] Hj; auto.
Qed.
Theorem C28_add_spans_panics : forall l m, canonical l -> canonical m ->
  (set_add_spans Debug l m = Panic <-> exists i j, In i l /\ In j m /\ ~ sums_ok i j).
Proof.
  intros l m Cl Cm.
  assert (Wl : Forall wf_iv l) by (apply Forall_forall; eauto using canonical_In).
  assert (Wm : Forall wf_iv m) by (apply Forall_forall; eauto using canonical_In).
  split.
  - intros E. destruct (pairs_dec l m Wl Wm) as [S|S]; auto.
    destruct (C28_add_spans_partial Debug l m Cl Cm S) as (out & Eo & _). rewrite Eo in E. discriminate.
  - intros (i & j & Hi & Hj & N). unfold set_add_spans. rewrite Forall_forall in Wl, Wm.
    rewrite omapM_Panic; [reflexivity| |].
    + intros [a b] H. apply in_prod_iff in H as [Ha Hb].
      destruct (add_span_pieces Debug a b (Wl a Ha) (Wm b Hb)) as [H E].
      destruct (C19_add_span Debug a b (Wl a Ha) (Wm b Hb)) as [G1 G2].
      destruct H as [(Ek & X & _)|[Ek X]]; [right; rewrite E by exact X; eauto|left; apply G2; exact X].
    + exists (i, j). split; [now apply in_prod|].
      apply (C19_add_span Debug i j (Wl i Hi) (Wm j Hj)). intros x H. apply N. exists x. exact H.
Qed.
Example C28_add_spans_panics_case :
  set_add_spans Debug [mkI 1 5; mkI (oo - 5) (oo - 3)] [mkI 0 1; mkI 10 10] = Panic /\
  ~ sums_ok (mkI (oo - 5) (oo - 3)) (mkI 10 10).
Proof.
  split; [reflexivity|]. intros (x & F & y & z & Hy & Hz & E). unfold In_ext in *; cbn in *. pts. lia.
Qed.
(** Finding: release builds then keep an empty interval inside the set. *)
Theorem C28_add_spans_refuted : exists l m out, canonical l /\ canonical m /\
  set_add_spans Release l m = Ret out /\ ~ canonical out.
Proof.
  exists [mkI 1 5; mkI (oo - 5) (oo - 3)], [mkI 10 10], [mkI 11 15; iv_empty].
  split; [cbn; iv; lia|]. split; [cbn; iv; lia|]. split; [reflexivity|]. vm_compute. intuition congruence.
Qed.
