(** The scheduler (properties C52, C53, C55, C56). *)
From Verif Require Import Machine TimeValue Spec Tac TimeValueProofs Interval Iter TimeSet Relns
  Transl SpecSets SetProofs CollectProofs Prop_Interval SetOpsProofs Prop_TimeSet Prop_Transl SchedSets
  Graph MaxPlus GraphProofs SpecGraph GraphInv GraphIter Prop_Graph Prop_Propagation Prop_GraphIter
  Scheduler SpecSched SchedProofs.

(** Chained intersections keep exactly the common points, whatever the superfluous pieces of
    the operands. *)
Theorem C24_cut : forall a b, cut a -> cut b ->
  exists l, set_and a b = Ret l /\ cut l /\ forall x, In_set x l <-> In_set x a /\ In_set x b.
Proof.
  intros a b Ca Cb. destruct (n_set_and a b _ _ (cut_nset _ Ca) (cut_nset _ Cb)) as (E & _ & D).
  exists (all_caps a b). split; [exact E|]. split; [apply (cut_and a b); auto|auto].
Qed.
Ltac canon := simpl; unfold wf_iv, oo; simpl; lia.
Example C24_cut_case : exists a b l, cut a /\ ~ canonical a /\ cut b /\ set_and a b = Ret l /\ In_set 12 l /\ ~ In_set 7 l.
Proof.
  exists [mkI 3 2; mkI 5 8; mkI 10 20], [mkI 0 6; mkI 9 15]. eexists.
  split; [|split; [|split; [|split; [vm_compute; reflexivity|]]]].
  - apply (cut_and [mkI 0 2; mkI 5 8; mkI 10 20] [mkI 3 8; mkI 10 20]);
      [apply cut_canonical; canon|apply cut_canonical; canon|vm_compute; reflexivity].
  - canon.
  - apply cut_canonical; canon.
  - split.
    + exists (mkI 10 15). split; [simpl; auto 6|]. unfold In_iv, finite, oo; simpl. lia.
    + intros (i & I & _ & H). simpl in I. intuition subst; simpl in *; lia.
Qed.

(** ** C52: no possible schedule is discarded *)

(** The graphs got by accepted calls with bounded constraints report nonempty intervals. *)
Theorem C52_history_proper : forall p N B ks g, room N B -> history p N B ks g -> stored g /\ proper p g.
Proof.
  intros p N B ks g R H. pose proof (history_inv _ _ _ _ _ R H) as I.
  pose proof (i_mem _ _ _ _ I) as M. split; [apply stored_mem; auto|]. apply proper_prop; auto.
  destruct (inv_consistent p _ _ _ _ I) as (t & S).
  destruct (inv_finite _ _ _ _ R I) as (V & F).
  intros i j Ni Nj. destruct (S i j Ni Nj) as (iv & T & E). rewrite timespan_ok in T by auto. injection T as <-.
  pose proof (F i j Ni Nj). pose proof (F j i Nj Ni). pose proof (V i j Ni Nj). pose proof (V j i Nj Ni).
  unfold wf_iv, spn, In_ext, valid, oo in *. simpl in *. lia.
Qed.

Section C52.
Variables (p : profile) (g : graph) (s : sched).
Hypothesis (St : stored g) (Pr : proper p g) (Se : session p g s).
Let M : mem_ok g := proj1 (stored_mem g) St.
Let P : prop g := proj1 (proper_prop p g M) Pr.
Let I : sinv g s := session_sinv p g s M P Se.

Theorem C52_retain : forall i w s' r t, 0 <= i -> window_ok w -> sc_retain p s i w = Ret (s', r) ->
  accepted r -> schedule p s t -> In_w (t i) w -> schedule p s' t.
Proof.
  intros i w s' r t Hi W E A S T. destruct (retain_inv p g s i w s' r M P I Hi W E) as (_ & _ & [H|[H|H]]).
  - destruct H as (_ & -> & _). auto.
  - destruct H as (-> & _). destruct A; discriminate.
  - apply H; auto.
Qed.
Theorem C52_remove : forall i h s' r t, 0 <= i < g_size g -> hole_ok h -> sc_remove p s i h = Ret (s', r) ->
  accepted r -> schedule p s t -> ~ In_h (t i) h -> schedule p s' t.
Proof.
  intros i h s' r t Hi W E A S T. destruct (hole_window h W) as (W' & D).
  apply (C52_retain i (WSet (h_not h)) s' r); auto; [lia|]. simpl. apply D; auto.
  destruct S as (_ & S). destruct I as (G & _). rewrite G in S. destruct (S i Hi) as (l & _ & X). eapply In_set_finite; eauto.
Qed.
Theorem C52_deadline : forall d s' r t, finite d -> sc_set_deadline p s d = Ret (s', r) ->
  accepted r -> schedule p s t -> (forall i, 0 <= i < g_size g -> t i <= d) -> schedule p s' t.
Proof.
  intros d s' r t F E A S T. destruct (deadline_ok p g s d M P I F) as [E'|(s2 & r2 & E' & _ & H)]; [congruence|].
  rewrite E in E'. injection E' as <- <-. destruct H as [(-> & _)|(_ & _ & _ & K)]; [destruct A; discriminate|auto].
Qed.
Theorem C52_startline : forall d s' r t, finite d -> sc_set_startline p s d = Ret (s', r) ->
  accepted r -> schedule p s t -> (forall i, 0 <= i < g_size g -> d <= t i) -> schedule p s' t.
Proof.
  intros d s' r t F E A S T. destruct (startline_ok p g s d M P I F) as [E'|(s2 & r2 & E' & _ & H)]; [congruence|].
  rewrite E in E'. injection E' as <- <-. destruct H as [(-> & _)|(_ & _ & _ & K)]; [destruct A; discriminate|auto].
Qed.
(** Conversely, dates are only removed, and the restriction holds afterwards. *)
Theorem C52_shrinks : forall i w s' r j x, 0 <= i -> window_ok w -> sc_retain p s i w = Ret (s', r) ->
  0 <= j < g_size g -> possible s' j x -> possible s j x /\ (j = i -> accepted r -> In_w x w).
Proof.
  intros i w s' r j x Hi W E Hj X. destruct (retain_inv p g s i w s' r M P I Hi W E) as (_ & _ & [H|[H|H]]).
  - destruct H as (_ & -> & H). split; auto. intros ->. auto.
  - destruct H as (-> & -> & _). split; auto. intros _ [A|A]; discriminate.
  - destruct H as (_ & H1 & H2 & _). split; auto. intros ->. auto.
Qed.
(** A call is safe; in release builds it returns for every instant of the graph. *)
Theorem C52_safe : forall i w, 0 <= i -> window_ok w ->
  sc_retain p s i w = Panic \/ exists s' r, sc_retain p s i w = Ret (s', r) /\ r <> Fatal.
Proof.
  intros i w Hi W. destruct (Z_lt_le_dec i (g_size g)) as [L|L].
  - destruct (retain_ok p g s i w M P I (conj Hi L) W) as [(_ & ->)|(s' & r & -> & _ & H)]; auto.
    right. exists s', r. split; auto. destruct H as [(-> & _)|[(-> & _)|(-> & _)]]; discriminate.
  - left. eapply retain_out; eauto.
Qed.
Theorem C52_total : forall i w, p = Release -> 0 <= i < g_size g -> window_ok w ->
  exists s' r, sc_retain p s i w = Ret (s', r).
Proof.
  intros i w Rp Hi W. destruct (retain_ok p g s i w M P I Hi W) as [(Dp & _)|(s' & r & -> & _)]; [congruence|eauto].
Qed.

(** ** C53 *)

Theorem C53_unchanged : forall i w s', 0 <= i -> window_ok w -> sc_retain p s i w = Ret (s', Unchanged) ->
  s' = s /\ forall x, possible s i x -> In_w x w.
Proof.
  intros i w s' Hi W E. destruct (retain_inv p g s i w s' _ M P I Hi W E) as (_ & _ & [H|[H|H]]).
  - destruct H as (_ & H). auto.
  - destruct H. discriminate.
  - destruct H. discriminate.
Qed.
Theorem C53_recovered : forall i w s', 0 <= i -> window_ok w -> sc_retain p s i w = Ret (s', Recovered) ->
  s' = s /\ forall x, possible s i x -> ~ In_w x w.
Proof.
  intros i w s' Hi W E. destruct (retain_inv p g s i w s' _ M P I Hi W E) as (_ & _ & [H|[H|H]]).
  - destruct H. discriminate.
  - destruct H as (_ & H). auto.
  - destruct H. discriminate.
Qed.

(** ** C56 *)

(** Full statement: the call never panics (refuted below), and is refused only if some
    instant cannot be at or before [d]. *)
Theorem C56_deadline_partial : forall d s' r, finite d -> sc_set_deadline p s d = Ret (s', r) ->
  (r = Recovered /\ s' = s /\ exists i, 0 <= i < g_size g /\ forall x, possible s i x -> d < x) \/
  (accepted r /\ (r = Unchanged -> s' = s) /\
   forall i x, 0 <= i < g_size g -> possible s' i x -> possible s i x /\ x <= d).
Proof.
  intros d s' r F E. destruct (deadline_ok p g s d M P I F) as [E'|(s2 & r2 & E' & _ & H)]; [congruence|].
  rewrite E in E'. injection E' as <- <-. destruct H as [H|(A & B & C & _)]; auto.
Qed.
(** Partial: only if the call returns; see C56_startline_convex_partial for intervals. *)
Theorem C56_startline_partial : forall d s' r, finite d -> sc_set_startline p s d = Ret (s', r) ->
  (r = Recovered /\ s' = s /\ exists i, 0 <= i < g_size g /\ forall x, possible s i x -> x < d) \/
  (accepted r /\ (r = Unchanged -> s' = s) /\
   forall i x, 0 <= i < g_size g -> possible s' i x -> possible s i x /\ d <= x).
Proof.
  intros d s' r F E. destruct (startline_ok p g s d M P I F) as [E'|(s2 & r2 & E' & _ & H)]; [congruence|].
  rewrite E in E'. injection E' as <- <-. destruct H as [H|(A & B & C & _)]; auto.
Qed.
End C52.

(** [latest_beginning] and [earliest_ending] are the least upper bound and the greatest
    lower bound reported for the instants. *)
Lemma fold_min l : forall x, fold_left Z.min l x <= x /\ (forall y, In y l -> fold_left Z.min l x <= y) /\
  (fold_left Z.min l x = x \/ In (fold_left Z.min l x) l).
Proof.
  induction l as [|a l IH]; intros x; simpl; [intuition lia|].
  destruct (IH (Z.min x a)) as (H1 & H2 & H3). split; [lia|]. split.
  - intros y [<-|Hy]; [lia|auto].
  - destruct H3 as [H3|H3]; auto. rewrite H3. destruct (Z.min_spec x a) as [(_ & ->)|(_ & ->)]; auto.
Qed.
Lemma fold_max l : forall x, x <= fold_left Z.max l x /\ (forall y, In y l -> y <= fold_left Z.max l x) /\
  (fold_left Z.max l x = x \/ In (fold_left Z.max l x) l).
Proof.
  induction l as [|a l IH]; intros x; simpl; [intuition lia|].
  destruct (IH (Z.max x a)) as (H1 & H2 & H3). split; [lia|]. split.
  - intros y [<-|Hy]; [lia|auto].
  - destruct H3 as [H3|H3]; auto. rewrite H3. destruct (Z.max_spec x a) as [(_ & ->)|(_ & ->)]; auto.
Qed.
Theorem C56_latest : forall s d, sc_latest_beginning s = Ret d <->
  (exists i l, 0 <= i /\ sc_scheduling s i = Some l /\ set_upper l = d) /\
  (forall i l, 0 <= i -> sc_scheduling s i = Some l -> d <= set_upper l).
Proof.
  intros s d. unfold sc_latest_beginning, sc_scheduling.
  assert (Q : forall y, In y (map set_upper (sc_slots s)) <->
    exists i l, 0 <= i /\ nth_error (sc_slots s) (Z.to_nat i) = Some l /\ set_upper l = y).
  { intros y. rewrite in_map_iff. split.
    - intros (l & <- & H). apply In_nth_error in H as (n & H). exists (Z.of_nat n), l. rewrite Nat2Z.id. split; [lia|auto].
    - intros (i & l & _ & H & E). exists l. split; auto. eapply nth_error_In; eauto. }
  assert (Q' : (forall y, In y (map set_upper (sc_slots s)) -> d <= y) <->
    forall i l, 0 <= i -> nth_error (sc_slots s) (Z.to_nat i) = Some l -> d <= set_upper l).
  { split; intros H.
    - intros i l Hi E. apply H. apply Q. eauto.
    - intros y Hy. apply Q in Hy as (i & l & Hi & E & <-). eauto. }
  rewrite <- Q', <- Q. clear Q Q'. destruct (map set_upper (sc_slots s)) as [|x r].
  - split; [discriminate|]. intros ([] & _).
  - destruct (fold_min r x) as (H1 & H2 & H3). split.
    + intros E. injection E as <-. split; [simpl; intuition|]. intros y [<-|Hy]; auto.
    + intros (H & K). f_equal. simpl in K, H.
      assert (d <= fold_left Z.min r x) by (destruct H3 as [->|]; auto).
      assert (fold_left Z.min r x <= d) by (destruct H as [<-|]; auto). lia.
Qed.
Theorem C56_earliest : forall s d, sc_earliest_ending s = Ret d <->
  (exists i l, 0 <= i /\ sc_scheduling s i = Some l /\ set_lower l = d) /\
  (forall i l, 0 <= i -> sc_scheduling s i = Some l -> set_lower l <= d).
Proof.
  intros s d. unfold sc_earliest_ending, sc_scheduling.
  assert (Q : forall y, In y (map set_lower (sc_slots s)) <->
    exists i l, 0 <= i /\ nth_error (sc_slots s) (Z.to_nat i) = Some l /\ set_lower l = y).
  { intros y. rewrite in_map_iff. split.
    - intros (l & <- & H). apply In_nth_error in H as (n & H). exists (Z.of_nat n), l. rewrite Nat2Z.id. split; [lia|auto].
    - intros (i & l & _ & H & E). exists l. split; auto. eapply nth_error_In; eauto. }
  assert (Q' : (forall y, In y (map set_lower (sc_slots s)) -> y <= d) <->
    forall i l, 0 <= i -> nth_error (sc_slots s) (Z.to_nat i) = Some l -> set_lower l <= d).
  { split; intros H.
    - intros i l Hi E. apply H. apply Q. eauto.
    - intros y Hy. apply Q in Hy as (i & l & Hi & E & <-). eauto. }
  rewrite <- Q', <- Q. clear Q Q'. destruct (map set_lower (sc_slots s)) as [|x r].
  - split; [discriminate|]. intros ([] & _).
  - destruct (fold_max r x) as (H1 & H2 & H3). split.
    + intros E. injection E as <-. split; [simpl; intuition|]. intros y [<-|Hy]; auto.
    + intros (H & K). f_equal. simpl in K, H.
      assert (fold_left Z.max r x <= d) by (destruct H3 as [->|]; auto).
      assert (d <= fold_left Z.max r x) by (destruct H as [<-|]; auto). lia.
Qed.
(** They panic on the scheduler of a graph without instants. *)
Theorem C56_none_refuted : exists g, stored g /\ sc_latest_beginning (sc_new g) = Panic /\
  sc_earliest_ending (sc_new g) = Panic.
Proof. exists g_default. split; [unfold stored; simpl; lia|split; reflexivity]. Qed.

(** ** Concrete schedulers *)

Definition kk (i j lo up : Z) : kons := mkK i j false lo up.
(** [t1 - t0] in [3, 48] and [t2 - t1] in [0, 60] *)
Definition gA : graph := mkG 3 [0; - 48; 0; 3; - 108; - 60; 0; 0; 3].
Definition ksA : list kons := [kk 1 2 0 60; kk 0 1 3 48].
(** [t1 - t0] in [15, 30] and [t0 - t2] in [-19, 100] *)
Definition gB : graph := mkG 3 [0; - 30; 0; 15; - 19; - 4; 0; - 130; - 100].
Definition ksB : list kons := [kk 2 0 (- 19) 100; kk 0 1 15 30].
Ltac two_steps p k1 k2 g0 g1 :=
  apply (h_propagate p 3 200 [k1] g1 k2 _ Propagated);
  [apply (h_propagate p 3 200 [] g0 k1 _ Propagated);
   [apply (h_new p 3 200 3)| | | |]| | | |];
  try (destruct p; vm_compute; reflexivity); try (right; reflexivity);
  try (unfold good, wf_iv, within, inside, oo; simpl; lia); try lia.
Lemma room_3 : room 3 200.
Proof. unfold room, oo. lia. Qed.
Lemma histA p : history p 3 200 ksA gA.
Proof.
  unfold ksA. two_steps p (kk 0 1 3 48) (kk 1 2 0 60)
    (mkG 3 [0; - oo; 0; - oo; - oo; - oo; 0; - oo; - oo]) (mkG 3 [0; - 48; 0; 3; - oo; - oo; 0; - oo; - oo]).
Qed.
Lemma histB p : history p 3 200 ksB gB.
Proof.
  unfold ksB. two_steps p (kk 0 1 15 30) (kk 2 0 (- 19) 100)
    (mkG 3 [0; - oo; 0; - oo; - oo; - oo; 0; - oo; - oo]) (mkG 3 [0; - 30; 0; 15; - oo; - oo; 0; - oo; - oo]).
Qed.
Definition pts3 (a b c : Z) : window := WSet [mkI a a; mkI b b; mkI c c].
Lemma pts3_ok a b c : - 1000 <= a -> a + 1 < b -> b + 1 < c -> c <= 1000 -> window_ok (pts3 a b c).
Proof. intros. apply cut_canonical. canon. Qed.
Lemma one_ok a b : - 1000 <= a <= b -> b <= 1000 -> window_ok (WSet [mkI a b]).
Proof. intros. apply cut_canonical. canon. Qed.
Lemma two_ok a b : - 1000 <= a -> a + 1 < b -> b <= 1000 -> window_ok (WSet [mkI a a; mkI b b]).
Proof. intros. apply cut_canonical. canon. Qed.

(** Instants restricted by sets *)
Definition sA1 : sched := mkS gA [[mkI (- 48) (- 3); mkI 2 47]; [mkI 0 0; mkI 50 50]; [mkI 0 110]].
Definition sA2 : sched := mkS gA [[mkI (- 48) (- 3); mkI 2 2]; [mkI 0 0]; [mkI 5 5]].
Lemma sA1_step p : sc_retain p (sc_new gA) 1 (WSet [mkI 0 0; mkI 50 50]) = Ret (sA1, Propagated).
Proof. destruct p; vm_compute; reflexivity. Qed.
Lemma sA2_step p : sc_retain p sA1 2 (WSet [mkI 5 5]) = Ret (sA2, Propagated).
Proof. destruct p; vm_compute; reflexivity. Qed.
Lemma sA1_session p : session p gA sA1.
Proof. eapply s_retain; [apply s_new| | |apply sA1_step]; [lia|apply two_ok; lia]. Qed.
Lemma sA2_session p : session p gA sA2.
Proof. eapply s_retain; [apply sA1_session| | |apply sA2_step]; [lia|apply one_ok; lia]. Qed.
Definition date3 (a b c : Z) : Z -> Z := fun i => if i =? 0 then a else if i =? 1 then b else c.
Ltac member k := exists k; split; [simpl; auto 6|unfold In_iv, finite, date3, oo; simpl; lia].
Lemma solA p t : 3 <= t 1 - t 0 <= 48 -> 0 <= t 2 - t 1 <= 60 -> solution p gA t.
Proof.
  intros H1 H2. apply (proj2 (inv_sat p 3 200 ksA gA t (history_inv _ _ _ _ _ room_3 (histA p)))).
  unfold ksA, sat, In_ext. repeat constructor; simpl; lia.
Qed.
(** [5, 50, 60] is a schedule before and after the instant 2 is put in [40, 60] u [70, 90];
    [-3, 0, 50] is one before [remove] and after. *)
Example C52_retain_case : forall p, exists s', stored gA /\ proper p gA /\ session p gA sA1 /\
  window_ok (WSet [mkI 40 60; mkI 70 90]) /\
  sc_retain p sA1 2 (WSet [mkI 40 60; mkI 70 90]) = Ret (s', Propagated) /\
  schedule p sA1 (date3 5 50 60) /\ schedule p s' (date3 5 50 60) /\ s' <> sA1.
Proof.
  intros p. destruct (C52_history_proper _ _ _ _ _ room_3 (histA p)) as (S1 & S2).
  assert (W : window_ok (WSet [mkI 40 60; mkI 70 90])) by (apply cut_canonical; canon).
  assert (T : schedule p sA1 (date3 5 50 60)).
  { split; [apply solA; unfold date3; simpl; lia|]. intros i Hi. simpl in Hi.
    assert (i = 0 \/ i = 1 \/ i = 2) as [->|[->| ->]] by lia; eexists; (split; [reflexivity|]).
    - member (mkI 2 47).
    - member (mkI 50 50).
    - member (mkI 0 110). }
  assert (E : exists s', sc_retain p sA1 2 (WSet [mkI 40 60; mkI 70 90]) = Ret (s', Propagated) /\ s' <> sA1).
  { destruct p; (eexists; split; [vm_compute; reflexivity|discriminate]). }
  destruct E as (s' & E & D). exists s'. split; auto. split; auto. split; [apply sA1_session|]. split; auto. split; auto.
  split; auto. split; auto. apply (C52_retain p gA sA1) with (i := 2) (w := WSet [mkI 40 60; mkI 70 90]) (r := Propagated); auto.
  - apply sA1_session.
  - lia.
  - right. auto.
  - exists (mkI 40 60). split; [simpl; auto|]. unfold In_iv, finite, date3, oo; simpl. lia.
Qed.
Example C52_remove_case : forall p, exists s', hole_ok (HIv (mkI (- 2) 40)) /\
  sc_remove p sA1 0 (HIv (mkI (- 2) 40)) = Ret (s', Propagated) /\
  schedule p sA1 (date3 (- 3) 0 50) /\ schedule p s' (date3 (- 3) 0 50) /\ ~ possible s' 0 30.
Proof.
  intros p. destruct (C52_history_proper _ _ _ _ _ room_3 (histA p)) as (S1 & S2).
  assert (W : hole_ok (HIv (mkI (- 2) 40))) by (unfold hole_ok, proper_iv, wf_iv, oo; simpl; lia).
  assert (T : schedule p sA1 (date3 (- 3) 0 50)).
  { split; [apply solA; unfold date3; simpl; lia|]. intros i Hi. simpl in Hi.
    assert (i = 0 \/ i = 1 \/ i = 2) as [->|[->| ->]] by lia; eexists; (split; [reflexivity|]).
    - member (mkI (- 48) (- 3)).
    - member (mkI 0 0).
    - member (mkI 0 110). }
  assert (E : exists s', sc_remove p sA1 0 (HIv (mkI (- 2) 40)) = Ret (s', Propagated)).
  { destruct p; (eexists; vm_compute; reflexivity). }
  destruct E as (s' & E). exists s'. split; auto. split; auto. split; auto. split.
  - apply (C52_remove p gA sA1) with (i := 0) (h := HIv (mkI (- 2) 40)) (r := Propagated); auto.
    + apply sA1_session.
    + simpl; lia.
    + right. auto.
    + simpl. unfold In_iv, date3, finite; simpl. lia.
  - intros (l & X & k & Hk & F & B).
    assert (Y : sc_scheduling s' 0 = Some [mkI (- 48) (- 3); mkI 41 47]).
    { destruct p; vm_compute in E; injection E as <-; reflexivity. }
    rewrite Y in X. injection X as <-. simpl in Hk. intuition subst; simpl in *; lia.
Qed.
(** A deadline and a startline, both accepted *)
Example C52_deadline_case : forall p, exists s' s'', sc_set_deadline p sA1 60 = Ret (s', Propagated) /\
  schedule p s' (date3 5 50 60) /\ sc_set_startline p s' 2 = Ret (s'', Propagated) /\ schedule p s'' (date3 5 50 60) /\
  ~ possible s'' 1 0.
Proof.
  intros p. destruct (C52_retain_case p) as (_ & S1 & S2 & S3 & _ & _ & T & _).
  assert (E : exists s', sc_set_deadline p sA1 60 = Ret (s', Propagated) /\ exists s'', sc_set_startline p s' 2 = Ret (s'', Propagated) /\
    sc_scheduling s'' 1 = Some [mkI 50 50]).
  { destruct p; (eexists; split; [vm_compute; reflexivity|]; eexists; split; vm_compute; reflexivity). }
  destruct E as (s' & E & s'' & E' & Q). exists s', s''.
  assert (F : forall d, - 1000 <= d <= 1000 -> finite d) by (unfold finite, oo; lia).
  assert (T' : schedule p s' (date3 5 50 60)).
  { apply (C52_deadline p gA sA1) with (d := 60) (r := Propagated); auto; [apply F; lia|right; auto|].
    intros i Hi. unfold date3. tests; lia. }
  split; auto. split; auto. split; auto. split.
  - apply (C52_startline p gA s') with (d := 2) (r := Propagated); auto; [|apply F; lia|right; auto|].
    + eapply s_deadline; [apply S3| |apply E]. apply F; lia.
    + intros i Hi. unfold date3. tests; lia.
  - intros (l & X & k & Hk & _ & B). rewrite Q in X. injection X as <-. simpl in Hk. intuition subst; simpl in *; lia.
Qed.
Example C52_shrinks_case : forall p, sc_retain p sA1 2 (WSet [mkI 5 5]) = Ret (sA2, Propagated) /\ possible sA1 0 40 /\ ~ possible sA2 0 40 /\ possible sA2 2 5.
Proof.
  intros p. split; [apply sA2_step|]. split; [|split].
  - eexists. split; [reflexivity|]. member (mkI 2 47).
  - intros (l & X & k & Hk & _ & B). simpl in X. injection X as <-. simpl in Hk. intuition subst; simpl in *; lia.
  - eexists. split; [reflexivity|]. member (mkI 5 5).
Qed.
Example C53_unchanged_case : forall p, session p gA sA2 /\
  sc_retain p sA2 0 (WSet [mkI (- 50) 0; mkI 2 9]) = Ret (sA2, Unchanged).
Proof. intros p. split; [apply sA2_session|destruct p; vm_compute; reflexivity]. Qed.
Example C53_recovered_case : forall p, session p gA sA2 /\
  sc_retain p sA2 0 (WSet [mkI (- 2) 1; mkI 5 9]) = Ret (sA2, Recovered).
Proof. intros p. split; [apply sA2_session|destruct p; vm_compute; reflexivity]. Qed.
Example C56_partial_case : forall p, sc_set_deadline p sA1 (- 1) = Ret (sA1, Recovered) /\
  sc_set_startline p sA1 51 = Ret (sA1, Recovered) /\ sc_set_deadline p sA1 110 = Ret (sA1, Unchanged).
Proof. intros p. destruct p; split; try split; vm_compute; reflexivity. Qed.
Example C56_latest_case : sc_latest_beginning sA1 = Ret 47 /\ sc_earliest_ending sA1 = Ret 0 /\
  sc_latest_beginning sA2 = Ret 0 /\ sc_earliest_ending sA2 = Ret 5.
Proof. repeat split; vm_compute; reflexivity. Qed.

(** ** C55 and C56: refutations *)

(** After three accepted restrictions by sets of dates, the instant 1 has no date left. *)
Theorem C55_refuted : exists ks g, room 3 200 /\ (forall p, history p 3 200 ks g) /\ forall p,
  exists s s' i w j, session p g s /\ window_ok w /\ sc_retain p s i w = Ret (s', Propagated) /\
    (forall m, 0 <= m < g_size g -> exists x, possible s m x) /\
    0 <= j < g_size g /\ forall x, ~ possible s' j x.
Proof.
  exists ksA, gA. split; [apply room_3|]. split; [apply histA|]. intros p.
  exists sA2, (mkS gA [[mkI 2 2]; []; [mkI 5 5]]), 0, (WSet [mkI 2 2]), 1.
  split; [apply sA2_session|]. split; [apply one_ok; lia|]. split; [destruct p; vm_compute; reflexivity|]. split.
  - intros m Hm. simpl in Hm. assert (m = 0 \/ m = 1 \/ m = 2) as [->|[->| ->]] by lia.
    + exists 2. eexists. split; [reflexivity|]. member (mkI 2 2).
    + exists 0. eexists. split; [reflexivity|]. member (mkI 0 0).
    + exists 5. eexists. split; [reflexivity|]. member (mkI 5 5).
  - split; [simpl; lia|]. intros x (l & X & k & Hk & _). simpl in X. injection X as <-. destruct Hk.
Qed.
(** An empty range is accepted and empties everything. *)
Theorem C55_empty_refuted : exists g c, (forall p, history p 3 200 ksA g) /\ window_ok (WCx c) /\
  (forall x, ~ In_cx x c) /\ forall p, exists s', sc_retain p (sc_new g) 1 (WCx c) = Ret (s', Propagated) /\
    forall i x, 0 <= i -> ~ possible s' i x.
Proof.
  exists gA, (CRangeIncl 5 3). split; [apply histA|]. split.
  { split; [cbn; unfold valid, oo; lia|]. right. split; reflexivity. }
  split. { intros x (_ & H). cbn in H. lia. }
  intros p. exists (mkS gA [[]; []; []]). split; [destruct p; vm_compute; reflexivity|].
  intros i x Hi (l & X & k & Hk & _). unfold sc_scheduling in X. cbn [sc_slots] in X.
  destruct (Z.to_nat i) as [|[|[|n]]]; simpl in X; [| | |destruct n; discriminate]; injection X as <-; destruct Hk.
Qed.
(** Each instant has a date before 10, but [set_deadline] panics, in both profiles. *)
Theorem C56_panic_refuted : exists ks g d, room 3 200 /\ (forall p, history p 3 200 ks g) /\ finite d /\ forall p,
  exists s, session p g s /\ sc_set_deadline p s d = Panic /\
    forall i, 0 <= i < g_size g -> exists x, possible s i x /\ x <= d.
Proof.
  exists ksB, gB, 10. split; [apply room_3|]. split; [apply histB|]. split; [unfold finite, oo; lia|]. intros p.
  exists (mkS gB [[mkI (- 19) (- 20); mkI (- 5) (- 5); mkI 40 40]; [mkI 0 0; mkI 20 20; mkI 60 60]; [mkI 0 0]]).
  split; [|split; [destruct p; vm_compute; reflexivity|]].
  - apply s_retain with (i := 2) (w := WSet [mkI 0 0]) (r := Propagated)
      (s := mkS gB [[mkI (- 20) (- 20); mkI (- 5) (- 5); mkI 40 40]; [mkI 0 0; mkI 20 20; mkI 60 60]; [mkI (- 120) 59]]);
      [|lia|apply one_ok; lia|destruct p; vm_compute; reflexivity].
    apply s_retain with (i := 1) (w := pts3 0 20 60) (r := Propagated)
      (s := mkS gB [[mkI (- 20) (- 20); mkI (- 5) (- 5); mkI 40 40]; [mkI (- 5) 25; mkI 55 70]; [mkI (- 120) 59]]);
      [|lia|apply pts3_ok; lia|destruct p; vm_compute; reflexivity].
    apply s_retain with (i := 0) (w := pts3 (- 20) (- 5) 40) (r := Propagated) (s := sc_new gB);
      [apply s_new|lia|apply pts3_ok; lia|destruct p; vm_compute; reflexivity].
  - intros i Hi. simpl in Hi. assert (i = 0 \/ i = 1 \/ i = 2) as [->|[->| ->]] by lia.
    + exists (- 5). split; [|lia]. eexists. split; [reflexivity|]. member (mkI (- 5) (- 5)).
    + exists 0. split; [|lia]. eexists. split; [reflexivity|]. member (mkI 0 0).
    + exists 0. split; [|lia]. eexists. split; [reflexivity|]. member (mkI 0 0).
Qed.
(** Close to the last date the translated dates overflow: debug builds panic, release builds
    accept the interval and leave an instant without dates. *)
Theorem C54_overflow_refuted : exists g c, (forall p, history p 3 200 ksA g) /\ window_ok (WCx c) /\
  (exists x, In_cx x c) /\ sc_retain Debug (sc_new g) 0 (WCx c) = Panic /\
  exists s', sc_retain Release (sc_new g) 0 (WCx c) = Ret (s', Propagated) /\ forall x, ~ possible s' 1 x.
Proof.
  exists gA, (CRangeFrom (oo - 3)). split; [apply histA|]. split; [cbn; unfold valid, oo, INF, i64_max; lia|].
  split; [exists (oo - 2); unfold In_cx, finite, oo; lia|]. split; [vm_compute; reflexivity|].
  exists (mkS gA [[mkI (oo - 3) oo]; []; []]). split; [vm_compute; reflexivity|].
  intros x (l & X & k & Hk & _). simpl in X. injection X as <-. destruct Hk.
Qed.

Print Assumptions C52_retain.
Print Assumptions C52_startline.
Print Assumptions C52_history_proper.
Print Assumptions C53_recovered.
Print Assumptions C55_refuted.
Print Assumptions C56_panic_refuted.
Print Assumptions C56_latest.
