(** Proofs about the scheduler: what each call keeps and removes. *)
From Verif Require Import Machine TimeValue Spec Tac TimeValueProofs Interval Iter TimeSet Relns
  Transl SpecSets SetProofs CollectProofs Prop_Interval SetOpsProofs Prop_TimeSet Prop_Transl SchedSets
  Graph MaxPlus GraphProofs SpecGraph GraphInv GraphIter Prop_Graph Prop_GraphIter Scheduler SpecSched.

Definition low : Z := - oo - 1.
Definition nset (l : tset) : Prop := near_from low l.
Lemma nset_canonical l : canonical l -> nset l.
Proof. intros C. apply canon_near. apply canonical_from_iff; auto. Qed.
Lemma cut_nset l : cut l -> nset l.
Proof.
  induction 1 as [l C|a b l Ca IHa Cb IHb E]; [apply nset_canonical; auto|].
  destruct (n_set_and a b _ _ IHa IHb) as (E' & N & _). rewrite E in E'. injection E' as ->. auto.
Qed.

(** ** The windows *)

Lemma w_contains_ok w s x : window_ok w -> nset s -> w_contains w s = true -> In_set x s -> In_w x w.
Proof.
  intros W N H I. destruct w as [c|l]; cbn [In_w w_contains window_ok] in *.
  - destruct W as (V & _). apply (proj1 (C11_convex_bounds c x V)). split; [eapply In_set_finite; eauto|].
    unfold cx_contains in H. cbn [w_lower w_upper] in H. pose proof (n_upper s _ x N I). lia.
  - unfold set_contains in H. rewrite forallb_forall in H. destruct I as (m & Im & F & Hx).
    specialize (H m Im). unfold set_contains_cx in H. simpl in H.
    destruct (find (fun ts => lower m <=? upper ts) l) as [ts|] eqn:E; [|discriminate].
    apply find_some in E as (It & _). exists ts. split; auto. unfold cx_contains in H. simpl in H.
    split; auto. lia.
Qed.
Lemma w_overlaps_ok w s x : window_ok w -> nset s -> w_overlaps w s = false -> In_set x s -> ~ In_w x w.
Proof.
  intros W N H I J. destruct w as [c|l]; cbn [In_w w_overlaps window_ok] in *.
  - destruct W as (V & _). apply (proj1 (C11_convex_bounds c x V)) in J.
    eapply n_overlaps_cx; eauto. apply J.
  - unfold set_overlaps in H. destruct I as (m & Im & F & Hx).
    assert (O : set_overlaps_cx l (CIv m) = false).
    { destruct (set_overlaps_cx l (CIv m)) eqn:E; auto. rewrite <- H. symmetry. apply existsb_exists. eauto. }
    eapply n_overlaps_cx; [apply cut_nset, W|apply O|apply J|]. simpl. lia.
Qed.
Lemma n_truncate_empty s : nset s ->
  fst (set_truncate_before (fst (set_truncate_after s (- oo))) oo) = [].
Proof.
  intros N. assert (F : Forall (fun i => upper i < oo) (fst (set_truncate_after s (- oo)))).
  { unfold set_truncate_after.
    pose proof (rposition_spec (fun i => lower i <=? - oo) s) as P.
    destruct (rposition (fun i => lower i <=? - oo) s) as [n|].
    - destruct P as (a & i & b & -> & <- & Hi & Fb).
      destruct (near_app_inv _ _ _ N) as (Na & c & Lc & Nb & U). destruct Nb as (Li & Ni & Nb).
      assert (a = []).
      { destruct a as [|k a]; auto. exfalso. destruct Na as (Lk & Nk & _).
        specialize (U k (or_introl eq_refl)). unfold near, low in *. lia. }
      subst a.
      assert (T : upper (fst (iv_truncate_after i (- oo))) < oo).
      { unfold iv_truncate_after. destruct (upper i <=? - oo) eqn:E1; [unfold near in Ni; lia|].
        destruct (- oo <? lower i) eqn:E2; cbn; pts; lia. }
      cbn [length app Nat.add]. destruct (Nat.eqb 1 (S (length b))) eqn:E.
      + destruct b; [|cbn in E; discriminate]. cbn [update_at fst]. auto.
      + cbn [firstn update_at fst]. auto.
    - destruct s; cbn; auto. }
  unfold set_truncate_before.
  assert (Q : position (fun i => oo <=? upper i) (fst (set_truncate_after s (- oo))) = None).
  { induction F as [|i r Hi F IH]; cbn; auto. replace (oo <=? upper i) with false by lia.
    now rewrite IH. }
  rewrite Q. now destruct (fst (set_truncate_after s (- oo))).
Qed.
Lemma slot_and_ok s w : nset s -> window_ok w -> exists r, slot_and s w = Ret r /\ nset r /\
  forall x, In_set x r <-> In_set x s /\ In_w x w.
Proof.
  intros N W. destruct w as [c|l]; cbn [slot_and In_w].
  - destruct W as (V & H). eexists. split; [reflexivity|]. unfold set_and_assign.
    pose proof (fun x => proj1 (C11_convex_bounds c x V)) as D.
    assert (valid (cx_lower c) /\ valid (cx_upper c)) as [Vl Vu]
      by (clear - V; destruct c; iv; tests; lia).
    destruct H as [(Hl & Hu)|(El & Eu)].
    + destruct (n_truncate_after _ s (cx_upper c) N Vu Hu) as (N1 & D1).
      destruct (n_truncate_before _ _ (cx_lower c) N1 Vl Hl) as (N2 & D2).
      split; auto. intros x. rewrite D2, D1, D. pose proof (In_set_finite x s). tauto.
    + rewrite El, Eu, n_truncate_empty by auto. split; [exact I|]. intros x.
      rewrite In_set_nil, D, El, Eu. pts. lia.
  - destruct (n_set_and s l _ _ N (cut_nset _ W)) as (E & Nr & D). eauto.
Qed.

(** ** Reading and writing the slots *)

Lemma slot_get_ok l i : 0 <= i < Z.of_nat (length l) -> slot_get l i = Ret (nth (Z.to_nat i) l []).
Proof.
  intros H. unfold slot_get. rewrite (nth_error_nth' l []) by lia. auto.
Qed.
Lemma slot_set_ok l i r : 0 <= i < Z.of_nat (length l) -> exists l', slot_set l i r = Ret l' /\
  length l' = length l /\ nth (Z.to_nat i) l' [] = r /\
  forall j, 0 <= j -> j <> i -> nth (Z.to_nat j) l' [] = nth (Z.to_nat j) l [].
Proof.
  intros H. unfold slot_set. rewrite (nth_error_nth' l []) by lia. eexists. split; [reflexivity|].
  assert (Lf : length (firstn (Z.to_nat i) l) = Z.to_nat i) by (rewrite firstn_length; lia).
  split; [rewrite app_length; cbn [length]; rewrite Lf, skipn_length; lia|].
  split; [rewrite app_nth2, Lf, Nat.sub_diag by lia; auto|].
  intros j Hj Nj. destruct (Z_lt_le_dec j i) as [L|L].
  - rewrite app_nth1 by lia. rewrite <- (firstn_skipn (Z.to_nat i) l) at 2. rewrite app_nth1 by lia. auto.
  - rewrite app_nth2 by lia. rewrite Lf. destruct (Z.to_nat j - Z.to_nat i)%nat eqn:E; [lia|]. cbn [nth].
    rewrite <- (firstn_skipn (S (Z.to_nat i)) l) at 2. rewrite app_nth2; rewrite firstn_length; [|lia].
    f_equal. lia.
Qed.
Definition sl (l : list tset) (i : Z) : tset := nth (Z.to_nat i) l [].
Definition pos (l : list tset) (i x : Z) : Prop := In_set x (sl l i).
Definition nslots (g : graph) (l : list tset) : Prop :=
  Z.of_nat (length l) = g_size g /\ forall i, 0 <= i < g_size g -> nset (sl l i).

(** The span of a constraint *)
Definition spn (g : graph) (i j : Z) : interval := mkI (cell g i j) (- cell g j i).
Definition prop (g : graph) : Prop :=
  forall i j, node (g_size g) i -> node (g_size g) j -> wf_iv (spn g i j).
Lemma proper_prop p g : mem_ok g -> (proper p g <-> prop g).
Proof.
  intros M. split; intros H i j Ni Nj.
  - destruct (H i j Ni Nj) as (v & T & W). rewrite timespan_ok in T by auto. injection T as <-. auto.
  - exists (spn g i j). split; [apply timespan_ok; auto|apply H; auto].
Qed.

(** ** One step of the propagation *)

Lemma step_ok p g i j l : mem_ok g -> prop g -> nslots g l -> node (g_size g) i -> node (g_size g) j ->
  (p = Debug /\ sc_step p g i l (i, j) = Panic) \/
  exists l', sc_step p g i l (i, j) = Ret l' /\ nslots g l' /\
    (forall m, 0 <= m -> m <> j -> sl l' m = sl l m) /\
    forall x, pos l' j x <-> pos l j x /\ exists k, In k (sl l i) /\ sum_box k (spn g i j) x.
Proof.
  intros M P (Ln & N) Ni Nj. unfold sc_step. cbn [fst snd].
  rewrite k_graph_ok by auto. cbn [bind]. rewrite !slot_get_ok by (unfold node in *; lia). cbn [bind].
  unfold k_span. cbn [k_lo k_up]. fold (spn g i j). fold (sl l i) (sl l j).
  destruct (n_add_span p (sl l i) (spn g i j) low) as [(-> & -> & _)|(tr & -> & C & D)].
  - apply N; auto.
  - apply P; auto.
  - left. auto.
  - right. cbn [bind]. pose proof (nset_canonical _ C) as Nt.
    rewrite (n_inter_list_caps (sl l j) tr low low) by (auto; apply N; auto). cbn [bind].
    assert (Nr : nset (all_caps (sl l j) tr)) by (eapply n_all_caps_near; [apply N|apply Nt]; auto).
    rewrite (n_from_iter low) by auto. cbn [bind].
    destruct (slot_set_ok l j (all_caps (sl l j) tr)) as (l' & -> & Ll & Ej & Eo); [unfold node in *; lia|].
    exists l'. split; auto. split; [|split; auto].
    + split; [lia|]. intros m Hm. unfold sl. destruct (Z.eq_dec m j) as [->|Nm]; [rewrite Ej; auto|].
      rewrite Eo by (unfold node in *; lia). apply N; auto.
    + intros x. unfold pos. unfold sl at 1. rewrite Ej, In_set_all_caps, D. tauto.
Qed.

(** *** The whole propagation *)

Definition compat (p : profile) (g : graph) (t : Z -> Z) (l : list tset) : Prop :=
  solution p g t /\ forall i, 0 <= i < g_size g -> pos l i (t i).

Lemma fold_ok p g i : mem_ok g -> prop g -> node (g_size g) i -> forall ks l,
  (forall a, In a ks -> fst a = i /\ node (g_size g) (snd a)) -> nslots g l ->
  (p = Debug /\ ofold (sc_step p g i) l ks = Panic) \/
  exists l', ofold (sc_step p g i) l ks = Ret l' /\ nslots g l' /\
    (forall m x, 0 <= m < g_size g -> pos l' m x -> pos l m x) /\
    (forall t, compat p g t l -> compat p g t l').
Proof.
  intros M P Ni. induction ks as [|(a & j) ks IH]; intros l H N.
  - right. exists l. cbn. auto.
  - destruct (H (a, j) (or_introl eq_refl)) as (E & Nj). cbn [fst snd] in E, Nj. subst a. cbn [ofold].
    destruct (step_ok p g i j l M P N Ni Nj) as [(-> & ->)|(l1 & -> & N1 & Eo & D)].
    + left. auto.
    + cbn [bind]. destruct (IH l1) as [(-> & ->)|(l2 & -> & N2 & S2 & K2)]; auto.
      { intros b Hb. apply H. right. auto. }
      right. exists l2. split; auto. split; auto.
      assert (S1 : forall m x, 0 <= m < g_size g -> pos l1 m x -> pos l m x).
      { intros m x Hm Hx. destruct (Z.eq_dec m j) as [->|Nm]; [apply D in Hx; apply Hx|].
        unfold pos in *. rewrite Eo in Hx by lia. auto. }
      split; auto. intros t (St & Pt). apply K2. split; auto. intros m Hm.
      destruct (Z.eq_dec m j) as [->|Nm]; [|unfold pos; rewrite Eo by lia; apply Pt; auto].
      apply D. split; [apply Pt; auto|]. destruct (Pt i Ni) as (k & Ik & Hk). exists k. split; auto.
      destruct (St i j Ni Nj) as (v & T & X). rewrite timespan_ok in T by auto. injection T as <-.
      apply sum_box_in with (y := t i); auto.
      * destruct N as (_ & N). eapply near_from_In; [apply N, Ni|auto].
      * eapply In_set_finite. apply Pt; auto.
Qed.
Lemma propagate_sched p g i l : mem_ok g -> prop g -> node (g_size g) i -> nslots g l ->
  (p = Debug /\ sc_propagate p g l i = Panic) \/
  exists l', sc_propagate p g l i = Ret l' /\ nslots g l' /\
    (forall m x, 0 <= m < g_size g -> pos l' m x -> pos l m x) /\
    (forall t, compat p g t l -> compat p g t l').
Proof.
  intros M P Ni N. unfold sc_propagate. destruct N as (Ln & N).
  assert (E : debug_assert p (i <=? Z.of_nat (length l)) = Ret tt).
  { unfold debug_assert. unfold node in Ni. replace (i <=? Z.of_nat (length l)) with true by lia. destruct p; auto. }
  rewrite E. cbn [bind]. destruct (from_ok p g i M) as (js & -> & Hj & _); [auto|]. cbn [bind].
  apply fold_ok; auto; [|split; auto].
  intros a Ha. apply in_map_iff in Ha as (b & <- & Hb). cbn [fst snd]. split; auto.
  destruct Hb as [<-|Hb]; [unfold node in *; lia|]. apply Hj in Hb. unfold node. lia.
Qed.

(** ** [retain] *)

Definition sinv (g : graph) (s : sched) : Prop := sc_graph s = g /\ nslots g (sc_slots s).

Lemma pos_possible g s i x : sinv g s -> 0 <= i < g_size g -> (possible s i x <-> pos (sc_slots s) i x).
Proof.
  intros (_ & L & _) Hi. unfold possible, pos, sl, sc_scheduling.
  rewrite (nth_error_nth' (sc_slots s) []) by lia. split.
  - intros (l & E & H). injection E as <-. auto.
  - intros H. eauto.
Qed.
Lemma compat_schedule p g s t : sinv g s -> (schedule p s t <-> compat p g t (sc_slots s)).
Proof.
  intros I. pose proof I as (E & _). unfold schedule, compat. rewrite E.
  split; intros (S & H); split; auto; intros i Hi; apply (pos_possible g s i (t i) I Hi); auto.
Qed.

Lemma retain_ok p g s i w : mem_ok g -> prop g -> sinv g s -> 0 <= i < g_size g -> window_ok w ->
  (p = Debug /\ sc_retain p s i w = Panic) \/
  exists s' r, sc_retain p s i w = Ret (s', r) /\ sinv g s' /\
    ((r = Unchanged /\ s' = s /\ forall x, possible s i x -> In_w x w) \/
     (r = Recovered /\ s' = s /\ forall x, possible s i x -> ~ In_w x w) \/
     (r = Propagated /\ (forall m x, 0 <= m < g_size g -> possible s' m x -> possible s m x) /\
      (forall x, possible s' i x -> In_w x w) /\
      (forall t, schedule p s t -> In_w (t i) w -> schedule p s' t))).
Proof.
  intros M P I Hi W. pose proof I as (Eg & L & N). unfold sc_retain.
  unfold assert_. replace (i <? Z.of_nat (length (sc_slots s))) with true by lia. cbn [bind].
  rewrite slot_get_ok by lia. cbn [bind]. fold (sl (sc_slots s) i).
  destruct (w_contains w (sl (sc_slots s) i)) eqn:C.
  { right. exists s, Unchanged. split; auto. split; auto. left. split; auto. split; auto.
    intros x Hx. apply (pos_possible g s i x I Hi) in Hx. eapply w_contains_ok; eauto. }
  destruct (w_overlaps w (sl (sc_slots s) i)) eqn:O; cbn [negb].
  2: { right. exists s, Recovered. split; auto. split; auto. right. left. split; auto. split; auto.
       intros x Hx. apply (pos_possible g s i x I Hi) in Hx. eapply w_overlaps_ok; eauto. }
  destruct (slot_and_ok (sl (sc_slots s) i) w (N i Hi) W) as (ri & -> & Nr & Dr). cbn [bind].
  destruct (slot_set_ok (sc_slots s) i ri) as (l1 & -> & L1 & E1 & O1); [lia|]. cbn [bind]. rewrite Eg.
  assert (N1 : nslots g l1).
  { split; [lia|]. intros m Hm. unfold sl. destruct (Z.eq_dec m i) as [->|Nm]; [rewrite E1; auto|].
    rewrite O1 by lia. apply N; auto. }
  destruct (propagate_sched p g i l1 M P Hi N1) as [(-> & ->)|(l2 & -> & N2 & S2 & K2)].
  { left. auto. }
  right. cbn [bind]. eexists _, Propagated. split; [reflexivity|].
  assert (I2 : sinv g (mkS g l2)) by (split; auto). split; auto. right. right. split; auto.
  assert (S1 : forall m x, 0 <= m < g_size g -> pos l1 m x -> pos (sc_slots s) m x).
  { intros m x Hm Hx. destruct (Z.eq_dec m i) as [->|Nm].
    - unfold pos, sl in Hx. rewrite E1 in Hx. apply Dr in Hx. apply Hx.
    - unfold pos, sl in *. rewrite O1 in Hx by lia. auto. }
  split.
  { intros m x Hm Hx. apply (pos_possible g _ m x I2 Hm) in Hx. apply (pos_possible g s m x I Hm). auto. }
  split.
  { intros x Hx. apply (pos_possible g _ i x I2 Hi) in Hx. apply S2 in Hx; auto.
    unfold pos, sl in Hx. rewrite E1 in Hx. apply Dr in Hx. apply Hx. }
  intros t St Ht. apply (compat_schedule p g _ t I2). apply K2.
  apply (compat_schedule p g s t I) in St. destruct St as (St & Pt). split; auto.
  intros m Hm. destruct (Z.eq_dec m i) as [->|Nm].
  - unfold pos, sl. rewrite E1. apply Dr. split; auto. apply Pt; auto.
  - unfold pos, sl. rewrite O1 by lia. apply Pt; auto.
Qed.
Lemma retain_out p g s i w : sinv g s -> g_size g <= i -> sc_retain p s i w = Panic.
Proof.
  intros (_ & L & _) H. unfold sc_retain, assert_.
  replace (i <? Z.of_nat (length (sc_slots s))) with false by lia. auto.
Qed.
Lemma new_sinv g : mem_ok g -> sinv g (sc_new g).
Proof.
  intros ((S0 & S1) & _). split; auto. unfold nslots. cbn [sc_new sc_slots]. rewrite repeat_length.
  split; [lia|]. intros i Hi. unfold sl. rewrite (nth_indep _ [] set_all) by (rewrite repeat_length; lia). rewrite nth_repeat.
  apply nset_canonical. unfold set_all, canonical. cbn. unfold wf_iv, iv_all; cbn. unfold INF, i64_max, oo. lia.
Qed.

(** ** All the instants *)

Lemma retain_all_ok p g w : mem_ok g -> prop g -> window_ok w -> forall a n s res, sinv g s ->
  Z.of_nat (a + n) <= g_size g ->
  let f := fun '(s, res) n => r <- sc_retain p s (Z.of_nat n) w ;; let '(s1, x) := r in
    match x with Unchanged => Ret (s1, res) | Propagated => Ret (s1, Propagated) | Recovered | Fatal => Panic end in
  ofold f (s, res) (seq a n) = Panic \/
  exists s' r, ofold f (s, res) (seq a n) = Ret (s', r) /\ sinv g s' /\
    (r = res \/ r = Propagated) /\ (r = Unchanged -> s' = s) /\
    (forall m x, 0 <= m < g_size g -> possible s' m x -> possible s m x) /\
    (forall m x, Z.of_nat a <= m < Z.of_nat (a + n) -> possible s' m x -> In_w x w) /\
    (forall t, schedule p s t -> (forall m, Z.of_nat a <= m < Z.of_nat (a + n) -> In_w (t m) w) -> schedule p s' t).
Proof.
  intros M P W a n. revert a. induction n as [|n IH]; intros a s res I L f.
  - right. exists s, res. cbn. split; auto. split; auto. split; auto. split; auto. split; auto. split; [intros; lia|auto].
  - cbn [seq ofold].
    assert (Ha : 0 <= Z.of_nat a < g_size g) by lia.
    unfold f at 1 3.
    destruct (retain_ok p g s (Z.of_nat a) w M P I Ha W) as [(_ & ->)|(s1 & x & -> & I1 & H)].
    { left. auto. }
    cbn [bind].
    assert (K : (exists y, (y = res \/ y = Propagated) /\ (match x with Unchanged => Ret (s1, res) | Propagated => Ret (s1, Propagated)
        | Recovered | Fatal => Panic end) = Ret (s1, y) /\ (y = Unchanged -> s1 = s) /\
      (forall m x, 0 <= m < g_size g -> possible s1 m x -> possible s m x) /\
      (forall x, possible s1 (Z.of_nat a) x -> In_w x w) /\
      (forall t, schedule p s t -> In_w (t (Z.of_nat a)) w -> schedule p s1 t)) \/
      (match x with Unchanged => Ret (s1, res) | Propagated => Ret (s1, Propagated)
        | Recovered | Fatal => Panic end) = Panic).
    { destruct H as [(-> & -> & H)|[(-> & -> & H)|(-> & H1 & H2 & H3)]].
      - left. exists res. auto 10.
      - right. auto.
      - left. exists Propagated. split; auto. split; auto. split; [discriminate|]. auto. }
    destruct K as [(y & Hy & -> & Uy & K1 & K2 & K3)| ->]; [|left; auto]. cbn [bind].
    destruct (IH (S a) s1 y I1 ltac:(lia)) as [E|(s2 & r & E & I2 & Hr & Ur & J1 & J2 & J3)].
    { left. exact E. }
    right. exists s2, r. split; [exact E|]. split; auto.
    split. { destruct Hr as [->|]; auto. }
    split. { intros ->. rewrite Ur by auto. apply Uy. destruct Hr as [<-|]; [auto|discriminate]. }
    split; [auto|]. split.
    + intros m z Hm Hz. destruct (Z.eq_dec m (Z.of_nat a)) as [->|]; [apply K2; apply J1; auto|].
      apply (J2 m z); auto. lia.
    + intros t St Ht. apply J3; [|intros m Hm; apply Ht; lia]. apply K3; auto. apply Ht. lia.
Qed.

(** ** Sessions *)

Lemma deadline_window d : finite d -> window_ok (WCx (CRangeToIncl d)).
Proof. intros F. cbn. unfold finite, valid, INF, i64_max, oo in *. lia. Qed.
Lemma startline_window d : finite d -> window_ok (WCx (CRangeFrom d)).
Proof. intros F. cbn. unfold finite, valid, INF, i64_max, oo in *. lia. Qed.
Lemma hole_window h : hole_ok h -> window_ok (WSet (h_not h)) /\ forall x, finite x -> (In_set x (h_not h) <-> ~ In_h x h).
Proof.
  intros H. destruct h as [l|i|t]; cbn [h_not In_h hole_ok window_ok] in *.
  - destruct (C25_not l H) as (C & D). split; [constructor; auto|]. intros x F. rewrite D. tauto.
  - destruct (C15_interval_not i H) as (C & D). split; [constructor; auto|]. intros x F. rewrite D. tauto.
  - destruct (C15_point_not t H) as (C & D). split; [constructor; auto|]. intros x F. rewrite D. tauto.
Qed.
Lemma deadline_ok p g s d : mem_ok g -> prop g -> sinv g s -> finite d ->
  sc_set_deadline p s d = Panic \/
  exists s' r, sc_set_deadline p s d = Ret (s', r) /\ sinv g s' /\
    ((r = Recovered /\ s' = s /\ exists i, 0 <= i < g_size g /\ forall x, possible s i x -> d < x) \/
     (accepted r /\ (r = Unchanged -> s' = s) /\
      (forall m x, 0 <= m < g_size g -> possible s' m x -> possible s m x /\ x <= d) /\
      (forall t, schedule p s t -> (forall m, 0 <= m < g_size g -> t m <= d) -> schedule p s' t))).
Proof.
  intros M P I F. pose proof I as (Eg & L & N). unfold sc_set_deadline.
  destruct (existsb (fun tw => d <? set_lower tw) (sc_slots s)) eqn:E.
  - right. exists s, Recovered. split; auto. split; auto. left. split; auto. split; auto.
    apply existsb_exists in E as (tw & It & H). apply (In_nth _ _ []) in It as (n & Hn & <-).
    unfold tset in *. exists (Z.of_nat n). split; [lia|]. intros x Hx. apply (pos_possible g s) in Hx; auto; [|lia].
    unfold pos, sl in Hx. rewrite Nat2Z.id in Hx.
    assert (NN : nset (nth n (sc_slots s) [])).
    { specialize (N (Z.of_nat n)). unfold sl, tset in *. rewrite Nat2Z.id in N. apply N. lia. }
    pose proof (n_upper _ _ x NN Hx) as Q. unfold tset in *. lia.
  - unfold sc_retain_all.
    destruct (retain_all_ok p g _ M P (deadline_window d F) 0 (length (sc_slots s)) s Unchanged I)
      as [->|(s' & r & -> & I' & Hr & U & S & W & K)]; [simpl; lia|auto|].
    right. exists s', r. split; auto. split; auto. right.
    split; [destruct Hr as [->| ->]; unfold accepted; auto|]. split; auto. split.
    + intros m x Hm Hx. split; auto. specialize (W m x). simpl in W. unfold finite in W. apply W; auto. lia.
    + intros t St Ht. apply K; auto. intros m Hm. simpl. split; [|apply Ht; lia].
      destruct St as (_ & St). rewrite Eg in St. destruct (St m) as (l & _ & Hl); [lia|].
      eapply In_set_finite; eauto.
Qed.
Lemma startline_ok p g s d : mem_ok g -> prop g -> sinv g s -> finite d ->
  sc_set_startline p s d = Panic \/
  exists s' r, sc_set_startline p s d = Ret (s', r) /\ sinv g s' /\
    ((r = Recovered /\ s' = s /\ exists i, 0 <= i < g_size g /\ forall x, possible s i x -> x < d) \/
     (accepted r /\ (r = Unchanged -> s' = s) /\
      (forall m x, 0 <= m < g_size g -> possible s' m x -> possible s m x /\ d <= x) /\
      (forall t, schedule p s t -> (forall m, 0 <= m < g_size g -> d <= t m) -> schedule p s' t))).
Proof.
  intros M P I F. pose proof I as (Eg & L & N). unfold sc_set_startline.
  destruct (existsb (fun tw => set_upper tw <? d) (sc_slots s)) eqn:E.
  - right. exists s, Recovered. split; auto. split; auto. left. split; auto. split; auto.
    apply existsb_exists in E as (tw & It & H). apply (In_nth _ _ []) in It as (n & Hn & <-).
    unfold tset in *. exists (Z.of_nat n). split; [lia|]. intros x Hx. apply (pos_possible g s) in Hx; auto; [|lia].
    unfold pos, sl in Hx. rewrite Nat2Z.id in Hx.
    assert (NN : nset (nth n (sc_slots s) [])).
    { specialize (N (Z.of_nat n)). unfold sl, tset in *. rewrite Nat2Z.id in N. apply N. lia. }
    pose proof (n_upper _ _ x NN Hx) as Q. unfold tset in *. lia.
  - unfold sc_retain_all.
    destruct (retain_all_ok p g _ M P (startline_window d F) 0 (length (sc_slots s)) s Unchanged I)
      as [->|(s' & r & -> & I' & Hr & U & S & W & K)]; [simpl; lia|auto|].
    right. exists s', r. split; auto. split; auto. right.
    split; [destruct Hr as [->| ->]; unfold accepted; auto|]. split; auto. split.
    + intros m x Hm Hx. split; auto. specialize (W m x). simpl in W. unfold finite in W. apply W; auto. lia.
    + intros t St Ht. apply K; auto. intros m Hm. simpl. split; [|apply Ht; lia].
      destruct St as (_ & St). rewrite Eg in St. destruct (St m) as (l & _ & Hl); [lia|].
      eapply In_set_finite; eauto.
Qed.

Lemma retain_inv p g s i w s' r : mem_ok g -> prop g -> sinv g s -> 0 <= i -> window_ok w ->
  sc_retain p s i w = Ret (s', r) -> i < g_size g /\ sinv g s' /\
    ((r = Unchanged /\ s' = s /\ forall x, possible s i x -> In_w x w) \/
     (r = Recovered /\ s' = s /\ forall x, possible s i x -> ~ In_w x w) \/
     (r = Propagated /\ (forall m x, 0 <= m < g_size g -> possible s' m x -> possible s m x) /\
      (forall x, possible s' i x -> In_w x w) /\
      (forall t, schedule p s t -> In_w (t i) w -> schedule p s' t))).
Proof.
  intros M P I Hi W E. destruct (Z_lt_le_dec i (g_size g)) as [L|L].
  - destruct (retain_ok p g s i w M P I (conj Hi L) W) as [(_ & E')|(s2 & r2 & E' & H)]; [congruence|].
    rewrite E in E'. injection E' as <- <-. split; auto.
  - rewrite (retain_out p g) in E by auto. discriminate.
Qed.
Lemma session_sinv p g s : mem_ok g -> prop g -> session p g s -> sinv g s.
Proof.
  intros M P H. induction H as [|s i w s' r H IH Hi W E|s i h s' r H IH Hi W E|s d s' r H IH F E|s d s' r H IH F E].
  - apply new_sinv; auto.
  - eapply retain_inv; eauto.
  - eapply retain_inv; [| | | |apply hole_window|apply E]; eauto.
  - destruct (deadline_ok p g s d M P IH F) as [E'|(s2 & r2 & E' & I2 & _)]; congruence.
  - destruct (startline_ok p g s d M P IH F) as [E'|(s2 & r2 & E' & I2 & _)]; congruence.
Qed.
