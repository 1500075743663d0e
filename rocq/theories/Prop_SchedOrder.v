(** What a scheduler allows is determined by the restrictions it accepted (property C76). *)
From Verif Require Import Machine TimeValue Spec Tac TimeValueProofs Interval Iter TimeSet Relns
  SpecSets SetProofs SchedSets SetOpsProofs Graph GraphProofs SpecGraph GraphInv Prop_Graph Prop_Propagation
  Scheduler SpecSched SchedProofs Prop_Scheduler Prop_SchedConvex Prop_SchedStep.

(** The restrictions of a scheduler *)
Inductive restriction :=
| RKeep (i : Z) (w : window)
| RDrop (i : Z) (h : hole)
| RLate (d : Z)
| REarly (d : Z).
Definition asked (p : profile) (s : sched) (r : restriction) : outcome (sched * presult) :=
  match r with
  | RKeep i w => sc_retain p s i w
  | RDrop i h => sc_remove p s i h
  | RLate d => sc_set_deadline p s d
  | REarly d => sc_set_startline p s d
  end.
(** The dates [t] of the instants of [g] meet the restriction. *)
Definition meets (g : graph) (t : Z -> Z) (r : restriction) : Prop :=
  match r with
  | RKeep i w => In_w (t i) w
  | RDrop i h => ~ In_h (t i) h
  | RLate d => forall i, 0 <= i < g_size g -> t i <= d
  | REarly d => forall i, 0 <= i < g_size g -> d <= t i
  end.
Definition usual (r : restriction) : Prop :=
  match r with
  | RKeep i w => 0 <= i /\ window_ok w
  | RDrop i h => 0 <= i /\ hole_ok h
  | RLate d | REarly d => finite d
  end.
Definition narrow_r (W : Z) (r : restriction) : Prop :=
  match r with
  | RKeep i (WCx c) => 0 <= i /\ narrow W c
  | RLate d | REarly d => Z.abs d <= W
  | _ => False
  end.
(** A new scheduler of [g] was asked restrictions in [K]; it accepted those of [rs], the last one first. *)
Inductive made (p : profile) (g : graph) (K : restriction -> Prop) : list restriction -> sched -> Prop :=
| m_new : made p g K [] (sc_new g)
| m_accepted rs s r s' a : made p g K rs s -> K r -> asked p s r = Ret (s', a) -> accepted a -> made p g K (r :: rs) s'
| m_refused rs s r s' : made p g K rs s -> K r -> asked p s r = Ret (s', Recovered) -> made p g K rs s'.

Lemma made_session p g rs s : made p g usual rs s -> session p g s.
Proof.
  assert (G : forall s r s' a, session p g s -> usual r -> asked p s r = Ret (s', a) -> session p g s').
  { intros s0 [i w|i h|d|d] s' a Se U E; cbn in *.
    - eapply s_retain; eauto; apply U.
    - eapply s_remove; eauto; apply U.
    - eapply s_deadline; eauto.
    - eapply s_startline; eauto. }
  induction 1; [constructor|eapply G; eauto|eapply G; eauto].
Qed.
Lemma made_weaken p g (K K' : restriction -> Prop) rs s : (forall r, K r -> K' r) -> made p g K rs s -> made p g K' rs s.
Proof. intros H. induction 1; econstructor; eauto. Qed.
Lemma narrow_usual W r : W < oo -> narrow_r W r -> usual r.
Proof.
  intros L. destruct r as [i [c|l]|i h|d|d]; cbn; try tauto; unfold finite; try lia.
  intros (Hi & Na). split; auto. exact (narrow_window W c Na).
Qed.
Lemma narrow_session p g W rs s : made p g (narrow_r W) rs s -> convex_session p g W s.
Proof.
  assert (G : forall s r s' a, convex_session p g W s -> narrow_r W r -> asked p s r = Ret (s', a) -> convex_session p g W s').
  { intros s0 [i [c|l]|i h|d|d] s' a Se U E; cbn in *; try contradiction.
    - eapply v_retain; eauto; apply U.
    - eapply v_deadline; eauto.
    - eapply v_startline; eauto. }
  induction 1; [constructor|eapply G; eauto|eapply G; eauto].
Qed.
Lemma new_possible g i x : mem_ok g -> 0 <= i < g_size g -> (possible (sc_new g) i x <-> finite x).
Proof.
  intros M Hi. rewrite (pos_possible g _ i x (new_sinv g M) Hi). unfold pos, sl, sc_new. cbn [sc_slots].
  rewrite (nth_indep _ [] set_all) by (rewrite repeat_length; lia). rewrite nth_repeat. split.
  - intros (k & _ & F & _). auto.
  - intros F. exists iv_all. split; [cbn; auto|]. split; auto. unfold iv_all, finite, INF, i64_max, oo in *. cbn. lia.
Qed.

(** The schedules are the solutions of the graph that meet the accepted restrictions. *)
Theorem C76_schedules : forall p g rs s t, stored g -> proper p g -> made p g usual rs s ->
  (schedule p s t <-> solution p g t /\ (forall i, 0 <= i < g_size g -> finite (t i)) /\ Forall (meets g t) rs).
Proof.
  intros p g rs s t St Pr H. pose proof (proj1 (stored_mem g) St) as M. pose proof (proj1 (proper_prop p g M) Pr) as P.
  assert (G : forall s r s' a, session p g s -> usual r -> asked p s r = Ret (s', a) ->
    (accepted a -> (schedule p s' t <-> schedule p s t /\ meets g t r)) /\ (a = Recovered -> s' = s)).
  { intros s0 r s' a Se U E. pose proof (session_sinv p g s0 M P Se) as I0.
    assert (Se' : session p g s').
    { destruct r as [i w|i h|d|d]; cbn in *; [eapply s_retain|eapply s_remove|eapply s_deadline|eapply s_startline]; eauto; apply U. }
    pose proof (session_sinv p g s' M P Se') as I'. pose proof (proj1 I0) as G0. pose proof (proj1 I') as G'.
    destruct r as [i w|i h|d|d]; cbn [usual asked meets] in *.
    - destruct U as (Hi & W). split; [|intros ->; now apply (C53_recovered p g s0 St Pr Se i w)].
      intros A. assert (L : 0 <= i < g_size g).
      { destruct (Z_lt_le_dec i (g_size g)) as [L|L]; [lia|]. rewrite (retain_out p g s0 i w I0 L) in E. discriminate. }
      split; [|intros (S & T); now apply (C52_retain p g s0 St Pr Se i w s' a)].
      intros (S & T). assert (X : forall j, 0 <= j < g_size g -> possible s0 j (t j) /\ (j = i -> accepted a -> In_w (t j) w)).
      { intros j Hj. apply (C52_shrinks p g s0 St Pr Se i w s' a); auto. apply T. now rewrite G'. }
      split; [|now apply (X i L)]. split; [now rewrite G0, <- G'|]. rewrite G0. intros j Hj. now apply X.
    - destruct U as (Hi & W). destruct (hole_window h W) as (W' & D). change (sc_remove p s0 i h) with (sc_retain p s0 i (WSet (h_not h))) in E.
      split; [|intros ->; now apply (C53_recovered p g s0 St Pr Se i (WSet (h_not h)))].
      intros A. assert (L : 0 <= i < g_size g).
      { destruct (Z_lt_le_dec i (g_size g)) as [L|L]; [lia|]. rewrite (retain_out p g s0 i _ I0 L) in E. discriminate. }
      split; [|intros (S & T); now apply (C52_remove p g s0 St Pr Se i h s' a)].
      intros (S & T). assert (X : forall j, 0 <= j < g_size g -> possible s0 j (t j) /\ (j = i -> accepted a -> In_w (t j) (WSet (h_not h)))).
      { intros j Hj. apply (C52_shrinks p g s0 St Pr Se i (WSet (h_not h)) s' a); auto. apply T. now rewrite G'. }
      assert (F : finite (t i)) by (destruct (proj1 (X i L)) as (l & _ & Y); eapply In_set_finite; eauto).
      split; [|apply (D (t i) F); now apply (X i L)]. split; [now rewrite G0, <- G'|]. rewrite G0. intros j Hj. now apply X.
    - destruct (C56_deadline_partial p g s0 St Pr Se d s' a U E) as [(-> & -> & _)|(A & _ & X)].
      { split; auto. intros [A|A]; discriminate. }
      split; [|intros ->; destruct A; discriminate]. intros _.
      split; [|intros (S & T); now apply (C52_deadline p g s0 St Pr Se d s' a)].
      intros (S & T). rewrite G' in T. split; [split; [now rewrite G0, <- G'|]; rewrite G0|]; intros j Hj; now apply (X j (t j) Hj), T.
    - destruct (C56_startline_partial p g s0 St Pr Se d s' a U E) as [(-> & -> & _)|(A & _ & X)].
      { split; auto. intros [A|A]; discriminate. }
      split; [|intros ->; destruct A; discriminate]. intros _.
      split; [|intros (S & T); now apply (C52_startline p g s0 St Pr Se d s' a)].
      intros (S & T). rewrite G' in T. split; [split; [now rewrite G0, <- G'|]; rewrite G0|]; intros j Hj; now apply (X j (t j) Hj), T. }
  induction H as [|rs s r s' a H IH U E A|rs s r s' H IH U E].
  - unfold schedule. cbn [sc_new sc_graph]. split.
    + intros (S & T). split; auto. split; [|constructor]. intros i Hi. apply (new_possible g i); auto.
    + intros (S & T & _). split; auto. intros i Hi. apply new_possible; auto.
  - rewrite (proj1 (G s r s' a (made_session _ _ _ _ H) U E) A), IH, Forall_cons_iff. tauto.
  - rewrite (proj2 (G s r s' _ (made_session _ _ _ _ H) U E) eq_refl). exact IH.
Qed.
(** So the order of the restrictions does not matter, nor their repetition. *)
Theorem C76_order : forall p g rs s rs' s' t, stored g -> proper p g -> made p g usual rs s -> made p g usual rs' s' ->
  (forall r, In r rs <-> In r rs') -> (schedule p s t <-> schedule p s' t).
Proof.
  intros p g rs s rs' s' t St Pr H H' E. rewrite (C76_schedules p g rs s t), (C76_schedules p g rs' s' t) by auto.
  rewrite !Forall_forall. split; intros (A & B & C); split; auto; split; auto; intros r Hr; apply C, E, Hr.
Qed.

Section Dates.
Variables (p : profile) (N B : Z) (ks : list kons) (g : graph) (W : Z).
Hypotheses (R : room N B) (H : history p N B ks g) (W0 : 0 <= W) (Sp : W + 2 * (N * B) < oo).
(** Restricted by intervals only, the possible dates are those of these solutions.  Full statement: for sets
    too (refuted below). *)
Theorem C76_dates_partial : forall rs s X i x, made p g (narrow_r W) rs s -> 2 * W + 2 * X + 7 * (N * B) < oo -> 0 <= i < g_size g ->
  Z.abs x <= X -> (possible s i x <-> exists t, (solution p g t /\ (forall i, 0 <= i < g_size g -> finite (t i)) /\
    Forall (meets g t) rs) /\ t i = x).
Proof.
  intros rs s X i x Ma L Hi Hx. destruct (C52_history_proper p N B ks g R H) as (St & Pr).
  assert (Lw : W < oo) by (pose proof (proj1 R); pose proof R as (_ & ? & _); assert (0 <= N * B) by (apply Z.mul_nonneg_nonneg; lia); lia).
  pose proof (made_weaken _ _ _ usual _ _ (fun r => narrow_usual W r Lw) Ma) as Mu.
  pose proof (narrow_session _ _ _ _ _ Ma) as Se. split.
  - intros Px. destruct (C54_feasible_partial p N B ks g W s R H W0 Sp Se X i x L Hi Hx Px) as (t & S & T).
    exists t. split; auto. now apply (C76_schedules p g rs s t).
  - intros (t & S & <-). apply (C76_schedules p g rs s t) in S; auto. destruct S as (_ & S). apply S.
    pose proof (proj1 (stored_mem g) St) as M. pose proof (proj1 (proper_prop p g M) Pr) as P.
    now rewrite (proj1 (session_sinv p g s M P (made_session _ _ _ _ Mu))).
Qed.
(** Partial: intervals within [W] and dates within [X]; false for sets (C76_dates_refuted). *)
Theorem C76_dates_order_partial : forall rs s rs' s' X i x, made p g (narrow_r W) rs s -> made p g (narrow_r W) rs' s' ->
  (forall r, In r rs <-> In r rs') -> 2 * W + 2 * X + 7 * (N * B) < oo -> 0 <= i < g_size g -> Z.abs x <= X ->
  (possible s i x <-> possible s' i x).
Proof.
  intros rs s rs' s' X i x Ma Ma' E L Hi Hx. rewrite (C76_dates_partial rs s X i x), (C76_dates_partial rs' s' X i x) by auto.
  split; intros (t & (A & F & C) & T); exists t; (split; [|auto]); (split; [auto|]); (split; [auto|]);
    rewrite Forall_forall in *; intros r Hr; apply C, E, Hr.
Qed.
End Dates.

Definition rA : restriction := RKeep 1 (WSet [mkI 0 0; mkI 100 100]).
Definition rB : restriction := RKeep 0 (WSet [mkI (- 10) (- 5); mkI 30 40]).
Definition oA : sched := mkS gA [[mkI (- 48) (- 3); mkI 52 97]; [mkI 0 0; mkI 100 100]; [mkI 0 60; mkI 100 160]].
Definition oAB : sched := mkS gA [[mkI (- 10) (- 5)]; [mkI 0 0]; [mkI 0 60; mkI 100 103]].
Definition oB : sched := mkS gA [[mkI (- 10) (- 5); mkI 30 40]; [mkI (- 7) 88]; [mkI (- 7) 148]].
Definition oBA : sched := mkS gA [[mkI (- 10) (- 5)]; [mkI 0 0]; [mkI 0 60]].
Lemma rA_usual : usual rA.
Proof. split; [lia|]. apply two_ok; lia. Qed.
Lemma rB_usual : usual rB.
Proof. split; [lia|]. apply wide_ok; lia. Qed.
Ltac asked := first [exact rA_usual|exact rB_usual|right; reflexivity|match goal with p : profile |- _ => destruct p; vm_compute; reflexivity end].
Lemma oAB_made p : made p gA usual [rB; rA] oAB.
Proof. apply m_accepted with (s := oA) (a := Propagated); [apply m_accepted with (s := sc_new gA) (a := Propagated); [constructor| | |]| | |]; asked. Qed.
Lemma oBA_made p : made p gA usual [rA; rB] oBA.
Proof. apply m_accepted with (s := oB) (a := Propagated); [apply m_accepted with (s := sc_new gA) (a := Propagated); [constructor| | |]| | |]; asked. Qed.
Example C76_case : forall p, stored gA /\ proper p gA /\ made p gA usual [rB; rA] oAB /\ schedule p oAB (date3 (- 7) 0 50).
Proof.
  intros p. destruct (C52_history_proper _ _ _ _ _ room_3 (histA p)) as (S1 & S2). split; auto. split; auto.
  split; [apply oAB_made|]. apply (C76_schedules p gA [rB; rA]); auto using oAB_made. split; [|split].
  - apply solA; vm_compute; split; discriminate.
  - intros i Hi. unfold finite, date3, oo. destruct (i =? 0), (i =? 1); lia.
  - repeat apply Forall_cons; try apply Forall_nil; cbn [meets rA rB In_w]; [exists (mkI (- 10) (- 5))|exists (mkI 0 0)];
      (split; [cbn; auto|]); unfold In_iv, finite, date3, oo; simpl; lia.
Qed.
(** With the same restrictions in another order, another date is possible. *)
Theorem C76_dates_refuted : exists g, (forall p, history p 3 200 ksA g) /\ forall p, exists rs s rs' s' i x,
  made p g usual rs s /\ made p g usual rs' s' /\ (forall r, In r rs <-> In r rs') /\ possible s i x /\ ~ possible s' i x.
Proof.
  exists gA. split; [apply histA|]. intros p. exists [rB; rA], oAB, [rA; rB], oBA, 2, 101.
  split; [apply oAB_made|]. split; [apply oBA_made|]. split; [cbn; tauto|]. split.
  - eexists. split; [reflexivity|]. member (mkI 100 103).
  - intros (l & X & k & Hk & Ik). cbn in X. injection X as <-. destruct Hk as [<-|[]]. destruct Ik. cbn in *. lia.
Qed.
(** By intervals *)
Definition rC : restriction := RKeep 1 (WCx (CRangeIncl 0 100)).
Lemma cA2_made p : made p gA (narrow_r 1000) [RLate 20; rC] cA2.
Proof.
  apply m_accepted with (s := cA1) (a := Propagated);
    [apply m_accepted with (s := sc_new gA) (a := Propagated); [constructor| |apply cA1_step|right; reflexivity]
    | |apply cA2_step|right; reflexivity].
  - split; [lia|]. apply narrow_incl; unfold oo; lia.
  - cbn. lia.
Qed.
Definition cD : sched := mkS gA [[mkI (- oo) 17]; [mkI (- oo) 20]; [mkI (- oo) 20]].
Lemma cD_step p : sc_set_deadline p (sc_new gA) 20 = Ret (cD, Propagated).
Proof. destruct p; vm_compute; reflexivity. Qed.
Lemma cD_step' p : sc_retain p cD 1 (WCx (CRangeIncl 0 100)) = Ret (cA2, Propagated).
Proof. destruct p; vm_compute; reflexivity. Qed.
Lemma cA2_made' p : made p gA (narrow_r 1000) [rC; RLate 20] cA2.
Proof.
  apply m_accepted with (s := cD) (a := Propagated);
    [apply m_accepted with (s := sc_new gA) (a := Propagated); [constructor| |apply cD_step|right; reflexivity]
    | |apply cD_step'|right; reflexivity].
  - cbn. lia.
  - split; [lia|]. apply narrow_incl; unfold oo; lia.
Qed.
Example C76_dates_case : forall p, room 3 200 /\ history p 3 200 ksA gA /\ 2 * 1000 + 2 * 1000 + 7 * (3 * 200) < oo /\
  made p gA (narrow_r 1000) [RLate 20; rC] cA2 /\ made p gA (narrow_r 1000) [rC; RLate 20] cA2 /\ possible cA2 2 20 /\
  exists t, solution p gA t /\ Forall (meets gA t) [RLate 20; rC] /\ t 2 = 20.
Proof.
  intros p. assert (P : possible cA2 2 20) by (eexists; split; [reflexivity|member (mkI 0 20)]).
  split; [apply room_3|]. split; [apply histA|]. split; [unfold oo; lia|]. split; [apply cA2_made|]. split; [apply cA2_made'|]. split; auto.
  apply (C76_dates_partial p 3 200 ksA gA 1000 room_3 (histA p)) with (rs := [RLate 20; rC]) (X := 1000) in P;
    auto using cA2_made; try (unfold oo; cbn; lia).
  destruct P as (t & (S & _ & F) & T). eauto.
Qed.
