(** What one accepted call of [retain] keeps, exactly (properties C55 and C66). *)
From Verif Require Import Machine TimeValue Spec Tac TimeValueProofs Interval Iter TimeSet Relns
  Transl SpecSets SetProofs CollectProofs Prop_Interval SetOpsProofs Prop_TimeSet Prop_Transl SchedSets
  Graph MaxPlus GraphProofs SpecGraph GraphInv GraphIter Prop_Graph Prop_Propagation Prop_GraphIter
  Scheduler SpecSched SchedProofs Prop_Scheduler SchedConv Prop_SchedConvex.

Section Step.
Variables (p : profile) (g : graph) (i : Z).
Hypotheses (M : mem_ok g) (P : prop g) (Ni : node (g_size g) i).

Definition supp (l : list tset) (j x : Z) : Prop := exists k, In k (sl l i) /\ sum_box k (spn g i j) x.

Lemma fold_exact ks : forall l l', (forall a, In a ks -> fst a = i /\ node (g_size g) (snd a) /\ snd a <> i) -> nslots g l ->
  ofold (sc_step p g i) l ks = Ret l' -> nslots g l' /\ sl l' i = sl l i /\
  forall j x, 0 <= j -> (pos l' j x <-> pos l j x /\ (In (i, j) ks -> supp l j x)).
Proof.
  induction ks as [|(a & j) ks IH]; intros l l' H N E.
  - cbn in E. injection E as <-. split; auto. split; auto. intros j x _. simpl. tauto.
  - destruct (H (a, j) (or_introl eq_refl)) as (Ea & Nj & Dj). cbn [fst snd] in Ea, Nj, Dj. subst a. cbn [ofold] in E.
    destruct (step_ok p g i j l M P N Ni Nj) as [(_ & S)|(l1 & S & N1 & Eo & D)]; rewrite S in E; [discriminate|].
    cbn [bind] in E. destruct (IH l1 l') as (N2 & E2 & D2); auto.
    { intros b Hb. apply H. right. auto. }
    assert (Ei : sl l1 i = sl l i) by (apply Eo; [unfold node in Ni; lia|auto]).
    split; auto. split; [congruence|]. intros m x Hm. rewrite D2 by auto.
    assert (Sm : supp l1 m x <-> supp l m x) by (unfold supp; rewrite Ei; tauto).
    rewrite Sm. destruct (Z.eq_dec m j) as [->|Nm].
    + rewrite D. fold (supp l j x). simpl. intuition.
    + unfold pos at 1. rewrite Eo by auto. fold (pos l m x). simpl. split.
      * intros (A & B). split; auto. intros [X|X]; [congruence|auto].
      * intros (A & B). split; auto.
Qed.

(** The whole propagation; [self]: the interval from the instant to itself *)
Lemma propagate_exact l l' : nslots g l -> (i = 0 -> In_ext 0 (spn g 0 0)) -> sc_propagate p g l i = Ret l' ->
  nslots g l' /\ (forall x, pos l' i x <-> pos l i x) /\ (i <> 0 -> sl l' i = sl l i) /\
  (forall j x, 0 <= j < g_size g -> j <> i ->
    (pos l' j x <-> pos l j x /\ ((j = 0 \/ rel g i j) -> supp l' j x))).
Proof.
  intros N S0 E. unfold sc_propagate in E.
  destruct (debug_assert p (i <=? Z.of_nat (length l))); try discriminate. cbn [bind] in E.
  destruct (from_ok p g i M Ni) as (js & F & Hj & _). rewrite F in E. cbn [bind map ofold] in E.
  assert (N0 : node (g_size g) 0) by (unfold node in *; lia).
  destruct (step_ok p g i 0 l M P N Ni N0) as [(_ & X)|(l1 & X & N1 & Eo & D)]; rewrite X in E; [discriminate|]. cbn [bind] in E.
  assert (K : forall a, In a (map (fun b => (i, b)) js) -> fst a = i /\ node (g_size g) (snd a) /\ snd a <> i).
  { intros c Hc. apply in_map_iff in Hc as (b & <- & Hb). cbn [fst snd]. apply Hj in Hb. unfold node. split; auto. split; [lia|tauto]. }
  destruct (fold_exact _ l1 l' K N1 E) as (N2 & E2 & D2).
  assert (Js : forall j, In (i, j) (map (fun b => (i, b)) js) <-> In j js).
  { intros j. rewrite in_map_iff. split; [intros (b & Eb & Hb); injection Eb as ->; auto|intros Hb; exists j; auto]. }
  assert (Pi : forall x, pos l1 i x <-> pos l i x).
  { intros x. destruct (Z.eq_dec i 0) as [Ei|Ni0]; [|unfold pos; rewrite Eo by (unfold node in *; lia); tauto].
    rewrite Ei in D |- *. rewrite D. split; [tauto|]. intros H. split; auto. pose proof H as (k & Ik & Hk). exists k. split; auto.
    apply sum_box_in with (y := x); auto.
    - destruct N as (_ & N). eapply near_from_In; [apply (N 0 N0)|exact Ik].
    - apply Hk.
    - rewrite Z.sub_diag. auto. }
  split; auto. split; [intros x; unfold pos at 1; rewrite E2; apply Pi|].
  split; [intros Ni0; rewrite E2; apply Eo; unfold node in *; lia|].
  assert (Es : forall j x, supp l' j x <-> supp l1 j x) by (intros; unfold supp; rewrite E2; tauto).
  intros j x Hj0 Nj. rewrite D2 by lia. rewrite Js, Es. destruct (Z.eq_dec j 0) as [->|Nj0].
  - rewrite D. fold (supp l 0 x).
    assert (Sl : supp l 0 x <-> supp l1 0 x) by (unfold supp; rewrite Eo by (unfold node in *; lia); tauto).
    rewrite Sl. pose proof (proj1 (Hj 0)). intuition lia.
  - unfold pos at 1. rewrite Eo by lia. fold (pos l j x). rewrite Hj. split.
    + intros (A & B). split; auto. intros [C|C]; [contradiction|]. apply B. split; [lia|]. auto.
    + intros (A & B). split; auto. tauto.
Qed.
End Step.

Lemma sum_box_out k j x : wf_iv k -> wf_iv j -> sum_box k j x -> exists y, In_ext y k /\ In_ext (x - y) j.
Proof.
  unfold sum_box, In_ext, lsum, usum, clamp, wf_iv. intros Wk Wj (F & H).
  exists (if lower k =? - oo then
            (if upper k =? oo then (if lower j =? - oo then (if upper j =? oo then 0 else x - upper j) else x - lower j)
             else if lower j =? - oo then upper k else Z.min (upper k) (x - lower j))
          else if upper j =? oo then lower k else Z.max (lower k) (x - upper j)).
  revert H. unfold finite in F. pts. tests; intros; try (exfalso; lia); lia.
Qed.

Lemma box_of_sum k j x y : finite x -> wf_iv k -> wf_iv j -> In_ext y k -> In_ext (x - y) j -> sum_box k j x.
Proof.
  unfold sum_box, In_ext, lsum, usum, clamp, wf_iv. intros F Wk Wj (H1 & H2) (H3 & H4). split; auto.
  unfold finite in F. pts. tests; lia.
Qed.

Section Retain.
Variables (p : profile) (g : graph) (s : sched).
Hypothesis (St : stored g) (Pr : proper p g) (Cn : exists t, solution p g t) (Se : session p g s).
Let M : mem_ok g := proj1 (stored_mem g) St.
Let P : prop g := proj1 (proper_prop p g M) Pr.
Let I : sinv g s := session_sinv p g s M P Se.

Lemma self_zero i : node (g_size g) i -> In_ext 0 (spn g i i).
Proof.
  intros Ni. destruct Cn as (t & S). destruct (S i i Ni Ni) as (iv & T & E). rewrite timespan_ok in T by auto.
  injection T as <-. rewrite Z.sub_diag in E. auto.
Qed.

Variables (i : Z) (w : window) (s' : sched).
Hypotheses (Hi : 0 <= i) (W : window_ok w) (E : sc_retain p s i w = Ret (s', Propagated)).
Let L : i < g_size g := proj1 (retain_inv p g s i w s' Propagated M P I Hi W E).
Let I' : sinv g s' := proj1 (proj2 (retain_inv p g s i w s' Propagated M P I Hi W E)).

Lemma retain_exact :
  (forall x, pos (sc_slots s') i x <-> pos (sc_slots s) i x /\ In_w x w) /\
  (i <> 0 -> slot_and (sl (sc_slots s) i) w = Ret (sl (sc_slots s') i)) /\
  (forall j x, 0 <= j < g_size g -> j <> i ->
    (pos (sc_slots s') j x <-> pos (sc_slots s) j x /\ ((j = 0 \/ rel g i j) -> supp g i (sc_slots s') j x))).
Proof.
  pose proof E as X. unfold sc_retain in X. destruct I as (Eg & Ln & N). assert (Ni : node (g_size g) i) by (unfold node; lia).
  unfold assert_ in X. destruct (i <? Z.of_nat (length (sc_slots s))) eqn:T; [|discriminate]. cbn [bind] in X.
  rewrite slot_get_ok in X by lia. cbn [bind] in X. fold (sl (sc_slots s) i) in X.
  destruct (w_contains w (sl (sc_slots s) i)); [discriminate|].
  destruct (negb (w_overlaps w (sl (sc_slots s) i))); [discriminate|].
  destruct (slot_and_ok (sl (sc_slots s) i) w (N i Ni) W) as (ri & R & Nr & Dr). rewrite R in X |- *. cbn [bind] in X.
  destruct (slot_set_ok (sc_slots s) i ri) as (l1 & Y & L1 & E1 & O1); [lia|]. rewrite Y in X. cbn [bind] in X. rewrite Eg in X.
  assert (N1 : nslots g l1).
  { split; [lia|]. intros m Hm. unfold sl. destruct (Z.eq_dec m i) as [->|Nm]; [rewrite E1; auto|].
    rewrite O1 by lia. apply N; auto. }
  destruct (sc_propagate p g l1 i) as [l2| | |] eqn:Z2; try discriminate. cbn [bind] in X. injection X as <-. cbn [sc_slots].
  destruct (propagate_exact p g i M P Ni l1 l2 N1) as (N2 & D2 & O2 & K2); auto.
  { intros _. apply self_zero. unfold node in *; lia. }
  split; [|split].
  - intros x. rewrite D2. unfold pos, sl. rewrite E1. apply Dr.
  - intros Ni0. f_equal. rewrite O2 by auto. symmetry. apply E1.
  - intros j x Hj Nj. rewrite K2 by auto. unfold pos, sl. rewrite O1 by lia. tauto.
Qed.

(** *** C66 *)

(** The restricted instant keeps its dates in the window. *)
Theorem C66_own_dates : forall x, possible s' i x <-> possible s i x /\ In_w x w.
Proof.
  intros x. rewrite (pos_possible g s' i x I'), (pos_possible g s i x I) by (pose proof L; lia). apply retain_exact.
Qed.
(** The other instants keep the dates compatible with some date of it. *)
Theorem C66_supported : forall j x y iv, 0 <= j < g_size g -> j <> i -> g_timespan p g i j = Ret iv ->
  possible s j x -> possible s' i y -> In_ext (x - y) iv -> possible s' j x.
Proof.
  intros j x y iv Hj Nj T Px Py B. assert (Ni : node (g_size g) i) by (unfold node; pose proof L; lia).
  rewrite timespan_ok in T by auto. injection T as <-. fold (spn g i j) in B.
  rewrite (pos_possible g s j x I Hj) in Px. rewrite (pos_possible g s' i y I' Ni) in Py.
  rewrite (pos_possible g s' j x I' Hj). apply retain_exact; auto. split; auto. intros _.
  destruct Py as (k & Ik & Hk). exists k. split; auto. destruct I' as (_ & _ & N').
  apply sum_box_in with (y := y); auto.
  - eapply near_from_In; [apply (N' i Ni)|exact Ik].
  - destruct Px as (m & _ & F & _). auto.
Qed.
(** They keep no other date, when the restricted instant has no superfluous piece. *)
Theorem C66_exact : forall l, sc_scheduling s' i = Some l -> l <> [] -> Forall wf_iv l ->
  forall j x iv, 0 <= j < g_size g -> j <> i -> g_timespan p g i j = Ret iv ->
  (possible s' j x <-> possible s j x /\ exists y, In_sext y l /\ In_ext (x - y) iv).
Proof.
  intros l El Nl Wl j x iv Hj Nj T. assert (Ni : node (g_size g) i) by (unfold node; pose proof L; lia).
  assert (Es : sl (sc_slots s') i = l).
  { unfold sc_scheduling in El. unfold sl. apply nth_error_nth. auto. }
  rewrite (pos_possible g s j x I Hj), (pos_possible g s' j x I' Hj).
  rewrite (proj2 (proj2 retain_exact) j x Hj Nj). unfold supp. rewrite Es.
  pose proof T as T'. rewrite timespan_ok in T by auto. injection T as <-. fold (spn g i j) in *.
  assert (Q : pos (sc_slots s) j x -> (((j = 0 \/ rel g i j) -> exists k, In k l /\ sum_box k (spn g i j) x) <->
    exists y, In_sext y l /\ In_ext (x - y) (spn g i j))); [|tauto].
  intros (m & _ & F & _). split.
  - intros H. assert (D : (j = 0 \/ rel g i j) \/ ~ rel g i j) by (unfold rel; lia). destruct D as [D|D].
    + destruct (H D) as (k & Ik & Bk). destruct (sum_box_out k (spn g i j) x) as (y & Y1 & Y2); auto.
      * rewrite Forall_forall in Wl. auto.
      * exists y. split; auto. exists k. auto.
    + destruct l as [|k l]; [congruence|]. exists (if lower k =? - oo then upper k else lower k). split.
      * exists k. split; [left; auto|]. inversion Wl as [|? ? Wk]. unfold In_ext, wf_iv in *. tests; lia.
      * unfold In_ext. assert (Sp : spn g i j = mkI (- oo) oo) by (unfold spn, rel in *; f_equal; lia).
        rewrite Sp. simpl. auto.
  - intros (y & (k & Ik & Hk) & B) _. exists k. split; auto. rewrite Forall_forall in Wl. specialize (Wl k Ik).
    apply box_of_sum with (y := y); auto.
Qed.
(** This is so when it was canonical and the window is an interval of dates. *)
Theorem C66_regular : forall l c, i <> 0 -> w = WCx c -> (exists x, In_cx x c) -> sc_scheduling s i = Some l -> canonical l ->
  exists l', sc_scheduling s' i = Some l' /\ canonical l'.
Proof.
  intros l c Ni Ew Hc El Cl. pose proof (proj1 (proj2 retain_exact) Ni) as X.
  assert (Es : sl (sc_slots s) i = l).
  { unfold sc_scheduling in El. unfold sl. apply nth_error_nth. auto. }
  rewrite Es, Ew in X. cbn [slot_and] in X. injection X as X. exists (sl (sc_slots s') i). split.
  - destruct I' as (_ & L2 & _). pose proof L. unfold sc_scheduling, sl. apply nth_error_nth'. lia.
  - rewrite <- X. pose proof W as W'. rewrite Ew in W'. apply C31_and_assign_partial; auto. apply W'.
Qed.

(** *** C55 *)

(** An accepted call leaves a date to the restricted instant, unless its slot had superfluous
    pieces only in the window. *)
(** Partial: nothing is said of the other instants, which may lose all their dates (C55_refuted). *)
Theorem C55_own_partial : (exists x, possible s i x /\ In_w x w) -> exists x, possible s' i x.
Proof. intros (x & H). exists x. apply C66_own_dates. auto. Qed.
End Retain.

(** With superfluous pieces, dates without any support are kept: the instant 1 restricted to
    [0, 0] u [100, 105] then to [0, 0] u [106, 108] has the only date 0; the instant 2, at most 60
    after it, keeps 150. *)
Definition sA3 : sched := mkS gA [[mkI (- 48) (- 3); mkI 52 102]; [mkI 0 0; mkI 100 105]; [mkI 0 60; mkI 100 165]].
Definition sA4 : sched := mkS gA [[mkI (- 48) (- 3); mkI 58 102]; [mkI 0 0; mkI 106 105]; [mkI 0 60; mkI 106 165]].
Lemma wide_ok a b c d : - 1000 <= a <= b -> b + 1 < c -> c <= d <= 1000 -> window_ok (WSet [mkI a b; mkI c d]).
Proof. intros. apply cut_canonical. canon. Qed.
Lemma sA3_step p : sc_retain p (sc_new gA) 1 (WSet [mkI 0 0; mkI 100 105]) = Ret (sA3, Propagated).
Proof. destruct p; vm_compute; reflexivity. Qed.
Lemma sA4_step p : sc_retain p sA3 1 (WSet [mkI 0 0; mkI 106 108]) = Ret (sA4, Propagated).
Proof. destruct p; vm_compute; reflexivity. Qed.
Lemma sA3_session p : session p gA sA3.
Proof. eapply s_retain; [apply s_new| | |apply sA3_step]; [lia|apply wide_ok; lia]. Qed.
Theorem C66_refuted : exists g, (forall p, history p 3 200 ksA g) /\ forall p,
  exists s s' i w j x iv, session p g s /\ window_ok w /\ sc_retain p s i w = Ret (s', Propagated) /\
    g_timespan p g i j = Ret iv /\ possible s' j x /\ forall y, possible s' i y -> ~ In_ext (x - y) iv.
Proof.
  exists gA. split; [apply histA|]. intros p.
  exists sA3, sA4, 1, (WSet [mkI 0 0; mkI 106 108]), 2, 150, (mkI 0 60).
  split; [apply sA3_session|]. split; [apply wide_ok; lia|]. split; [apply sA4_step|].
  split; [destruct p; vm_compute; reflexivity|]. split; [eexists; split; [reflexivity|member (mkI 106 165)]|].
  intros y (l & X & k & Hk & F & H). injection X as <-. unfold In_ext, oo. simpl in *. intuition subst; simpl in *; lia.
Qed.

Lemma gA_proper p : stored gA /\ proper p gA /\ exists t, solution p gA t.
Proof.
  destruct (C52_history_proper _ _ _ _ _ room_3 (histA p)) as (S1 & S2). split; auto. split; auto.
  exists (date3 0 3 3). apply solA; unfold date3; simpl; lia.
Qed.
(** The instant 1 of [sA1] is put in [40, 60]: 50 remains; the instant 0 keeps [2, 47] and the instant
    2 keeps [50, 110]. *)
Example C66_case : forall p, exists s', stored gA /\ proper p gA /\ (exists t, solution p gA t) /\ session p gA sA1 /\
  window_ok (WCx (CRangeIncl 40 60)) /\ sc_retain p sA1 1 (WCx (CRangeIncl 40 60)) = Ret (s', Propagated) /\
  sc_scheduling sA1 1 = Some [mkI 0 0; mkI 50 50] /\ canonical [mkI 0 0; mkI 50 50] /\
  sc_scheduling s' 1 = Some [mkI 50 50] /\ Forall wf_iv [mkI 50 50] /\
  possible sA1 2 49 /\ ~ possible s' 2 49 /\ possible s' 2 50.
Proof.
  intros p. destruct (gA_proper p) as (A & B & C). exists (mkS gA [[mkI 2 47]; [mkI 50 50]; [mkI 50 110]]).
  split; auto. split; auto. split; auto. split; [apply sA1_session|]. split; [|split; [destruct p; vm_compute; reflexivity|]].
  { apply (narrow_window 1000). apply narrow_incl; unfold oo; lia. }
  split; [reflexivity|]. split; [canon|]. split; [reflexivity|]. split; [repeat constructor; cbn; unfold oo; lia|].
  split; [eexists; split; [reflexivity|member (mkI 0 110)]|].
  split; [|eexists; split; [reflexivity|member (mkI 50 110)]].
  intros (l & X & k & Hk & F & H). injection X as <-. simpl in *. intuition subst; simpl in *; lia.
Qed.

(** *** C55, intervals only *)
(** Partial: intervals within [W] only; false for sets (C55_refuted). *)
Theorem C55_convex_partial : forall p N B ks g W s i c s' r, room N B -> history p N B ks g -> 0 <= W ->
  W + 2 * (N * B) < oo -> convex_session p g W s -> 0 <= i -> narrow W c ->
  sc_retain p s i (WCx c) = Ret (s', r) -> forall j, 0 <= j < g_size g -> exists x, possible s' j x.
Proof.
  intros p N B ks g W s i c s' r R H W0 Sp Se Hi Na E j Hj.
  apply (C54_nonempty_partial p N B ks g W s' R H W0 Sp); auto. eapply v_retain; eauto.
Qed.
Example C55_convex_case : forall p, room 3 200 /\ history p 3 200 ksA gA /\ convex_session p gA 1000 cA2 /\
  narrow 1000 (CRangeIncl 5 50) /\ sc_retain p cA2 0 (WCx (CRangeIncl 5 50)) = Ret (cA3, Propagated) /\
  possible cA3 0 5 /\ possible cA3 1 8 /\ possible cA3 2 20 /\ ~ possible cA3 1 7.
Proof.
  intros p. destruct (C54_case p) as (A & B & C & D & E & _). split; auto. split; auto. split; auto. split; auto. split; auto.
  split; [eexists; split; [reflexivity|member (mkI 5 17)]|]. split; [eexists; split; [reflexivity|member (mkI 8 20)]|].
  split; [eexists; split; [reflexivity|member (mkI 8 20)]|].
  intros (l & X & k & Hk & F & H). injection X as <-. simpl in *. intuition subst; simpl in *; lia.
Qed.

Print Assumptions C66_exact.
Print Assumptions C66_refuted.
Print Assumptions C55_convex_partial.
