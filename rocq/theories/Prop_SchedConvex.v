(** The scheduler restricted by intervals only (properties C54, C56). *)
From Verif Require Import Machine TimeValue Spec Tac TimeValueProofs Interval Iter TimeSet Relns
  Transl SpecSets SetProofs CollectProofs Prop_Interval SetOpsProofs Prop_TimeSet Prop_Transl SchedSets
  Graph MaxPlus GraphProofs SpecGraph GraphInv GraphIter Prop_Graph Prop_Propagation Prop_GraphIter
  Scheduler SpecSched SchedProofs SchedBox SchedConv Prop_Scheduler.

Lemma narrow_window W c : narrow W c -> window_ok (WCx c).
Proof.
  intros (V & (x & I) & _). split; auto. left. pose proof (proj1 (C11_convex_bounds c x V)) as D.
  destruct (proj1 D I) as (F & H). unfold finite in F. lia.
Qed.
Lemma convex_session_session p g W s : W < oo -> convex_session p g W s -> session p g s.
Proof.
  intros L. induction 1 as [|s i c s' r H IH Hi Na E|s d s' r H IH Hd E|s d s' r H IH Hd E].
  - constructor.
  - eapply s_retain; eauto. eapply narrow_window; eauto.
  - eapply s_deadline; eauto. unfold finite. lia.
  - eapply s_startline; eauto. unfold finite. lia.
Qed.

Section Convex.
Variables (p : profile) (N B : Z) (ks : list kons) (g : graph) (W : Z) (s : sched).
Hypotheses (R : room N B) (H : history p N B ks g).
Hypotheses (W0 : 0 <= W) (Sp : W + 2 * (N * B) < oo) (Se : convex_session p g W s).

Let I : inv N B ks g := history_inv _ _ _ _ _ R H.
Let Me : mem_ok g := i_mem _ _ _ _ I.
Lemma cl : closed (g_size g) (cell g).
Proof. apply (i_tight _ _ _ _ I). Qed.
Lemma c0 : 0 <= N * B.
Proof. pose proof R as (? & ? & _). nia. Qed.
Lemma bd : all_bnd (g_size g) (N * B) (cell g).
Proof.
  intros i j Ni Nj. pose proof (inv_bnd _ _ _ _ R I i j Ni Nj) as X. pose proof (i_size _ _ _ _ I).
  pose proof R as (? & ? & _). unfold bnd in *. destruct X as [X|X]; [auto|right]. nia.
Qed.
Lemma wl : W < oo.
Proof. pose proof c0. lia. Qed.

(** *** C54 *)

(** Each instant keeps a date. *)
(** Partial: restrictions by intervals within [W], graphs with the margins of [room]. *)
Theorem C54_nonempty_partial : forall i, 0 <= i < g_size g -> exists x, possible s i x.
Proof.
  intros i Hi. pose proof c0 as K.
  destruct (convex_box p g (N * B) W Me cl bd K W0) with (s := s) as (f & u & Bo); [lia|auto|].
  pose proof Bo as (_ & Bx). pose proof (h_bnd _ _ _ _ (b_low _ _ _ _ _ Bx) i Hi) as Bf.
  pose proof (h_bnd _ _ _ _ (b_up _ _ _ _ _ Bx) i Hi) as Bu. pose proof (b_apart _ _ _ _ _ Bx i Hi) as A.
  exists (if f i =? - oo then if u i =? - oo then 0 else - u i else f i).
  apply (box_possible g (W + N * B) s f u); auto. unfold finite, bnd, apart1, oo in *. tests; lia.
Qed.
(** Each of its dates is part of a schedule. *)
(** Partial: as C54_nonempty_partial, and dates within [X]. *)
Theorem C54_feasible_partial : forall X i x, 2 * W + 2 * X + 7 * (N * B) < oo -> 0 <= i < g_size g ->
  Z.abs x <= X -> possible s i x -> exists t, schedule p s t /\ t i = x.
Proof.
  intros X i x L Hi Hx Px. pose proof c0 as K.
  destruct (convex_box p g (N * B) W Me cl bd K W0) with (s := s) as (f & u & Bo); [lia|auto|].
  apply (box_schedule p g (N * B) (W + N * B) X s f u i x); auto; try apply cl; try apply bd; lia.
Qed.
(** [retain] returns, and refuses the intervals without any date of the instant only. *)
(** Partial: as C54_nonempty_partial. *)
Theorem C54_retain_partial : forall i c, 0 <= i < g_size g -> narrow W c ->
  exists s' r, sc_retain p s i (WCx c) = Ret (s', r) /\ (r = Recovered \/ accepted r) /\
    (accepted r <-> exists x, possible s i x /\ In_cx x c).
Proof.
  intros i c Hi Na. pose proof c0 as K.
  destruct (convex_box p g (N * B) W Me cl bd K W0) with (s := s) as (f & u & Bo); [lia|auto|].
  destruct (retain_box p g (N * B) W Me cl bd K W0) with (s := s) (f := f) (u := u) (i := i) (c := c)
    as (s' & r & _ & _ & E & _ & A & B'); auto; [lia|]. exists s', r. auto.
Qed.
(** The kept dates are exactly those of the schedules in the window. *)
(** Partial: as C54_nonempty_partial, and dates within [X]. *)
Theorem C54_exact_partial : forall X i c s' r, 2 * W + 2 * X + 7 * (N * B) < oo -> narrow W c ->
  0 <= i < g_size g -> sc_retain p s i (WCx c) = Ret (s', r) -> accepted r ->
  forall j x, 0 <= j < g_size g -> Z.abs x <= X ->
  (possible s' j x <-> exists t, schedule p s t /\ In_cx (t i) c /\ t j = x).
Proof.
  intros X i c s' r L Na Hi E A j x Hj Hx. pose proof c0 as K. pose proof wl as Wl.
  destruct (C52_history_proper p N B ks g R H) as (St & Pr).
  pose proof (convex_session_session p g W s Wl Se) as Ss. pose proof (narrow_window W c Na) as Wo.
  destruct (convex_box p g (N * B) W Me cl bd K W0) with (s := s) as (f0 & u0 & Eg0 & _); [lia|auto|].
  pose proof (v_retain p g W s i c s' r Se (proj1 Hi) Na E) as Se'.
  destruct (convex_box p g (N * B) W Me cl bd K W0) with (s := s') as (f & u & Bo); [lia|auto|].
  split.
  - intros Px.
    destruct (box_schedule p g (N * B) (W + N * B) X s' f u j x) as (t & S & T); auto; try apply cl; try apply bd; try lia.
    exists t. destruct Bo as (Eg & _). destruct S as (S1 & S2). rewrite Eg in S1, S2.
    split; [split|split; auto].
    + rewrite Eg0. auto.
    + intros m Hm. rewrite Eg0 in Hm. apply (C52_shrinks p g s St Pr Ss i (WCx c) s' r m (t m)); auto; lia.
    + apply (C52_shrinks p g s St Pr Ss i (WCx c) s' r i (t i)); auto; lia.
  - intros (t & S & T & <-).
    pose proof (C52_retain p g s St Pr Ss i (WCx c) s' r t (proj1 Hi) Wo E A S T) as S'.
    apply S'. destruct Bo as (-> & _). auto.
Qed.

(** *** C56 *)

(** [set_deadline] never panics, and refuses the deadlines before all the dates of some
    instant only. *)
(** Partial: as C54_nonempty_partial. *)
Theorem C56_deadline_convex_partial : forall d, Z.abs d <= W -> exists s' r, sc_set_deadline p s d = Ret (s', r) /\
  (r = Recovered \/ accepted r) /\
  (r = Recovered <-> exists i, 0 <= i < g_size g /\ forall x, possible s i x -> d < x).
Proof.
  intros d Hd. pose proof c0 as K.
  destruct (convex_box p g (N * B) W Me cl bd K W0) with (s := s) as (f & u & Bo); [lia|auto|].
  destruct (deadline_box p g (N * B) W Me cl bd K W0) with (d := d) (s := s) (f := f) (u := u)
    as (s' & r & _ & _ & E & _ & A & B'); auto; [lia|]. exists s', r. auto.
Qed.
(** Partial: as C54_nonempty_partial. *)
Theorem C56_startline_convex_partial : forall d, Z.abs d <= W -> exists s' r, sc_set_startline p s d = Ret (s', r) /\
  (r = Recovered \/ accepted r) /\
  (r = Recovered <-> exists i, 0 <= i < g_size g /\ forall x, possible s i x -> x < d).
Proof.
  intros d Hd. pose proof c0 as K.
  destruct (convex_box p g (N * B) W Me cl bd K W0) with (s := s) as (f & u & Bo); [lia|auto|].
  destruct (startline_box p g (N * B) W Me cl bd K W0) with (d := d) (s := s) (f := f) (u := u)
    as (s' & r & _ & _ & E & _ & A & B'); auto; [lia|]. exists s', r. auto.
Qed.
End Convex.

(** ** Examples *)

Definition cA1 : sched := mkS gA [[mkI (- 48) 97]; [mkI 0 100]; [mkI 0 160]].
Definition cA2 : sched := mkS gA [[mkI (- 48) 17]; [mkI 0 20]; [mkI 0 20]].
Definition cA3 : sched := mkS gA [[mkI 5 17]; [mkI 8 20]; [mkI 8 20]].
Lemma narrow_incl W a b : 0 <= W < oo -> - W <= a -> a <= b -> b <= W -> narrow W (CRangeIncl a b).
Proof.
  intros W0 Ha Hb Hw. split; [|split; [exists a|]].
  - cbn. unfold valid. lia.
  - unfold In_cx, finite. lia.
  - unfold within. cbn. replace (a <=? b) with true by lia. cbn. lia.
Qed.
Lemma cA1_step p : sc_retain p (sc_new gA) 1 (WCx (CRangeIncl 0 100)) = Ret (cA1, Propagated).
Proof. destruct p; vm_compute; reflexivity. Qed.
Lemma cA2_step p : sc_set_deadline p cA1 20 = Ret (cA2, Propagated).
Proof. destruct p; vm_compute; reflexivity. Qed.
Lemma cA3_step p : sc_retain p cA2 0 (WCx (CRangeIncl 5 50)) = Ret (cA3, Propagated).
Proof. destruct p; vm_compute; reflexivity. Qed.
Lemma cA_session p : convex_session p gA 1000 cA1 /\ convex_session p gA 1000 cA2 /\ convex_session p gA 1000 cA3.
Proof.
  assert (H1 : convex_session p gA 1000 cA1).
  { eapply v_retain; [apply v_new| |apply narrow_incl|apply cA1_step]; unfold oo; lia. }
  assert (H2 : convex_session p gA 1000 cA2) by (eapply v_deadline; [apply H1| |apply cA2_step]; lia).
  split; auto. split; auto.
  eapply v_retain; [apply H2| |apply narrow_incl|apply cA3_step]; unfold oo; lia.
Qed.
Example C54_case : forall p, room 3 200 /\ history p 3 200 ksA gA /\ convex_session p gA 1000 cA2 /\
  narrow 1000 (CRangeIncl 5 50) /\ sc_retain p cA2 0 (WCx (CRangeIncl 5 50)) = Ret (cA3, Propagated) /\
  possible cA2 2 0 /\ ~ possible cA3 2 0 /\ possible cA3 2 8 /\ exists t, schedule p cA3 t /\ t 2 = 8.
Proof.
  intros p. destruct (cA_session p) as (_ & S2 & S3).
  assert (P8 : possible cA3 2 8) by (eexists; split; [reflexivity|member (mkI 8 20)]).
  split; [apply room_3|]. split; [apply histA|]. split; auto. split; [apply narrow_incl; unfold oo; lia|].
  split; [apply cA3_step|]. split; [eexists; split; [reflexivity|member (mkI 0 20)]|].
  split; [intros (l & X & k & Hk & Ik); simpl in X; injection X as <-; destruct Hk as [<-|[]]; destruct Ik; simpl in *; lia|].
  split; auto.
  apply (C54_feasible_partial p 3 200 ksA gA 1000 cA3 room_3 (histA p)) with (X := 1000); auto; unfold oo; simpl; lia.
Qed.
Example C56_convex_case : forall p, convex_session p gA 1000 cA1 /\ sc_set_deadline p cA1 20 = Ret (cA2, Propagated) /\
  sc_set_deadline p cA3 7 = Ret (cA3, Recovered) /\ sc_set_startline p cA3 18 = Ret (cA3, Recovered).
Proof. intros p. split; [apply cA_session|]. split; [apply cA2_step|]. destruct p; split; vm_compute; reflexivity. Qed.

Print Assumptions C54_feasible_partial.
Print Assumptions C54_exact_partial.
Print Assumptions C56_deadline_convex_partial.
