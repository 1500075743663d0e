(** The earliest and the latest schedules, and the shortest ending (property C84). *)
From Verif Require Import Machine TimeValue Spec Tac TimeValueProofs Interval Iter TimeSet Relns
  SpecSets SetProofs SchedSets SetOpsProofs Prop_Interval Graph MaxPlus GraphProofs SpecGraph GraphInv Prop_Graph
  Prop_Propagation Scheduler SpecSched SchedProofs SchedBox SchedConv Prop_Scheduler Prop_SchedConvex Prop_SchedStep Prop_SchedOrder.

(** Each instant at the first, or the last, of its dates *)
Definition first_date (s : sched) (i : Z) : Z := match sc_scheduling s i with Some l => set_lower l | None => 0 end.
Definition last_date (s : sched) (i : Z) : Z := match sc_scheduling s i with Some l => set_upper l | None => 0 end.

Lemma narrow_wider W W' c : W <= W' -> narrow W c -> narrow W' c.
Proof. intros L (V & X & A & B). unfold narrow, within in *. intuition lia. Qed.
Lemma session_wider p g W W' s : W <= W' -> convex_session p g W s -> convex_session p g W' s.
Proof.
  intros L. induction 1.
  - constructor.
  - eapply v_retain; eauto using narrow_wider.
  - eapply v_deadline; eauto. lia.
  - eapply v_startline; eauto. lia.
Qed.

Section Earliest.
Variables (p : profile) (N B : Z) (ks : list kons) (g : graph) (W : Z) (s : sched).
Hypotheses (R : room N B) (H : history p N B ks g).
Hypotheses (W0 : 0 <= W) (Sp : 4 * W + 13 * (N * B) < oo) (Se : convex_session p g W s).

Let I : inv N B ks g := history_inv _ _ _ _ _ R H.
Let Me : mem_ok g := i_mem _ _ _ _ I.
Let Cl : closed (g_size g) (cell g) := cl p N B ks g R H.
Let Bd : all_bnd (g_size g) (N * B) (cell g) := bd p N B ks g R H.
Let K : 0 <= N * B := c0 N B R.

Lemma earliest_box V s' : 0 <= V -> V + 2 * (N * B) < oo -> convex_session p g V s' -> sc_graph s' = g /\
  exists f u, (forall i, 0 <= i < g_size g -> sc_scheduling s' i = Some [mkI (f i) (- u i)] /\
    bnd (V + N * B) (f i) /\ bnd (V + N * B) (u i) /\ apart1 (f i) (u i) /\
    forall x, possible s' i x <-> finite x /\ f i <= x <= - u i).
Proof.
  intros V0 L S'. destruct (convex_box p g (N * B) V Me Cl Bd K V0) with (s := s') as (f & u & Bo); [lia|auto|].
  pose proof Bo as (Eg & Bx). split; auto. exists f, u. intros i Hi.
  pose proof (b_slot _ _ _ _ _ Bx i Hi) as Sl. pose proof (b_len _ _ _ _ _ Bx) as Ln.
  split. { change [mkI (f i) (- u i)] with (piece (f i) (u i)). rewrite <- Sl. unfold sc_scheduling, sl.
    apply nth_error_nth'. lia. }
  split; [apply (h_bnd _ _ _ _ (b_low _ _ _ _ _ Bx) i Hi)|]. split; [apply (h_bnd _ _ _ _ (b_up _ _ _ _ _ Bx) i Hi)|].
  split; [apply (b_apart _ _ _ _ _ Bx i Hi)|]. intros x. apply (box_possible g (V + N * B) s' f u); auto.
Qed.
Lemma through V s' i x : 0 <= V -> 2 * V + 2 * (V + N * B) + 7 * (N * B) < oo -> convex_session p g V s' ->
  0 <= i < g_size g -> Z.abs x <= V + N * B -> possible s' i x -> exists t, schedule p s' t /\ t i = x.
Proof. intros V0 L S' Hi Hx. apply (C54_feasible_partial p N B ks g V s' R H V0) with (X := V + N * B); auto; lia. Qed.

(** The first dates, if they are finite, are a schedule, and no schedule is earlier anywhere. *)
(** Partial: restrictions by intervals within [W], graphs with the margins of [room]; false for sets (C84_refuted). *)
Theorem C84_earliest_partial : (forall i, 0 <= i < g_size g -> finite (first_date s i)) ->
  schedule p s (first_date s) /\ forall t i, schedule p s t -> 0 <= i < g_size g -> first_date s i <= t i.
Proof.
  intros F. destruct (earliest_box W s W0) as (Eg & f & u & Bx); [lia|auto|].
  assert (E : forall i, 0 <= i < g_size g -> first_date s i = f i).
  { intros i Hi. unfold first_date. now rewrite (proj1 (Bx i Hi)). }
  assert (P : forall i, 0 <= i < g_size g -> possible s i (first_date s i)).
  { intros i Hi. rewrite E by auto. destruct (Bx i Hi) as (_ & Bf & Bu & A & ->). specialize (F i Hi).
    rewrite E in F by auto. split; auto. unfold finite, bnd, apart1, oo in *. lia. }
  assert (L : forall t i, schedule p s t -> 0 <= i < g_size g -> first_date s i <= t i).
  { intros t i (_ & S) Hi. rewrite Eg in S. specialize (S i Hi). rewrite E by auto. apply Bx in S; auto. lia. }
  assert (T : forall i, 0 <= i < g_size g -> exists t, schedule p s t /\ t i = first_date s i).
  { intros i Hi. apply (through W); auto; [lia|]. rewrite E by auto. destruct (Bx i Hi) as (_ & Bf & _).
    specialize (F i Hi). rewrite E in F by auto. unfold finite, bnd in *. lia. }
  split; auto. split; rewrite Eg; auto. intros i j Hi Hj.
  destruct (T i Hi) as (t1 & S1 & T1). destruct (T j Hj) as (t2 & S2 & T2).
  pose proof (L t1 j S1 Hj) as L1. pose proof (L t2 i S2 Hi) as L2.
  pose proof (proj1 S1) as G1. pose proof (proj1 S2) as G2. rewrite Eg in G1, G2.
  destruct (G1 i j Hi Hj) as (iv1 & X1 & Y1). destruct (G2 i j Hi Hj) as (iv2 & X2 & Y2). rewrite X1 in X2.
  injection X2 as <-. exists iv1. split; auto. unfold In_ext in *. lia.
Qed.
(** Partial: as C84_earliest_partial. *)
Theorem C84_latest_partial : (forall i, 0 <= i < g_size g -> finite (last_date s i)) ->
  schedule p s (last_date s) /\ forall t i, schedule p s t -> 0 <= i < g_size g -> t i <= last_date s i.
Proof.
  intros F. destruct (earliest_box W s W0) as (Eg & f & u & Bx); [lia|auto|].
  assert (E : forall i, 0 <= i < g_size g -> last_date s i = - u i).
  { intros i Hi. unfold last_date. now rewrite (proj1 (Bx i Hi)). }
  assert (P : forall i, 0 <= i < g_size g -> possible s i (last_date s i)).
  { intros i Hi. rewrite E by auto. destruct (Bx i Hi) as (_ & Bf & Bu & A & ->). specialize (F i Hi).
    rewrite E in F by auto. split; auto. unfold finite, bnd, apart1, oo in *. lia. }
  assert (L : forall t i, schedule p s t -> 0 <= i < g_size g -> t i <= last_date s i).
  { intros t i (_ & S) Hi. rewrite Eg in S. specialize (S i Hi). rewrite E by auto. apply Bx in S; auto. lia. }
  assert (T : forall i, 0 <= i < g_size g -> exists t, schedule p s t /\ t i = last_date s i).
  { intros i Hi. apply (through W); auto; [lia|]. rewrite E by auto. destruct (Bx i Hi) as (_ & _ & Bu & _).
    specialize (F i Hi). rewrite E in F by auto. unfold finite, bnd in *. lia. }
  split; auto. split; rewrite Eg; auto. intros i j Hi Hj.
  destruct (T i Hi) as (t1 & S1 & T1). destruct (T j Hj) as (t2 & S2 & T2).
  pose proof (L t1 j S1 Hj) as L1. pose proof (L t2 i S2 Hi) as L2.
  pose proof (proj1 S1) as G1. pose proof (proj1 S2) as G2. rewrite Eg in G1, G2.
  destruct (G1 i j Hi Hj) as (iv1 & X1 & Y1). destruct (G2 i j Hi Hj) as (iv2 & X2 & Y2). rewrite X1 in X2.
  injection X2 as <-. exists iv1. split; auto. unfold In_ext in *. lia.
Qed.

Lemma some_schedule V s' : 0 <= V -> 4 * V + 9 * (N * B) < oo -> convex_session p g V s' -> 0 < g_size g ->
  exists t, schedule p s' t.
Proof.
  intros V0 L S' Hg. destruct (earliest_box V s' V0) as (Eg & f & u & Bx); [lia|auto|].
  destruct (Bx 0) as (_ & Bf & Bu & A & P); [lia|].
  set (x := if f 0 =? - oo then if u 0 =? - oo then 0 else - u 0 else f 0).
  assert (finite x /\ f 0 <= x <= - u 0 /\ Z.abs x <= V + N * B).
  { subst x. unfold finite, bnd, apart1, oo in *. tests; lia. }
  destruct (through V s' 0 x) as (t & S & _); auto; [lia|lia|lia|apply P; tauto|eauto].
Qed.
(** A deadline is accepted exactly if some schedule meets it. *)
(** Partial: as C84_earliest_partial. *)
Theorem C84_deadline_partial : forall d, 0 < g_size g -> Z.abs d <= W + N * B -> exists s' r,
  sc_set_deadline p s d = Ret (s', r) /\
  (accepted r <-> exists t, schedule p s t /\ forall i, 0 <= i < g_size g -> t i <= d).
Proof.
  intros d Hg Hd. destruct (C52_history_proper p N B ks g R H) as (St & Pr).
  assert (Se' : convex_session p g (W + N * B) s) by (apply (session_wider p g W); auto; lia).
  assert (Ss : session p g s) by (apply (convex_session_session p g (W + N * B)); auto; lia).
  assert (Eg : sc_graph s = g) by (apply (earliest_box W s W0); auto; lia).
  destruct (C56_deadline_convex_partial p N B ks g (W + N * B) s R H) with (d := d) as (s' & r & E & Q & Z0); auto; try lia.
  exists s', r. split; auto. split.
  - intros A. destruct (some_schedule (W + N * B) s') as (t & S & P); auto; try lia; [eapply v_deadline; eauto|].
    assert (Eg' : sc_graph s' = g) by (apply (earliest_box (W + N * B) s'); auto; try lia; eapply v_deadline; eauto).
    rewrite Eg' in S, P.
    destruct (C56_deadline_partial p g s St Pr Ss d s' r) as [(X & _)|(_ & _ & X)]; auto; [unfold finite; lia| |].
    + subst r. destruct A; discriminate.
    + exists t. split; [split; rewrite Eg; auto; intros i Hi|intros i Hi]; now apply (X i (t i)), P.
  - intros (t & (_ & P) & T). destruct Q as [->|A]; auto. destruct (proj1 Z0 eq_refl) as (i & Hi & X).
    rewrite Eg in P. specialize (X (t i) (P i Hi)). specialize (T i Hi). lia.
Qed.
(** Partial: as C84_earliest_partial. *)
Theorem C84_startline_partial : forall d, 0 < g_size g -> Z.abs d <= W + N * B -> exists s' r,
  sc_set_startline p s d = Ret (s', r) /\
  (accepted r <-> exists t, schedule p s t /\ forall i, 0 <= i < g_size g -> d <= t i).
Proof.
  intros d Hg Hd. destruct (C52_history_proper p N B ks g R H) as (St & Pr).
  assert (Se' : convex_session p g (W + N * B) s) by (apply (session_wider p g W); auto; lia).
  assert (Ss : session p g s) by (apply (convex_session_session p g (W + N * B)); auto; lia).
  assert (Eg : sc_graph s = g) by (apply (earliest_box W s W0); auto; lia).
  destruct (C56_startline_convex_partial p N B ks g (W + N * B) s R H) with (d := d) as (s' & r & E & Q & Z0); auto; try lia.
  exists s', r. split; auto. split.
  - intros A. destruct (some_schedule (W + N * B) s') as (t & S & P); auto; try lia; [eapply v_startline; eauto|].
    assert (Eg' : sc_graph s' = g) by (apply (earliest_box (W + N * B) s'); auto; try lia; eapply v_startline; eauto).
    rewrite Eg' in S, P.
    destruct (C56_startline_partial p g s St Pr Ss d s' r) as [(X & _)|(_ & _ & X)]; auto; [unfold finite; lia| |].
    + subst r. destruct A; discriminate.
    + exists t. split; [split; rewrite Eg; auto; intros i Hi|intros i Hi]; now apply (X i (t i)), P.
  - intros (t & (_ & P) & T). destruct Q as [->|A]; auto. destruct (proj1 Z0 eq_refl) as (i & Hi & X).
    rewrite Eg in P. specialize (X (t i) (P i Hi)). specialize (T i Hi). lia.
Qed.

(** [earliest_ending], if finite, is the least date before which a schedule can end. *)
(** Partial: as C84_earliest_partial. *)
Theorem C84_ending_partial : forall d, sc_earliest_ending s = Ret d -> finite d ->
  (exists t, schedule p s t /\ forall i, 0 <= i < g_size g -> t i <= d) /\
  forall t, schedule p s t -> exists i, 0 <= i < g_size g /\ d <= t i.
Proof.
  intros d E F. destruct (earliest_box W s W0) as (Eg & f & u & Bx); [lia|auto|].
  apply C56_earliest in E as ((i & l & Hi & El & Ed) & Up).
  assert (Ln : i < g_size g).
  { destruct (convex_box p g (N * B) W Me Cl Bd K W0) with (s := s) as (f' & u' & _ & Bo); [lia|auto|].
    pose proof (b_len _ _ _ _ _ Bo). unfold sc_scheduling in El.
    assert (nth_error (sc_slots s) (Z.to_nat i) <> None) as X by congruence. apply nth_error_Some in X. lia. }
  assert (Hd : d = f i). { destruct (Bx i) as (X & _); [lia|]. rewrite El in X. injection X as ->. now rewrite <- Ed. }
  destruct (Bx i) as (_ & Bf & _ & _ & P); [lia|].
  assert (Lo : forall t, schedule p s t -> d <= t i).
  { intros t (_ & S). rewrite Eg in S. specialize (S i (conj Hi Ln)). apply P in S. lia. }
  split; [|intros t S; exists i; split; [lia|auto]].
  destruct (C84_deadline_partial d) as (s' & r & Es & A); [lia|unfold finite, bnd in *; lia|]. apply A.
  destruct (C52_history_proper p N B ks g R H) as (St & Pr).
  assert (Ss : session p g s) by (apply (convex_session_session p g W); auto; lia).
  destruct (C56_deadline_partial p g s St Pr Ss d s' r F Es) as [(_ & _ & j & Hj & X)|(X & _)]; auto.
  destruct (Bx j Hj) as (Ej & Bj & Buj & Aj & Pj). pose proof (Up j _ (proj1 Hj) Ej) as Uj. cbn in Uj.
  specialize (X (if f j =? - oo then if u j =? - oo then d else Z.min d (- u j) else f j)).
  exfalso. rewrite Pj in X. unfold finite, bnd, apart1, oo in *. tests_all; lia.
Qed.
(** Partial: as C84_earliest_partial. *)
Theorem C84_beginning_partial : forall d, sc_latest_beginning s = Ret d -> finite d ->
  (exists t, schedule p s t /\ forall i, 0 <= i < g_size g -> d <= t i) /\
  forall t, schedule p s t -> exists i, 0 <= i < g_size g /\ t i <= d.
Proof.
  intros d E F. destruct (earliest_box W s W0) as (Eg & f & u & Bx); [lia|auto|].
  apply C56_latest in E as ((i & l & Hi & El & Ed) & Up).
  assert (Ln : i < g_size g).
  { destruct (convex_box p g (N * B) W Me Cl Bd K W0) with (s := s) as (f' & u' & _ & Bo); [lia|auto|].
    pose proof (b_len _ _ _ _ _ Bo). unfold sc_scheduling in El.
    assert (nth_error (sc_slots s) (Z.to_nat i) <> None) as X by congruence. apply nth_error_Some in X. lia. }
  assert (Hd : d = - u i). { destruct (Bx i) as (X & _); [lia|]. rewrite El in X. injection X as ->. now rewrite <- Ed. }
  destruct (Bx i) as (_ & _ & Bu & _ & P); [lia|].
  assert (Lo : forall t, schedule p s t -> t i <= d).
  { intros t (_ & S). rewrite Eg in S. specialize (S i (conj Hi Ln)). apply P in S. lia. }
  split; [|intros t S; exists i; split; [lia|auto]].
  destruct (C84_startline_partial d) as (s' & r & Es & A); [lia|unfold finite, bnd in *; lia|]. apply A.
  destruct (C52_history_proper p N B ks g R H) as (St & Pr).
  assert (Ss : session p g s) by (apply (convex_session_session p g W); auto; lia).
  destruct (C56_startline_partial p g s St Pr Ss d s' r F Es) as [(_ & _ & j & Hj & X)|(X & _)]; auto.
  destruct (Bx j Hj) as (Ej & Bj & Buj & Aj & Pj). pose proof (Up j _ (proj1 Hj) Ej) as Uj. cbn in Uj.
  specialize (X (if u j =? - oo then if f j =? - oo then d else Z.max d (f j) else - u j)).
  exfalso. rewrite Pj in X. unfold finite, bnd, apart1, oo in *. tests_all; lia.
Qed.
(** Choosing dates: each chosen date is possible at that moment, and the instant is fixed there. *)
Inductive chosen : sched -> list (Z * Z) -> sched -> Prop :=
| ch_nil s : chosen s [] s
| ch_cons s i x s1 r cs s2 : 0 <= i < g_size g -> Z.abs x <= W -> possible s i x ->
    sc_retain p s i (WCx (CPoint x)) = Ret (s1, r) -> chosen s1 cs s2 -> chosen s ((i, x) :: cs) s2.
Lemma narrow_point x : Z.abs x <= W -> narrow W (CPoint x).
Proof.
  intros Hx. split; [cbn; unfold valid; lia|]. split; [exists x; cbn; split; auto; unfold finite; lia|].
  unfold within. cbn. lia.
Qed.
(** A possible date can be chosen; the instant is fixed and no other one is left without dates. *)
(** Partial: as C84_earliest_partial; false for sets (C55_refuted). *)
Theorem C84_choice_partial : forall i x, 0 <= i < g_size g -> Z.abs x <= W -> possible s i x ->
  exists s' r, sc_retain p s i (WCx (CPoint x)) = Ret (s', r) /\ accepted r /\
    (forall y, possible s' i y <-> y = x) /\ forall j, 0 <= j < g_size g -> exists y, possible s' j y.
Proof.
  intros i x Hi Hx Px. pose proof (narrow_point x Hx) as Na.
  assert (Fx : finite x) by (destruct Px as (l & _ & k & _ & F & _); auto).
  destruct (C52_history_proper p N B ks g R H) as (St & Pr).
  assert (Ss : session p g s) by (apply (convex_session_session p g W); auto; lia).
  destruct (C54_retain_partial p N B ks g W s R H W0) with (i := i) (c := CPoint x) as (s' & r & E & _ & A); auto; [lia|].
  assert (Ac : accepted r) by (apply A; exists x; split; auto; split; auto).
  exists s', r. split; auto. split; auto.
  assert (Se' : convex_session p g W s') by (apply (v_retain p g W s i (CPoint x) s' r); auto; lia).
  assert (Ne : forall j, 0 <= j < g_size g -> exists y, possible s' j y)
    by (apply (C54_nonempty_partial p N B ks g W s' R H W0); auto; lia).
  split; auto.
  assert (Q : forall y, possible s' i y -> y = x).
  { intros y Py. destruct (C52_shrinks p g s St Pr Ss i (WCx (CPoint x)) s' r i y) as (_ & X); auto; try lia;
      [now apply (narrow_window W)|]. specialize (X eq_refl Ac). unfold In_w, In_cx in X. tauto. }
  intros y. split; [apply Q|]. intros ->. destruct (Ne i Hi) as (y & Py). now rewrite <- (Q y Py).
Qed.
Lemma chosen_later s1 cs s2 : chosen s1 cs s2 -> convex_session p g W s1 -> convex_session p g W s2 /\
  forall t, schedule p s2 t -> schedule p s1 t /\ forall i x, In (i, x) cs -> t i = x.
Proof.
  destruct (C52_history_proper p N B ks g R H) as (St & Pr).
  induction 1 as [s1|s1 i x s' r cs s2 Hi Hx Px E Ch IH]; intros S1; [split; auto; intros t S; split; auto; intros i x []|].
  pose proof (narrow_point x Hx) as Na.
  assert (Se' : convex_session p g W s') by (apply (v_retain p g W s1 i (CPoint x) s' r); auto; lia). destruct (IH Se') as (S2 & T).
  split; auto. intros t S. destruct (T t S) as (S' & X).
  assert (Ss : session p g s1) by (apply (convex_session_session p g W); auto; lia).
  assert (Eg : sc_graph s1 = g) by (apply (earliest_box W s1 W0); auto; lia).
  assert (Eg' : sc_graph s' = g) by (apply (earliest_box W s' W0); auto; lia).
  assert (Ac : accepted r).
  { destruct (C54_retain_partial p N B ks g W s1 R H W0) with (i := i) (c := CPoint x) as (s3 & r3 & E3 & _ & A); auto; [lia|].
    rewrite E in E3. injection E3 as <- <-. apply A. exists x. split; auto. cbn. split; auto.
    destruct Px as (l & _ & k & _ & F & _). auto. }
  destruct S' as (G' & P'). rewrite Eg' in G', P'.
  assert (Y : forall j, 0 <= j < g_size g -> possible s1 j (t j) /\ (j = i -> accepted r -> In_w (t j) (WCx (CPoint x)))).
  { intros j Hj. apply (C52_shrinks p g s1 St Pr Ss i (WCx (CPoint x)) s' r j (t j)); auto; try lia. now apply (narrow_window W). }
  split; [split; rewrite Eg; auto; intros j Hj; now apply Y|].
  intros j y [J|J]; auto. injection J as <- <-. destruct (Y i Hi) as (_ & Z0). specialize (Z0 eq_refl Ac). unfold In_w, In_cx in Z0. tauto.
Qed.
(** Whatever dates are chosen, they are part of a schedule; once each instant has one, they are a schedule. *)
(** Partial: as C84_earliest_partial. *)
Theorem C84_choices_partial : forall cs s', 0 < g_size g -> chosen s cs s' ->
  exists t, schedule p s t /\ forall i x, In (i, x) cs -> t i = x.
Proof.
  intros cs s' Hg Ch. destruct (chosen_later s cs s' Ch Se) as (S' & T).
  destruct (some_schedule W s') as (t & S); auto; [lia|]. exists t. now apply T.
Qed.
End Earliest.

(** ** Examples *)

Example C84_case : forall p, room 3 200 /\ history p 3 200 ksA gA /\ convex_session p gA 1000 cA3 /\
  schedule p cA3 (date3 5 8 8) /\ (forall i, 0 <= i < 3 -> first_date cA3 i = date3 5 8 8 i) /\
  schedule p cA3 (date3 17 20 20) /\ (forall i, 0 <= i < 3 -> last_date cA3 i = date3 17 20 20 i) /\
  sc_earliest_ending cA3 = Ret 8 /\ sc_latest_beginning cA3 = Ret 17 /\
  sc_set_deadline p cA3 7 = Ret (cA3, Recovered) /\
  sc_set_deadline p cA3 8 = Ret (mkS gA [[mkI 5 5]; [mkI 8 8]; [mkI 8 8]], Propagated).
Proof.
  intros p. destruct (cA_session p) as (_ & _ & S3).
  assert (C : forall i, 0 <= i < 3 -> i = 0 \/ i = 1 \/ i = 2) by lia.
  assert (P : forall a b c, 5 <= a <= 17 -> 8 <= b <= 20 -> 8 <= c <= 20 -> 3 <= b - a <= 48 -> 0 <= c - b <= 60 ->
    schedule p cA3 (date3 a b c)).
  { intros a b c Ha Hb Hc H1 H2. split; [apply solA; auto|]. intros i Hi. apply C in Hi as [->|[->| ->]];
      (eexists; split; [reflexivity|]).
    - exists (mkI 5 17). split; [cbn; auto|]. unfold In_iv, finite, oo, date3. simpl. lia.
    - exists (mkI 8 20). split; [cbn; auto|]. unfold In_iv, finite, oo, date3. simpl. lia.
    - exists (mkI 8 20). split; [cbn; auto|]. unfold In_iv, finite, oo, date3. simpl. lia. }
  split; [apply room_3|]. split; [apply histA|]. split; auto. split; [apply P; lia|].
  split; [intros i Hi; apply C in Hi as [->|[->| ->]]; reflexivity|]. split; [apply P; lia|].
  split; [intros i Hi; apply C in Hi as [->|[->| ->]]; reflexivity|].
  split; [reflexivity|]. split; [reflexivity|]. destruct p; split; vm_compute; reflexivity.
Qed.

Example C84_choice_case : forall p, convex_session p gA 1000 cA3 /\
  chosen p gA 1000 cA3 [(2, 15); (0, 9); (1, 13)] (mkS gA [[mkI 9 9]; [mkI 13 13]; [mkI 15 15]]).
Proof.
  intros p. split; [apply cA_session|].
  apply ch_cons with (s1 := mkS gA [[mkI 5 12]; [mkI 8 15]; [mkI 15 15]]) (r := Propagated); [cbn; lia|lia| | |].
  { eexists. split; [reflexivity|]. exists (mkI 8 20). split; [cbn; auto|]. unfold In_iv, finite, oo. cbn. lia. }
  { destruct p; vm_compute; reflexivity. }
  apply ch_cons with (s1 := mkS gA [[mkI 9 9]; [mkI 12 15]; [mkI 15 15]]) (r := Propagated); [cbn; lia|lia| | |].
  { eexists. split; [reflexivity|]. exists (mkI 5 12). split; [cbn; auto|]. unfold In_iv, finite, oo. cbn. lia. }
  { destruct p; vm_compute; reflexivity. }
  apply ch_cons with (s1 := mkS gA [[mkI 9 9]; [mkI 13 13]; [mkI 15 15]]) (r := Propagated); [cbn; lia|lia| | |].
  { eexists. split; [reflexivity|]. exists (mkI 12 15). split; [cbn; auto|]. unfold In_iv, finite, oo. cbn. lia. }
  { destruct p; vm_compute; reflexivity. }
  constructor.
Qed.

(** Restricted by sets, the first dates may not be a schedule, and all the schedules may end
    later than [earliest_ending]. *)
Definition eA : sched := mkS gA [[mkI 52 60]; [mkI 100 100]; [mkI 55 60; mkI 100 160]].
Definition eB : sched := mkS gA [[mkI 52 60]; [mkI 100 100]; [mkI 55 60; mkI 120 160]].
Theorem C84_refuted : exists g, (forall p, history p 3 200 ksA g) /\ forall p, exists s t d,
  session p g s /\ (forall i, 0 <= i < g_size g -> finite (first_date s i)) /\ ~ schedule p s (first_date s) /\
  schedule p s t /\ sc_earliest_ending s = Ret d /\ finite d /\
  forall t', schedule p s t' -> exists i, 0 <= i < g_size g /\ d < t' i.
Proof.
  exists gA. split; [exact histA|]. intros p. exists eB, (date3 60 100 120), 100.
  assert (C : forall i, 0 <= i < 3 -> i = 0 \/ i = 1 \/ i = 2) by lia.
  assert (L : forall t', schedule p eB t' -> 120 <= t' 2).
  { intros t' (S & P). destruct (P 1) as (l1 & E1 & X1); [cbn; lia|]. destruct (P 2) as (l2 & E2 & X2); [cbn; lia|].
    cbn in E1, E2. injection E1 as <-. injection E2 as <-.
    destruct X1 as (k1 & [<-|[]] & I1). unfold In_iv in I1. cbn in I1.
    destruct (S 1 2) as (iv & Et & Iv); [cbn; lia|cbn; lia|].
    assert (Q : g_timespan p gA 1 2 = Ret (mkI 0 60)) by (destruct p; vm_compute; reflexivity).
    change (sc_graph eB) with gA in Et. rewrite Q in Et. injection Et as <-. unfold In_ext, oo in Iv. cbn [lower upper] in Iv.
    destruct X2 as (k2 & [<-|[<-|[]]] & I2); unfold In_iv in I2; cbn [lower upper] in I2; lia. }
  split.
  { apply s_retain with (s := eA) (i := 2) (w := WSet [mkI 50 60; mkI 120 160]) (r := Propagated);
      [apply s_retain with (s := oA) (i := 0) (w := WCx (CRangeIncl 52 60)) (r := Propagated);
        [apply s_retain with (s := sc_new gA) (i := 1) (w := WSet [mkI 0 0; mkI 100 100]) (r := Propagated);
          [constructor| | |]| | |]| | |]; try lia; try (destruct p; vm_compute; reflexivity).
    - apply two_ok; lia.
    - apply (narrow_window 1000). apply narrow_incl; unfold oo; lia.
    - apply wide_ok; lia. }
  split; [intros i Hi; apply C in Hi as [->|[->| ->]]; unfold finite; vm_compute; auto|].
  split; [intros S; apply L in S; revert S; vm_compute; auto|].
  split.
  { split; [apply solA; unfold date3; simpl; lia|]. intros i Hi. apply C in Hi as [->|[->| ->]]; (eexists; split; [reflexivity|]).
    - exists (mkI 52 60). split; [cbn; auto|]. unfold In_iv, finite, oo, date3. simpl. lia.
    - exists (mkI 100 100). split; [cbn; auto|]. unfold In_iv, finite, oo, date3. simpl. lia.
    - exists (mkI 120 160). split; [cbn; auto|]. unfold In_iv, finite, oo, date3. simpl. lia. }
  split; [reflexivity|]. split; [unfold finite, oo; lia|]. intros t' S. exists 2. apply L in S. cbn. lia.
Qed.

Print Assumptions C84_earliest_partial.
Print Assumptions C84_latest_partial.
Print Assumptions C84_deadline_partial.
Print Assumptions C84_startline_partial.
Print Assumptions C84_ending_partial.
Print Assumptions C84_beginning_partial.
Print Assumptions C84_refuted.
Print Assumptions C84_choice_partial.
Print Assumptions C84_choices_partial.
