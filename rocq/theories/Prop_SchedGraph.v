(** C101: a scheduler restricted by intervals is a graph with one more instant, the origin
    of the dates. *)
From Verif Require Import Machine TimeValue Spec Tac TimeValueProofs Interval Iter TimeSet Relns
  Transl SpecSets SetProofs CollectProofs Prop_Interval SetOpsProofs SchedSets
  Graph MaxPlus GraphProofs SpecGraph GraphHist GraphInv GraphIter Prop_Graph Prop_Propagation Prop_GraphIter
  Scheduler SpecSched SchedProofs SchedBox SchedConv Prop_Scheduler Prop_SchedConvex Prop_SchedStep
  Prop_SchedEarliest Prop_SchedOrder Prop_Direction.

(** The restrictions by intervals as constraints on the distance to the instant [o] *)
Definition from_origin (n o : Z) (r : restriction) : list kons :=
  match r with
  | RKeep i (WCx c) => [k_cx o i c]
  | RLate d => map (fun i => mkK o (Z.of_nat i) false (- oo) d) (seq 0 (Z.to_nat n))
  | REarly d => map (fun i => mkK o (Z.of_nat i) false d oo) (seq 0 (Z.to_nat n))
  | _ => []
  end.

Lemma narrow_bounds W c x : narrow W c -> finite x -> (In_cx x c <-> cx_lower c <= x <= cx_upper c).
Proof.
  intros (V & _) F. pose proof (proj1 (C11_convex_bounds c x V)) as D. rewrite D. tauto.
Qed.
Lemma sat_from n o W r t g : narrow_r W r -> W < oo -> g_size g = n -> t o = 0 ->
  (match r with RKeep i _ => 0 <= i < n | _ => True end) -> (forall i, 0 <= i < n -> finite (t i)) ->
  (Forall (fun k => sat k t) (from_origin n o r) <-> meets g t r).
Proof.
  intros Na L Sz To Hi Fi. destruct r as [i [c|l]|i h|d|d]; cbn [from_origin meets narrow_r In_w] in *; try contradiction.
  - destruct Na as (_ & Na). rewrite (narrow_bounds W c (t i) Na (Fi i Hi)). specialize (Fi i Hi).
    split.
    + intros F. inv F. match goal with X : sat _ _ |- _ => unfold sat, In_ext, k_cx in X; cbn [k_from k_to k_lo k_up lower upper] in X; rewrite To in X end.
      unfold finite in Fi. lia.
    + intros F. constructor; [|constructor]. unfold sat, In_ext, k_cx. cbn [k_from k_to k_lo k_up lower upper]. rewrite To. lia.
  - rewrite Sz, Forall_map, Forall_forall. split.
    + intros F i Hr. assert (I : In (Z.to_nat i) (seq 0 (Z.to_nat n))) by (apply in_seq; lia).
      specialize (F _ I). unfold sat, In_ext in F. cbn [k_from k_to k_lo k_up lower upper] in F.
      rewrite Z2Nat.id, To in F by lia. specialize (Fi i Hr). unfold finite in Fi. lia.
    + intros F i I. apply in_seq in I. unfold sat, In_ext. cbn [k_from k_to k_lo k_up lower upper]. rewrite To.
      specialize (F (Z.of_nat i) ltac:(lia)). lia.
  - rewrite Sz, Forall_map, Forall_forall. split.
    + intros F i Hr. assert (I : In (Z.to_nat i) (seq 0 (Z.to_nat n))) by (apply in_seq; lia).
      specialize (F _ I). unfold sat, In_ext in F. cbn [k_from k_to k_lo k_up lower upper] in F.
      rewrite Z2Nat.id, To in F by lia. specialize (Fi i Hr). unfold finite in Fi. lia.
    + intros F i I. apply in_seq in I. unfold sat, In_ext. cbn [k_from k_to k_lo k_up lower upper]. rewrite To.
      specialize (F (Z.of_nat i) ltac:(lia)). lia.
Qed.
Lemma sat_outside k o t v : k_from k <> o -> k_to k <> o -> (sat k (fun i => if i =? o then v else t i) <-> sat k t).
Proof. intros A C. unfold sat. replace (k_to k =? o) with false by lia. replace (k_from k =? o) with false by lia. tauto. Qed.
Lemma made_within p N B ks g W rs s : room N B -> history p N B ks g -> 0 <= W -> W + 2 * (N * B) < oo ->
  made p g (narrow_r W) rs s ->
  Forall (fun r => narrow_r W r /\ match r with RKeep i _ => 0 <= i < g_size g | _ => True end) rs.
Proof.
  intros R H W0 Sp Ma. pose proof (c0 N B R) as K0. destruct (C52_history_proper p N B ks g R H) as (St & Pr).
  pose proof (proj1 (stored_mem g) St) as M. pose proof (proj1 (proper_prop p g M) Pr) as P.
  induction Ma as [|rs s r s' a Ma IH Kr E A|rs s r s' Ma IH Kr E]; auto.
  constructor; auto. split; auto. destruct r as [i w|i h|d|d]; auto.
  assert (Hi : 0 <= i) by (destruct w; cbn [narrow_r] in Kr; [apply Kr|contradiction]).
  destruct (Z_lt_le_dec i (g_size g)) as [Lt|Ge]; [lia|exfalso]. cbn [asked] in E.
  assert (Si : sinv g s).
  { apply (session_sinv p g s M P). apply (convex_session_session p g W); [lia|]. eapply narrow_session; eauto. }
  rewrite (retain_out p g s i w Si Ge) in E. discriminate.
Qed.

Lemma near_unique l u l' u' M Y : 0 <= M -> M < Y -> Y < oo ->
  l = - oo \/ Z.abs l <= M -> u = oo \/ Z.abs u <= M -> l' = - oo \/ Z.abs l' <= M -> u' = oo \/ Z.abs u' <= M ->
  l <= u -> l' <= u' -> (forall x, Z.abs x <= Y -> (finite x /\ l <= x <= u <-> In_ext x (mkI l' u'))) ->
  l = l' /\ u = u'.
Proof.
  intros M0 L Lo A1 A2 A3 A4 W1 W2 E. unfold In_ext, finite in E. cbn [lower upper] in E.
  split.
  - destruct A1 as [A1|A1], A3 as [A3|A3]; [congruence| | |].
    + exfalso. pose proof (proj1 (E (- Y) ltac:(lia)) ltac:(lia)). lia.
    + exfalso. pose proof (proj2 (E (- Y) ltac:(lia)) ltac:(lia)). lia.
    + pose proof (proj1 (E l ltac:(lia)) ltac:(lia)). pose proof (proj2 (E l' ltac:(lia)) ltac:(lia)). lia.
  - destruct A2 as [A2|A2], A4 as [A4|A4]; [congruence| | |].
    + exfalso. pose proof (proj1 (E Y ltac:(lia)) ltac:(lia)). lia.
    + exfalso. pose proof (proj2 (E Y ltac:(lia)) ltac:(lia)). lia.
    + pose proof (proj1 (E u ltac:(lia)) ltac:(lia)). pose proof (proj2 (E u' ltac:(lia)) ltac:(lia)). lia.
Qed.

Lemma clip_in l u M v : 0 <= M -> M < oo -> l = - oo \/ Z.abs l <= M -> u = oo \/ Z.abs u <= M ->
  (l = - oo \/ l <= v) /\ (u = oo \/ v <= u) -> l <= Z.max (- M) (Z.min M v) <= u.
Proof. intros M0 L A1 A2 [[C|C] [D|D]]; split; lia. Qed.

Lemma narrow_abs W M c : narrow W c -> W <= M ->
  (cx_lower c = - oo \/ Z.abs (cx_lower c) <= M) /\ (cx_upper c = oo \/ Z.abs (cx_upper c) <= M).
Proof.
  intros (V & (y & Hy) & W1 & W2) L. pose proof (proj1 (C11_convex_bounds c y V)) as D.
  destruct (proj1 D Hy) as (Fy & By). unfold finite, within in *. lia.
Qed.
Lemma clip_finite M v : 0 <= M -> M < oo -> finite (Z.max (- M) (Z.min M v)).
Proof. unfold finite. lia. Qed.

Section Origin.
Variables (p : profile) (N B : Z) (ks ks' : list kons) (g h : graph) (rs : list restriction) (s : sched).
Hypotheses (R : room (N + 1) B) (N0 : 0 <= N) (Sp : 16 * (N + 1) * B + 10 < oo).
Hypotheses (H : history p N B ks g) (H' : history p (N + 1) B ks' h).
Hypotheses (Ma : made p g (narrow_r B) rs s) (Sz : g_size h = g_size g + 1).
Hypothesis (K : forall k, In k ks' <-> In k ks \/ exists r, In r rs /\ In k (from_origin (g_size g) (g_size g) r)).

Let n := g_size g.
Let X := (N + 2) * B + 1.
Lemma og_room : room N B.
Proof. pose proof R as (B0 & L & Q). split; auto. split; [lia|]. nia. Qed.
Lemma og_margins : 0 <= B /\ 0 <= N * B /\ B + 2 * (N * B) < oo /\ 2 * B + 2 * X + 7 * (N * B) < oo /\
  X + 2 * ((N + 1) * B) < oo /\ 2 * X + 2 * X + 7 * ((N + 1) * B) < oo /\ B < oo /\ 0 <= X < oo.
Proof.
  pose proof R as (B0 & _ & _). assert (0 <= N * B) by (apply Z.mul_nonneg_nonneg; lia). unfold X.
  replace ((N + 2) * B) with (N * B + 2 * B) by ring. replace ((N + 1) * B) with (N * B + B) by ring.
  replace (16 * (N + 1) * B) with (16 * (N * B) + 16 * B) in Sp by ring. lia.
Qed.

(** dates of the instants, the origin at 0 *)
Lemma og_sat t : (forall i, 0 <= i < n -> finite (t i)) -> t n = 0 ->
  (Forall (fun k => sat k t) ks' <-> solution p g t /\ Forall (meets g t) rs).
Proof.
  intros F T0. pose proof og_margins as Mg. pose proof (made_within p N B ks g B rs s og_room H (proj1 Mg) ltac:(lia) Ma) as Wi.
  rewrite (proj1 (C40_solutions_partial p N B ks g t og_room H)).
  rewrite !Forall_forall. rewrite Forall_forall in Wi. split.
  - intros Q. split; [intros k Hk; apply Q, K; auto|].
    intros r Hr. destruct (Wi r Hr) as [Na Hi]. apply (sat_from n n B r t g); auto; [lia|].
    apply Forall_forall. intros k Hk. apply Q, K. eauto.
  - intros [Q1 Q2] k Hk. apply K in Hk. destruct Hk as [Hk|(r & Hr & Hk)]; auto.
    destruct (Wi r Hr) as [Na Hi]. specialize (Q2 r Hr). apply (sat_from n n B r t g) in Q2; auto; [|lia].
    rewrite Forall_forall in Q2. auto.
Qed.
Lemma og_free t v : solution p g (fun i => if i =? n then v else t i) <-> solution p g t.
Proof.
  unfold solution. split; intros Q i j Hi Hj; specialize (Q i j Hi Hj); cbn beta in Q |- *;
    replace (i =? n) with false in * by (unfold n; lia); replace (j =? n) with false in * by (unfold n; lia); auto.
Qed.

Lemma og_meets t r : narrow_r B r -> match r with RKeep i _ => 0 <= i < n | _ => True end ->
  meets g t r -> meets g (fun i => if i =? n then 0 else t i) r.
Proof.
  intros Kr Hi M. destruct r as [i w|i hh|d|d]; cbn [meets narrow_r] in *.
  - replace (i =? n) with false by lia. auto.
  - contradiction.
  - intros i Hr'. replace (i =? n) with false by (unfold n in *; lia). auto.
  - intros i Hr'. replace (i =? n) with false by (unfold n in *; lia). auto.
Qed.
Lemma og_joint t : solution p g t -> (forall i, 0 <= i < n -> finite (t i)) -> Forall (meets g t) rs ->
  Forall (fun k => sat k (fun i => if i =? n then 0 else t i)) ks'.
Proof.
  intros S F M. pose proof og_margins as Mg. apply og_sat.
  - intros i Hi. replace (i =? n) with false by lia. auto.
  - now rewrite Z.eqb_refl.
  - split; [now apply og_free|]. pose proof (made_within p N B ks g B rs s og_room H (proj1 Mg) ltac:(lia) Ma) as Wi.
    rewrite Forall_forall in *. intros r Hr. specialize (M r Hr). destruct (Wi r Hr) as [Kr Hi]. apply og_meets; auto.
Qed.

Lemma og_near j x : 0 <= j < n -> Z.abs x <= X -> forall iv, g_timespan p h n j = Ret iv ->
  (possible s j x <-> In_ext x iv).
Proof.
  intros Hj Hx iv T. pose proof og_margins as Mg.
  assert (Hn : 0 <= n < g_size h) by (unfold n in *; lia). assert (Hj' : 0 <= j < g_size h) by (unfold n in *; lia).
  destruct (C40_minimal_partial p (N + 1) B ks' h R H' n j Hn Hj') as (iv' & T' & _ & Mi).
  rewrite T in T'. assert (iv = iv') by (injection T'; auto). subst iv'. split.
  - intros Px. apply (C76_dates_partial p N B ks g B og_room H) with (rs := rs) (X := X) in Px; auto; try lia.
    destruct Px as (t & (S & F & M) & E). apply Mi.
    exists (fun i => if i =? n then 0 else t i). split; [now apply og_joint|].
    rewrite Z.eqb_refl. replace (j =? n) with false by (unfold n in *; lia). lia.
  - intros Ix. destruct (C52_history_proper p (N + 1) B ks' h R H') as (St & Pr).
    pose proof (proj1 (stored_mem h) St) as Mh.
    assert (Na : narrow X (CPoint 0)).
    { split; [cbn; unfold valid; lia|]. split; [exists 0; unfold In_cx, finite; lia|]. unfold within. cbn. lia. }
    destruct (C54_retain_partial p (N + 1) B ks' h X (sc_new h) R H' ltac:(lia) ltac:(lia) (v_new p h X) n (CPoint 0) Hn Na)
      as (s1 & r & E & Sh & A).
    assert (P0 : possible (sc_new h) n 0) by (apply (new_possible h n 0 Mh Hn); unfold finite; lia).
    assert (Ac : accepted r) by (apply A; exists 0; split; auto; unfold In_cx, finite; lia).
    pose proof (narrow_window X _ Na) as Wo.
    assert (Er : r = Propagated).
    { destruct Ac as [-> | ->]; auto. exfalso.
      destruct (C53_unchanged p h (sc_new h) St Pr (s_new p h) n (WCx (CPoint 0)) s1 (proj1 Hn) Wo E) as [_ Q].
      assert (P1 : possible (sc_new h) n 1) by (apply (new_possible h n 1 Mh Hn); unfold finite, oo; lia).
      specialize (Q 1 P1). unfold In_w, In_cx in Q. lia. }
    subst r. destruct (proj2 (proj2 (C40_solutions_partial p (N + 1) B ks' h (fun _ => 0) R H'))) as (t0 & S0).
    assert (Q0 : possible s1 n 0).
    { apply (C66_own_dates p h (sc_new h) St Pr (ex_intro _ t0 S0) (s_new p h) n (WCx (CPoint 0)) s1 (proj1 Hn) Wo E).
      split; auto. unfold In_w, In_cx, finite. lia. }
    assert (Qx : possible s1 j x).
    { apply (C66_supported p h (sc_new h) St Pr (ex_intro _ t0 S0) (s_new p h) n (WCx (CPoint 0)) s1 (proj1 Hn) Wo E j x 0 iv);
        auto; [lia| |now rewrite Z.sub_0_r].
      apply (new_possible h j x Mh Hj'). unfold finite. lia. }
    pose proof (v_retain p h X (sc_new h) n (CPoint 0) s1 Propagated (v_new p h X) (proj1 Hn) Na E) as Se.
    destruct (C54_feasible_partial p (N + 1) B ks' h X s1 R H' ltac:(lia) ltac:(lia) Se X j x ltac:(lia) Hj' Hx Qx) as (t & Sc & Tx).
    pose proof (session_sinv p h s1 Mh (proj1 (proper_prop p h Mh) Pr) (convex_session_session p h X s1 ltac:(lia) Se)) as Si.
    destruct Sc as [So Po]. rewrite (proj1 Si) in So, Po.
    assert (Fi : forall i, 0 <= i < g_size h -> finite (t i)).
    { intros i Hi. destruct (Po i Hi) as (l & _ & k & _ & F & _). exact F. }
    assert (Tn : t n = 0).
    { pose proof (Po n Hn) as Pn.
      apply (C66_own_dates p h (sc_new h) St Pr (ex_intro _ t0 S0) (s_new p h) n (WCx (CPoint 0)) s1 (proj1 Hn) Wo E) in Pn.
      destruct Pn as [_ Pn]. unfold In_w, In_cx in Pn. lia. }
    apply (C40_solutions_partial p (N + 1) B ks' h t R H') in So.
    apply og_sat in So; auto; [|intros i Hi; apply Fi; unfold n in *; lia].
    apply (C76_dates_partial p N B ks g B og_room H) with (rs := rs) (X := X); auto; try lia.
    exists t. split; [|exact Tx]. split; [apply So|]. split; [|apply So]. intros i Hi. apply Fi. unfold n in *; lia.
Qed.

(** Each slot is the interval reported from the origin. *)
(** Partial: restrictions by intervals, margins. *)
Theorem C101_slots_partial : forall j, 0 <= j < g_size g ->
  exists iv, g_timespan p h (g_size g) j = Ret iv /\ sc_scheduling s j = Some [iv].
Proof.
  intros j Hj. pose proof og_margins as Mg. pose proof (narrow_session _ _ _ _ _ Ma) as Se.
  assert (Hn : 0 <= n < g_size h) by (unfold n in *; lia). assert (Hj' : 0 <= j < g_size h) by lia.
  destruct (C40_minimal_partial p (N + 1) B ks' h R H' n j Hn Hj') as (iv & T & Wv & _).
  pose proof (fun x Hx => og_near j x Hj Hx iv T) as Ne.
  exists iv. split; auto.
  pose proof (history_inv _ _ _ _ _ og_room H) as I.
  destruct (convex_box p g (N * B) B (i_mem _ _ _ _ I) (cl p N B ks g og_room H) (bd p N B ks g og_room H) ltac:(lia) ltac:(lia))
    with (s := s) as (f & u & Bo); [lia|auto|].
  pose proof (box_possible g (B + N * B) s f u j) as Bp.
  destruct Bo as (Eg & Bx). pose proof (b_slot _ _ _ _ _ Bx j Hj) as Sl. pose proof (b_len _ _ _ _ _ Bx) as Ln.
  assert (Es : sc_scheduling s j = Some (piece (f j) (u j))).
  { rewrite <- Sl. unfold sc_scheduling, sl. apply nth_error_nth'. lia. }
  rewrite Es. unfold piece. f_equal. f_equal.
  pose proof (h_bnd _ _ _ _ (b_low _ _ _ _ _ Bx) j Hj) as Bf. pose proof (h_bnd _ _ _ _ (b_up _ _ _ _ _ Bx) j Hj) as Bu.
  pose proof (b_apart _ _ _ _ _ Bx j Hj) as Ap.
  pose proof (history_inv _ _ _ _ _ R H') as I'. pose proof (i_mem _ _ _ _ I') as Mh.
  rewrite timespan_ok in T by auto. injection T as <-. cbn [lower upper] in Wv.
  pose proof (bd p (N + 1) B ks' h R H' n j Hn Hj') as B1. pose proof (bd p (N + 1) B ks' h R H' j n Hj' Hn) as B2.
  replace ((N + 1) * B) with (B + N * B) in B1, B2 by ring.
  assert (Q : f j = cell h n j /\ - u j = - cell h j n).
  { apply (near_unique (f j) (- u j) (cell h n j) (- cell h j n) (B + N * B) X); auto;
      try (unfold X; lia); try (unfold bnd, apart1 in *; lia).
    intros x Hx. rewrite <- (Ne x Hx). symmetry. apply Bp; auto. split; auto. }
  destruct Q as [-> ->]. reflexivity.
Qed.

(** The scheduler accepts a window iff the graph accepts the constraint from the origin. *)
(** Partial: as C101_slots_partial. *)
Theorem C101_retain_partial : forall i c, 0 <= i < g_size g -> narrow B c ->
  let k := k_cx (g_size g) i c in
  exists s' r h' r', sc_retain p s i (WCx c) = Ret (s', r) /\ g_propagate p h k = Ret (h', r') /\
    (accepted r <-> accepted r') /\
    (accepted r -> made p g (narrow_r B) (RKeep i (WCx c) :: rs) s' /\ history p (N + 1) B (k :: ks') h' /\
       g_size h' = g_size g + 1).
Proof.
  intros i c Hi Na k. pose proof og_margins as Mg. pose proof (narrow_session _ _ _ _ _ Ma) as Se.
  destruct (C54_retain_partial p N B ks g B s og_room H ltac:(lia) ltac:(lia) Se i c Hi Na) as (s' & r & E & Sh & A).
  assert (Hn : 0 <= n < g_size h) by (unfold n in *; lia). assert (Hi' : 0 <= i < g_size h) by lia.
  pose proof (history_inv _ _ _ _ _ R H') as I'. pose proof (i_size _ _ _ _ I') as Sn.
  assert (Gk : good (N + 1) B k).
  { pose proof Na as (V & (x & Px) & W1 & W2). pose proof (proj1 (C11_convex_bounds c x V)) as D.
    destruct (proj1 D Px) as (F & Bx). unfold k, k_cx, good. cbn [k_from k_to k_empty k_lo k_up].
    split. { destruct (cx_is_empty c) eqn:Ec; auto. destruct (proj1 (C11_is_empty_partial c V) Ec x Px). }
    split; [unfold wf_iv; cbn [lower upper]; unfold finite, within in *; lia|]. unfold n in *. split; [lia|]. split; [lia|auto]. }
  assert (Ik : inside h k) by (unfold inside, k, k_cx; cbn [k_from k_to]; lia).
  destruct (C41_exact_partial p (N + 1) B ks' h k R H' Gk Ik) as (h' & r' & E' & NF & Rec & _).
  exists s', r, h', r'. split; auto. split; auto.
  destruct (C101_slots_partial i Hi) as (iv & T & Es).
  destruct (C40_minimal_partial p (N + 1) B ks' h R H' n i Hn Hi') as (iv' & T' & Wv & Mi).
  unfold n in T'. rewrite T in T'. assert (iv = iv') by (injection T'; auto). subst iv'. clear T'.
  assert (Po : forall x, possible s i x <-> finite x /\ lower iv <= x <= upper iv).
  { intros x. unfold possible, In_set, In_iv. rewrite Es. split.
    - intros (l & El & q & Hq & Q). injection El as <-. destruct Hq as [<-|[]]. exact Q.
    - intros Q. exists [iv]. split; auto. exists iv. split; [left; auto|exact Q]. }
  assert (Iv : (lower iv = - oo \/ Z.abs (lower iv) <= B + N * B) /\ (upper iv = oo \/ Z.abs (upper iv) <= B + N * B)).
  { rewrite timespan_ok in T by (auto; apply I'). injection T as <-. cbn [lower upper].
    pose proof (bd p (N + 1) B ks' h R H' n i Hn Hi') as B1. pose proof (bd p (N + 1) B ks' h R H' i n Hi' Hn) as B2.
    replace ((N + 1) * B) with (B + N * B) in B1, B2 by ring. unfold n, bnd in *. lia. }
  assert (Sol : forall t, solution p h t <-> Forall (fun k => sat k t) ks').
  { intros t. apply (C40_solutions_partial p (N + 1) B ks' h t R H'). }
  assert (D : accepted r <-> accepted r').
  { split; intros Q.
    - apply A in Q. destruct Q as (x & Px & Cx). rewrite Po in Px.
      assert (Ix : In_ext x iv) by (unfold In_ext; lia). apply Mi in Ix. destruct Ix as (t & F & Ex).
      assert (Nr : r' <> Recovered).
      { intros Z0. apply (proj1 Rec Z0 t). rewrite Sol. split; auto.
        unfold sat, k, k_cx, In_ext. cbn [k_from k_to k_lo k_up lower upper]. fold n. rewrite Ex.
        apply (narrow_bounds B c x Na) in Cx; [lia|apply Px]. }
      destruct r'; unfold accepted; auto; congruence.
    - destruct Sh as [Z0|Sh]; auto. exfalso. assert (Q' : r' = Recovered); [|destruct Q; congruence].
      apply Rec. intros t [So Sa]. apply Sol in So.
      assert (Ix : In_ext (t i - t n) iv) by (apply Mi; eauto). unfold sat, k, k_cx in Sa. cbn [k_from k_to k_lo k_up] in Sa. fold n in Sa.
      assert (Q2 : accepted r); [|subst r; destruct Q2; discriminate].
      apply A. assert (M1 : 0 <= B + N * B) by lia. assert (M2 : B + N * B < oo) by lia.
      pose proof (clip_finite (B + N * B) (t i - t n) M1 M2) as Fv.
      destruct (narrow_abs B (B + N * B) c Na ltac:(lia)) as [Q1 Q2]. destruct Iv as [Q3 Q4].
      exists (Z.max (- (B + N * B)) (Z.min (B + N * B) (t i - t n))).
      split; [apply Po; split; [exact Fv|]|apply (narrow_bounds B c _ Na Fv)];
        (apply clip_in; [exact M1|exact M2|assumption|assumption|assumption]). }
  split; auto. intros Ac. split; [eapply m_accepted; eauto; split; [lia|auto]|].
  destruct (propagate_inv p (N + 1) B ks' h k R I' Gk Ik) as (h2 & r2 & E2 & S2 & _).
  rewrite E' in E2. injection E2 as <- <-.
  split; [eapply h_propagate; eauto; now apply D|]. lia.
Qed.

Lemma og_slot i : 0 <= i < g_size g -> exists iv, (forall x, possible s i x <-> finite x /\ lower iv <= x <= upper iv) /\
  (lower iv = - oo \/ Z.abs (lower iv) <= B + N * B) /\ (upper iv = oo \/ Z.abs (upper iv) <= B + N * B) /\
  forall t, solution p h t -> In_ext (t i - t n) iv.
Proof.
  intros Hi. destruct (C101_slots_partial i Hi) as (iv & T & Es). exists iv.
  assert (Hn : 0 <= n < g_size h) by (unfold n in *; lia). assert (Hi' : 0 <= i < g_size h) by lia.
  pose proof (history_inv _ _ _ _ _ R H') as I'. split; [|split; [|split]].
  - intros x. unfold possible, In_set, In_iv. rewrite Es. split.
    + intros (l & El & q & Hq & Q). injection El as <-. destruct Hq as [<-|[]]. exact Q.
    + intros Q. exists [iv]. split; auto. exists iv. split; [left; auto|exact Q].
  - rewrite timespan_ok in T by (auto; apply I'). injection T as <-. cbn [lower upper].
    pose proof (bd p (N + 1) B ks' h R H' n i Hn Hi') as B1. replace ((N + 1) * B) with (B + N * B) in B1 by ring. unfold n, bnd in *. lia.
  - rewrite timespan_ok in T by (auto; apply I'). injection T as <-. cbn [lower upper].
    pose proof (bd p (N + 1) B ks' h R H' i n Hi' Hn) as B2. replace ((N + 1) * B) with (B + N * B) in B2 by ring. unfold n, bnd in *. lia.
  - intros t S. destruct (S n i Hn Hi') as (iv' & T' & Q). unfold n in T'. rewrite T in T'. injection T' as <-. exact Q.
Qed.

(** A deadline or a startline is accepted iff the graph accepts the constraints from the
    origin to all the instants. *)
(** Partial: as C101_slots_partial. *)
Theorem C101_limits_partial : forall r, (exists d, Z.abs d <= B /\ (r = RLate d \/ r = REarly d)) -> 0 < g_size g ->
  exists s' a h' a', asked p s r = Ret (s', a) /\ g_extend p h None (from_origin n n r) = Ret (h', a') /\
    (accepted a <-> accepted a') /\
    (accepted a -> made p g (narrow_r B) (r :: rs) s' /\ history p (N + 1) B (from_origin n n r ++ ks') h' /\
       g_size h' = g_size g + 1).
Proof.
  intros r (d & Hd & Hr) Pos. pose proof og_margins as Mg. pose proof (narrow_session _ _ _ _ _ Ma) as Se.
  pose proof (history_inv _ _ _ _ _ R H') as I'. pose proof (i_size _ _ _ _ I') as Sn.
  assert (Kr : narrow_r B r) by (destruct Hr as [-> | ->]; exact Hd).
  assert (Gk : Forall (good (N + 1) B) (from_origin n n r)).
  { destruct Hr as [-> | ->]; cbn [from_origin]; apply Forall_map, Forall_forall; intros i Hi; apply in_seq in Hi;
      unfold good, wf_iv, within; cbn [k_from k_to k_empty k_lo k_up lower upper]; unfold n in *; lia. }
  assert (In' : Forall (inside h) (from_origin n n r)).
  { destruct Hr as [-> | ->]; cbn [from_origin]; apply Forall_map, Forall_forall; intros i Hi; apply in_seq in Hi;
      unfold inside; cbn [k_from k_to]; unfold n in *; lia. }
  destruct (C44_extend_partial p (N + 1) B ks' h None _ R H' Gk Logic.I ltac:(discriminate)) as (h' & a' & E' & A' & _).
  assert (Q : exists s' a, asked p s r = Ret (s', a) /\
    (a = Recovered \/ accepted a) /\ (a = Recovered <-> exists i, 0 <= i < g_size g /\ forall x, possible s i x ->
       match r with RLate _ => d < x | _ => x < d end) /\
    (accepted a -> exists t, schedule p s t /\ meets g t r)).
  { destruct Hr as [-> | ->]; cbn [asked meets].
    - destruct (C84_deadline_partial p N B ks g B s og_room H ltac:(lia) ltac:(lia) Se d Pos ltac:(lia)) as (s' & a & E & A).
      destruct (C56_deadline_convex_partial p N B ks g B s og_room H ltac:(lia) ltac:(lia) Se d Hd) as (s2 & a2 & E2 & Sh & A2).
      rewrite E in E2. injection E2 as <- <-. exists s', a. split; auto. split; auto. split; auto. apply A.
    - destruct (C84_startline_partial p N B ks g B s og_room H ltac:(lia) ltac:(lia) Se d Pos ltac:(lia)) as (s' & a & E & A).
      destruct (C56_startline_convex_partial p N B ks g B s og_room H ltac:(lia) ltac:(lia) Se d Hd) as (s2 & a2 & E2 & Sh & A2).
      rewrite E in E2. injection E2 as <- <-. exists s', a. split; auto. split; auto. split; auto. apply A. }
  destruct Q as (s' & a & E & Sh & A & Ex). exists s', a, h', a'. split; auto. split; auto.
  assert (D : accepted a <-> accepted a').
  { rewrite A'. split.
    - intros Ac. destruct (Ex Ac) as (t & Sc & Me). 
      assert (Mu : made p g usual rs s) by (eapply made_weaken; [|exact Ma]; intros q; apply narrow_usual; lia).
      destruct (C52_history_proper p N B ks g og_room H) as (St & Pr).
      apply (C76_schedules p g rs s t St Pr Mu) in Sc. destruct Sc as (So & Fi & Mr).
      exists (fun i => if i =? n then 0 else t i).
      assert (Hk : match r with RKeep i _ => 0 <= i < n | _ => True end) by (destruct Hr as [-> | ->]; exact Logic.I).
      split; [apply (C40_solutions_partial p (N + 1) B ks' h _ R H'); now apply og_joint|].
      apply (sat_from n n B r _ g Kr); auto; try lia.
      + now rewrite Z.eqb_refl.
      + intros i Hi. replace (i =? n) with false by lia. auto.
      + now apply og_meets.
    - intros (t & So & Sa). destruct Sh as [Z0|Sh]; auto. exfalso. apply A in Z0. destruct Z0 as (i & Hi & F).
      destruct (og_slot i Hi) as (iv & Po & L1 & L2 & Iv). specialize (Iv t So). unfold In_ext in Iv.
      assert (M1 : 0 <= B + N * B) by lia. assert (M2 : B + N * B < oo) by lia.
      pose proof (clip_finite (B + N * B) (t i - t n) M1 M2) as Fv.
      pose proof (clip_in (lower iv) (upper iv) (B + N * B) (t i - t n) M1 M2 L1 L2 Iv) as Cv.
      specialize (F _ (proj2 (Po _) (conj Fv Cv))).
      assert (Sk : match r with RLate _ => t i - t n <= d | _ => d <= t i - t n end).
      { assert (Ii : In (Z.to_nat i) (seq 0 (Z.to_nat n))) by (apply in_seq; unfold n; lia).
        destruct Hr as [-> | ->]; cbn [from_origin] in Sa; rewrite Forall_map, Forall_forall in Sa; specialize (Sa _ Ii);
          unfold sat, In_ext in Sa; cbn [k_from k_to k_lo k_up lower upper] in Sa; rewrite Z2Nat.id in Sa by lia; lia. }
      assert (M3 : 0 <= N * B) by lia. clear - F Sk Hr Hd M1 M3. destruct Hr as [-> | ->]; lia. }
  split; auto. intros Ac. split; [eapply m_accepted; eauto|].
  split; [exact (h_extend p (N + 1) B ks' h None _ h' a' H' Gk Logic.I ltac:(discriminate) E' (proj1 D Ac))|].
  destruct (extend_any p (N + 1) B ks' h None _ R I' Gk Logic.I ltac:(discriminate)) as (h2 & a2 & E2 & Sh2).
  rewrite E' in E2. injection E2 as <- <-. apply D in Ac.
  destruct Sh2 as [(_ & Q & _)|[(Q & _)|(Q & _)]]; [|discriminate|destruct Ac; congruence].
  rewrite Q, <- Sz. clear - In'. unfold ksize. revert In'. generalize (from_origin n n r). intros l F.
  induction F as [|k l [F1 F2] F IH]; auto. cbn [fold_left]. replace (Z.max _ _) with (g_size h) by lia. exact IH.
Qed.
End Origin.

Definition hA : graph := mkG 4 [0; - 48; 0; 3; - 68; - 20; 0; 0; 3; - 48; 0; 0; 0; - 20; - 20; - 17].
Lemma hA_history p : history p 4 200 (from_origin 3 3 (RLate 20) ++ from_origin 3 3 rC ++ ksA) hA.
Proof.
  assert (D : Forall (good 4 200) ksA /\ Forall (good 4 200) (from_origin 3 3 rC) /\ Forall (good 4 200) (from_origin 3 3 (RLate 20))).
  { change (from_origin 3 3 rC) with [mkK 3 1 false 0 100].
    change (from_origin 3 3 (RLate 20)) with [mkK 3 0 false (- oo) 20; mkK 3 1 false (- oo) 20; mkK 3 2 false (- oo) 20].
    split; [|split]; unfold ksA, kk;
      repeat (match goal with |- Forall _ (_ :: _) => apply Forall_cons | |- Forall _ [] => apply Forall_nil end);
      unfold good, wf_iv, within, oo; cbn; lia. }
  destruct D as (D1 & D2 & D3).
  apply (h_extend p 4 200 _ (mkG 4 [0; -48; 0; 3; -108; -60; 0; 0; 3; -48; 0; 0; 0; -160; -100; -97]) None _ _ Propagated);
    [|exact D3|exact Logic.I|discriminate|destruct p; vm_compute; reflexivity|right; reflexivity].
  apply (h_extend p 4 200 _ (mkG 4 [0; -48; 0; 3; -108; -60; 0; 0; 3; -oo; -oo; -oo; 0; -oo; -oo; -oo]) None _ _ Propagated);
    [|exact D2|exact Logic.I|discriminate|destruct p; vm_compute; reflexivity|right; reflexivity].
  replace ksA with (ksA ++ []) by apply app_nil_r.
  apply (h_extend p 4 200 [] (mkG 4 [0; -oo; 0; -oo; -oo; -oo; 0; -oo; -oo; -oo; -oo; -oo; 0; -oo; -oo; -oo]) None _ _ Propagated);
    [|exact D1|exact Logic.I|discriminate|destruct p; vm_compute; reflexivity|right; reflexivity].
  apply (h_new p 4 200 4); [lia|destruct p; vm_compute; reflexivity].
Qed.
Lemma cA2_made200 p : made p gA (narrow_r 200) [RLate 20; rC] cA2.
Proof.
  apply m_accepted with (s := cA1) (a := Propagated);
    [apply m_accepted with (s := sc_new gA) (a := Propagated); [constructor| |apply cA1_step|right; reflexivity]
    | |apply cA2_step|right; reflexivity].
  - split; [lia|]. apply narrow_incl; unfold oo; lia.
  - cbn. lia.
Qed.
Example C101_case : forall p, room (3 + 1) 200 /\ 16 * (3 + 1) * 200 + 10 < oo /\ history p 3 200 ksA gA /\
  made p gA (narrow_r 200) [RLate 20; rC] cA2 /\ g_size hA = g_size gA + 1 /\
  history p (3 + 1) 200 (from_origin 3 3 (RLate 20) ++ from_origin 3 3 rC ++ ksA) hA /\
  (forall k, In k (from_origin 3 3 (RLate 20) ++ from_origin 3 3 rC ++ ksA) <->
    In k ksA \/ exists r, In r [RLate 20; rC] /\ In k (from_origin (g_size gA) (g_size gA) r)) /\
  g_timespan p hA 3 0 = Ret (mkI (-48) 17) /\ sc_scheduling cA2 0 = Some [mkI (-48) 17].
Proof.
  intros p. split; [unfold room, oo; lia|]. split; [unfold oo; lia|]. split; [apply histA|]. split; [apply cA2_made200|].
  split; [reflexivity|]. split; [apply hA_history|]. split; [|destruct p; split; reflexivity].
  intros k. rewrite !in_app_iff. change (g_size gA) with 3. split.
  - intros [Hk|[Hk|Hk]]; auto; right; [exists (RLate 20)|exists rC]; cbn [In]; auto.
  - intros [Hk|(r & [<-|[<-|[]]] & Hk)]; auto.
Qed.

Print Assumptions C101_slots_partial.
Print Assumptions C101_retain_partial.
Print Assumptions C101_limits_partial.
