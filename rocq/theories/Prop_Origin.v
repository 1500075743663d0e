(** C99: the choice of the origin of time does not matter. *)
From Verif Require Import Machine TimeValue Spec Tac TimeValueProofs Interval Iter TimeSet Relns
  Transl SpecSets Graph SpecGraph GraphInv Scheduler SpecSched SetProofs CollectProofs Prop_Interval SetOpsProofs Prop_TimeSet Prop_Transl OriginProofs OriginSched.

(** ** Sets *)

(** Moving both operands moves the result: union, intersection, complement, exclusion and
    collection.  The lists need not be canonical, and a call that would panic panics. *)
Theorem C99_sets : forall v D a b, D + 1 + Z.abs v < oo -> in_set D a -> in_set D b ->
  set_or (move v a) (move v b) = omap (move v) (set_or a b) /\
  set_and (move v a) (move v b) = omap (move v) (set_and a b) /\
  set_not (move v a) = move v (set_not a) /\
  from_iter (move v a) = omap (move v) (from_iter a).
Proof.
  intros v D a b R Ha Hb. split; [|split; [|split]].
  - now apply (or_sim D v R).
  - now apply (and_sim D v R).
  - now apply (not_sim D v R).
  - now apply (from_iter_sim D v R).
Qed.
Example C99_sets_case :
  set_or (move 100 [mkI 1 3; mkI 7 oo]) (move 100 [mkI 2 5]) = Ret (move 100 [mkI 1 5; mkI 7 oo]) /\
  set_and (move (-9) [mkI 1 3; mkI 7 oo]) (move (-9) [mkI 2 8]) = Ret [mkI (-7) (-6); mkI (-2) (-1)] /\
  set_not (move 4 [mkI 1 3; mkI 7 oo]) = [mkI (- oo) 4; mkI 8 10].
Proof. vm_compute. auto. Qed.

(** The same with a convex window as second operand, and for truncations *)
Theorem C99_convex : forall v D a c, 0 <= D -> D + 2 + Z.abs v < oo -> in_set D a -> in_cx D c ->
  set_or_cx (move v a) (move_cx v c) = omap (move v) (set_or_cx a c) /\
  set_and_cx (move v a) (move_cx v c) = omap (move v) (set_and_cx a c) /\
  set_and_assign (move v a) (move_cx v c) = move v (set_and_assign a c).
Proof.
  intros v D a c D0 R Ha Hc.
  destruct (cx_into_sim D v ltac:(lia) c Hc) as [E K].
  destruct (into_iter_sim (D + 1) v ltac:(lia) _ K) as [E1 K1].
  assert (Ha' : in_set (D + 1) a) by (eapply in_set_up; [|exact Ha]; lia).
  unfold set_or_cx, set_and_cx. rewrite E, E1. split; [|split].
  - destruct (union_list_sim (D + 1) v ltac:(lia) a _ Ha' K1) as [E2 K2]. rewrite E2.
    destruct (union_list a _) as [u| | |]; try reflexivity. cbn [omap bind].
    apply (from_iter_sim (D + 1) v ltac:(lia)). now apply K2.
  - destruct (inter_list_sim (D + 1) v ltac:(lia) a _ Ha' K1) as [E2 K2]. rewrite E2.
    destruct (inter_list a _) as [u| | |]; try reflexivity. cbn [omap bind].
    apply (from_iter_sim (D + 1) v ltac:(lia)). now apply K2.
  - now apply (and_assign_move v D).
Qed.
Example C99_convex_case :
  set_or_cx (move 50 [mkI 1 3]) (move_cx 50 (CRange 4 9)) = Ret (move 50 [mkI 1 8]) /\
  set_and_assign (move 50 [mkI 1 3; mkI 7 9]) (move_cx 50 (CRangeFrom 2)) = [mkI 52 53; mkI 57 59].
Proof. vm_compute. auto. Qed.

(** The answers of the relations do not change. *)
Theorem C99_relations : forall v D a b c d w i, D + 1 + Z.abs v < oo ->
  in_set D a -> in_set D b -> in_cx D c -> in_cx D d -> in_w D w -> in_iv D i ->
  set_contains (move v a) (move v b) = set_contains a b /\
  set_contains_cx (move v a) (move_cx v c) = set_contains_cx a c /\
  cx_contains (move_cx v c) (move_w v w) = cx_contains c w /\
  set_overlaps (move v a) (move v b) = set_overlaps a b /\
  set_overlaps_cx (move v a) (move_cx v c) = set_overlaps_cx a c /\
  cx_overlaps (move_cx v c) (move_cx v d) = cx_overlaps c d /\
  set_eq (move v a) (move_w v w) = set_eq a w /\ iv_eq (move_iv v i) (move_w v w) = iv_eq i w /\
  set_partial_cmp (move v a) (move_w v w) = set_partial_cmp a w /\
  iv_partial_cmp (move_iv v i) (move_w v w) = iv_partial_cmp i w.
Proof.
  intros v D a b c d w i R Ha Hb Hc Hd Hw Hi.
  split; [now apply (contains_sim D)|]. split; [now apply (contains_cx_sim D)|].
  split; [now apply (cx_contains_sim D)|]. split; [now apply (overlaps_sim D)|].
  split; [now apply (overlaps_cx_sim D)|]. split; [now apply (cx_overlaps_sim D)|].
  split; [now apply (set_eq_sim D)|]. split; [now apply (iv_eq_sim D)|]. split.
  - unfold set_partial_cmp. rewrite (set_eq_sim D v R a w Ha Hw).
    destruct (lower_sim D v a Ha) as [-> K1]. destruct (upper_sim D v a Ha) as [-> K2].
    now apply (bd_cmp_sim D).
  - unfold iv_partial_cmp. rewrite (iv_eq_sim D v R i w Hi Hw). destruct Hi. now apply (bd_cmp_sim D).
Qed.
Example C99_relations_case :
  set_contains (move (-3) [mkI 1 9]) (move (-3) [mkI 2 3; mkI 5 9]) = true /\
  set_overlaps_cx (move 7 [mkI 1 2; mkI 8 9]) (move_cx 7 (CRangeIncl 3 7)) = false /\
  set_partial_cmp (move 7 [mkI 1 2]) (move_w 7 (WCx (CPoint 4))) = Some Lt.
Proof. vm_compute. auto. Qed.

(** The code moves sets in this way too: [S + v] is the moved set; hence [(A + v) | (B + v)]
    is [(A | B) + v] whenever the union is canonical, and so on. *)
Theorem C99_add : forall p v D a, D + 1 + Z.abs v < oo -> 0 <= D -> in_set D a -> canonical a ->
  set_add_v p a v = Ret (move v a).
Proof.
  intros p v D a R D0 Ha C. unfold set_add_v, move.
  assert (Q : forall i, In i a -> iv_add_v p i v = Ret (move_iv v i)).
  { intros i Hi. assert (W : wf_iv i) by exact (canonical_In _ _ C Hi).
    destruct (Ha i Hi) as [H1 H2]. unfold iv_add_v.
    assert (A : forall x, within D x -> tv_add x v = Ret (shift x v)).
    { intros x Hx. rewrite tv_add_shift; auto.
      - unfold valid, within in *. lia.
      - unfold finite. lia. }
    rewrite !A by assumption. cbn [bind]. unfold iv_checked.
    destruct (new_move D v (lower i) (upper i) ltac:(lia) H1 H2) as [E _]. rewrite E.
    assert (N : iv_new (lower i) (upper i) = i).
    { unfold wf_iv in W. unfold iv_new. destruct (Z.compare_spec (lower i) (upper i)) as [E1|E1|E1]; try lia.
      - unfold iv_singleton. destruct i as [x y]. cbn [lower upper] in *. subst y.
        replace (is_finite x) with true by (pts; lia). reflexivity.
      - now destruct i. }
    rewrite N. replace (iv_is_empty (move_iv v i)) with false.
    - destruct p; reflexivity.
    - unfold iv_is_empty, move_iv. cbn [lower]. rewrite (sh_fut D v R) by now apply ok_up.
      unfold wf_iv in W. pts. lia. }
  clear C Ha. induction a as [|i r IH]; auto. cbn [omapM map]. rewrite Q by now left. cbn [bind].
  rewrite IH; auto. intros j Hj. apply Q. now right.
Qed.
Example C99_add_case : set_add_v Debug [mkI 1 3; mkI 7 oo] 100 = Ret (move 100 [mkI 1 3; mkI 7 oo]) /\
  move 100 [mkI 1 3; mkI 7 oo] = [mkI 101 103; mkI 107 oo].
Proof. vm_compute. auto. Qed.

(** ** The scheduler *)

(** The public calls on a scheduler, and the results of a list of them *)
Inductive call := Retain (i : Z) (w : window) | Remove (i : Z) (h : hole) | Deadline (d : Z) | Startline (d : Z).
Definition do_call (p : profile) (s : sched) (c : call) : outcome (sched * presult) :=
  match c with
  | Retain i w => sc_retain p s i w
  | Remove i h => sc_remove p s i h
  | Deadline d => sc_set_deadline p s d
  | Startline d => sc_set_startline p s d
  end.
Fixpoint do_calls (p : profile) (s : sched) (cs : list call) : outcome (sched * list presult) :=
  match cs with
  | [] => Ret (s, [])
  | c :: r =>
    x <- do_call p s c ;;
    y <- do_calls p (fst x) r ;;
    Ret (fst y, snd x :: snd y)
  end.
Definition move_call (v : Z) (c : call) : call :=
  match c with
  | Retain i w => Retain i (move_w v w)
  | Remove i h => Remove i (move_h v h)
  | Deadline d => Deadline (shift d v)
  | Startline d => Startline (shift d v)
  end.
Definition in_call (W : Z) (c : call) : Prop :=
  match c with
  | Retain i w => 0 <= i /\ in_w W w
  | Remove i h => 0 <= i /\ in_h W h
  | Deadline d | Startline d => within W d
  end.
(** the number of instants restricted by a call *)
Definition weight (g : graph) (c : call) : Z :=
  match c with Retain _ _ | Remove _ _ => 1 | Deadline _ | Startline _ => g_size g end.
Fixpoint weights (g : graph) (cs : list call) : Z :=
  match cs with [] => 0 | c :: r => weight g c + weights g r end.

Lemma set_length ls i x m : slot_set ls i x = Ret m -> length m = length ls.
Proof.
  unfold slot_set. destruct (nth_error ls (Z.to_nat i)) eqn:E; [|discriminate]. intros M.
  assert (Q : firstn (Z.to_nat i) ls ++ x :: skipn (S (Z.to_nat i)) ls = m) by (injection M; auto). subst m.
  assert (L : (Z.to_nat i < length ls)%nat) by (apply nth_error_Some; congruence).
  rewrite app_length, firstn_length. cbn [length]. rewrite skipn_length. lia.
Qed.
Lemma fold_length p g i ks : forall ls m, ofold (sc_step p g i) ls ks = Ret m -> length m = length ls.
Proof.
  induction ks as [|a r IH]; intros ls m; cbn [ofold].
  - intros E. inv E. auto.
  - destruct (sc_step p g i ls a) as [l1| | |] eqn:E; cbn [bind]; try discriminate.
    intros M. rewrite (IH _ _ M). revert E. unfold sc_step.
    destruct (k_of_graph p g (fst a) (snd a)); cbn [bind]; try discriminate.
    destruct (slot_get ls (snd a)); cbn [bind]; try discriminate.
    destruct (slot_get ls i) as [si| | |]; cbn [bind]; try discriminate.
    destruct (set_add_span p si _); cbn [bind]; try discriminate.
    destruct (inter_list _ _); cbn [bind]; try discriminate.
    destruct (from_iter _); cbn [bind]; try discriminate. apply set_length.
Qed.
Lemma retain_length p s i w s' r : sc_retain p s i w = Ret (s', r) -> length (sc_slots s') = length (sc_slots s).
Proof.
  unfold sc_retain. destruct (assert_ _); cbn [bind]; try discriminate.
  destruct (slot_get (sc_slots s) i); cbn [bind]; try discriminate.
  destruct (w_contains w a0); [intros M; inv M; auto|].
  destruct (negb (w_overlaps w a0)); [intros M; inv M; auto|].
  destruct (slot_and a0 w); cbn [bind]; try discriminate.
  destruct (slot_set (sc_slots s) i a1) as [l1| | |] eqn:E1; cbn [bind]; try discriminate.
  destruct (sc_propagate p (sc_graph s) l1 i) as [l2| | |] eqn:E2; cbn [bind]; try discriminate.
  intros M. inv M. cbn [sc_slots]. rewrite <- (set_length _ _ _ _ E1). revert E2. unfold sc_propagate.
  destruct (debug_assert _ _); cbn [bind]; try discriminate.
  destruct (g_constraints_from p (sc_graph s) i); cbn [bind]; try discriminate. apply fold_length.
Qed.
Lemma retain_all_length p w : forall ns x y,
  ofold (fun '(s, res) n =>
    r <- sc_retain p s (Z.of_nat n) w ;;
    let '(s1, x) := r in
    match x with
    | Unchanged => Ret (s1, res)
    | Propagated => Ret (s1, Propagated)
    | Recovered | Fatal => Panic
    end) x ns = Ret y -> length (sc_slots (fst y)) = length (sc_slots (fst x)).
Proof.
  induction ns as [|n r IH]; intros [s res] y; cbn [ofold].
  - intros M. inv M. auto.
  - destruct (sc_retain p s (Z.of_nat n) w) as [[s1 x]| | |] eqn:E; cbn [bind]; try discriminate.
    apply retain_length in E. destruct x; cbn [bind]; try discriminate; intros M; apply IH in M; cbn [fst] in *; lia.
Qed.

Section Session.
  Variables (p : profile) (g : graph) (B v : Z).
  Hypothesis St : stored g.
  Hypothesis G : in_graph B p g.
  Hypothesis B0 : 0 <= B.

  Lemma retain_all_sim D ls w : 0 <= D -> in_slots D ls -> in_w D w -> Z.of_nat (length ls) = g_size g ->
    D + g_size g * (2 * B + 2) + 2 + Z.abs v < oo ->
    sc_retain_all p (mkS g (move_slots v ls)) (move_w v w) =
      omap (fun '(s, r) => (move_s v s, r)) (sc_retain_all p (mkS g ls) w) /\
    forall s r, sc_retain_all p (mkS g ls) w = Ret (s, r) ->
      sc_graph s = g /\ in_slots (D + g_size g * (2 * B + 2)) (sc_slots s) /\ length (sc_slots s) = length ls.
  Proof.
    intros D0 H Hw L S. unfold sc_retain_all. cbn [sc_slots]. unfold move_slots at 2. rewrite map_length.
    destruct (retain_all_move p g B v G B0 St w (seq 0 (length ls)) D ls Unchanged) as [E K]; auto.
    { rewrite seq_length, L. exact S. }
    split; [exact E|]. intros s r M. destruct (K s r M) as [K1 K2]. rewrite seq_length, L in K2.
    split; auto. split; auto. apply retain_all_length in M. exact M.
  Qed.
  Lemma lower_tests D ls d : D + 1 + Z.abs v < oo -> in_slots D ls -> within D d ->
    existsb (fun tw => shift d v <? set_lower tw) (move_slots v ls) = existsb (fun tw => d <? set_lower tw) ls /\
    existsb (fun tw => set_upper tw <? shift d v) (move_slots v ls) = existsb (fun tw => set_upper tw <? d) ls.
  Proof.
    intros S H Hd. induction ls as [|l r IH]; auto. cbn [move_slots map existsb].
    destruct IH as [I1 I2]; [intros x Hx; apply H; now right|]. unfold move_slots in *. rewrite I1, I2.
    destruct (lower_sim D v l (H l (or_introl eq_refl))) as [-> K1].
    destruct (upper_sim D v l (H l (or_introl eq_refl))) as [-> K2].
    split; f_equal; apply (sh_ltb D v S); apply ok_up; assumption.
  Qed.
  Lemma call_sim D ls c : 0 <= D -> in_slots D ls -> in_call D c -> Z.of_nat (length ls) = g_size g ->
    D + weight g c * (2 * B + 2) + 2 + Z.abs v < oo ->
    do_call p (mkS g (move_slots v ls)) (move_call v c) =
      omap (fun '(s, r) => (move_s v s, r)) (do_call p (mkS g ls) c) /\
    forall s r, do_call p (mkS g ls) c = Ret (s, r) ->
      sc_graph s = g /\ in_slots (D + weight g c * (2 * B + 2)) (sc_slots s) /\ length (sc_slots s) = length ls.
  Proof.
    intros D0 H Hc L S. assert (N0 : 0 <= g_size g * (2 * B + 2)) by (apply Z.mul_nonneg_nonneg; lia).
    assert (same : sc_graph (mkS g ls) = g /\ in_slots (D + g_size g * (2 * B + 2)) ls /\ length ls = length ls).
    { split; auto. split; auto. eapply in_slots_up; [|exact H]. lia. }
    destruct c as [i w|i h|d|d]; cbn [do_call move_call weight in_call] in *.
    - destruct Hc as [Hi Hw]. destruct (retain_move p g B v G B0 St D ls i w) as [E K]; auto; [lia|].
      split; auto. intros s r M. destruct (K s r M) as [K1 K2]. split; auto. split.
      + eapply in_slots_up; [|exact K2]. lia.
      + now apply retain_length in M.
    - destruct Hc as [Hi Hh]. destruct (remove_move p g B v G B0 St D ls i h) as [E K]; auto; [lia|].
      split; auto. intros s r M. destruct (K s r M) as [K1 K2]. split; auto. split.
      + eapply in_slots_up; [|exact K2]. lia.
      + now apply retain_length in M.
    - unfold sc_set_deadline. cbn [sc_slots].
      destruct (lower_tests D ls d) as [-> _]; auto; [lia|].
      destruct (existsb _ ls).
      + split; [reflexivity|]. intros s r M. inv M. exact same.
      + now apply (retain_all_sim D ls (WCx (CRangeToIncl d))).
    - unfold sc_set_startline. cbn [sc_slots].
      destruct (lower_tests D ls d) as [_ ->]; auto; [lia|].
      destruct (existsb _ ls).
      + split; [reflexivity|]. intros s r M. inv M. exact same.
      + now apply (retain_all_sim D ls (WCx (CRangeFrom d))).
  Qed.
  Lemma in_cx_up D E c : D <= E -> in_cx D c -> in_cx E c.
  Proof.
    intros S. destruct c; cbn; intros H; try (eapply within_up; eauto; fail);
      try (eapply in_iv_up; eauto; fail); destruct H; split; eapply within_up; eauto.
  Qed.
  Lemma in_call_up D E c : D <= E -> in_call D c -> in_call E c.
  Proof.
    intros S. destruct c as [i [c|l]|i [l|j|t]|d|d]; cbn; try (intros [H1 H2]; split; auto);
      try (eapply in_cx_up; eauto; fail); try (eapply in_set_up; eauto; fail);
      try (eapply in_iv_up; eauto; fail); try (eapply within_up; eauto).
  Qed.
  Lemma weights_pos cs : 0 <= g_size g -> 0 <= weights g cs.
  Proof. intros N. induction cs as [|c r IH]; cbn; [lia|]. destruct c; cbn; lia. Qed.
  Lemma calls_sim : forall cs D ls, 0 <= D -> in_slots D ls -> (forall c, In c cs -> in_call D c) ->
    Z.of_nat (length ls) = g_size g -> D + weights g cs * (2 * B + 2) + 2 + Z.abs v < oo ->
    do_calls p (mkS g (move_slots v ls)) (map (move_call v) cs) =
      omap (fun '(s, r) => (move_s v s, r)) (do_calls p (mkS g ls) cs) /\
    forall s r, do_calls p (mkS g ls) cs = Ret (s, r) ->
      in_slots (D + weights g cs * (2 * B + 2)) (sc_slots s).
  Proof.
    induction cs as [|c r IH]; intros D ls D0 H Hc L S; cbn [map do_calls weights] in *.
    - split; [reflexivity|]. intros s x M. inv M. eapply in_slots_up; [|exact H]. lia.
    - pose proof (weights_pos r ltac:(lia)) as W1.
      assert (W2 : 0 <= weights g r * (2 * B + 2)) by (apply Z.mul_nonneg_nonneg; lia).
      assert (W3 : 0 <= weight g c * (2 * B + 2)) by (apply Z.mul_nonneg_nonneg; destruct c; cbn; lia).
      destruct (call_sim D ls c) as [E K]; auto; [apply Hc; now left|lia|]. rewrite E.
      destruct (do_call p (mkS g ls) c) as [[[g1 l1] x]| | |]; cbn [bind omap]; try (split; [reflexivity|discriminate]).
      destruct (K _ _ eq_refl) as (K1 & K2 & K3). cbn [sc_graph sc_slots fst snd] in *. subst g1.
      destruct (IH (D + weight g c * (2 * B + 2)) l1) as [E2 I2]; auto; try lia.
      { intros d Hd. eapply in_call_up; [|apply Hc; now right]. lia. }
      unfold move_s at 1. cbn [sc_graph sc_slots]. rewrite E2.
      destruct (do_calls p (mkS g l1) r) as [[s y]| | |]; cbn [bind omap fst snd]; try (split; [reflexivity|discriminate]).
      split; [reflexivity|]. intros s0 r0 M. inv M. specialize (I2 _ _ eq_refl).
      eapply in_slots_up; [|exact I2]. lia.
  Qed.
End Session.

(** Every list of calls on a new scheduler of any graph: if all the windows are moved by
    [v], the same answers come back, the slots of every instant are moved by [v], and a
    panic stays a panic; in particular the dates of the schedules are moved.  [B] bounds the
    finite bounds stored in the graph, [W] those of the windows. *)
Theorem C99_scheduler : forall p g B W v cs, stored g -> in_graph B p g -> 0 <= B -> 0 <= W ->
  (forall c, In c cs -> in_call W c) -> W + weights g cs * (2 * B + 2) + 2 + Z.abs v < oo ->
  do_calls p (sc_new g) (map (move_call v) cs) =
    omap (fun '(s, r) => (move_s v s, r)) (do_calls p (sc_new g) cs).
Proof.
  intros p g B W v cs St G B0 W0 Hc S. unfold sc_new.
  assert (N : 0 <= g_size g) by (unfold stored in St; lia).
  destruct (calls_sim p g B v St G B0 cs W (repeat set_all (Z.to_nat (g_size g)))) as [E _]; auto.
  - intros l Hl. apply repeat_spec in Hl. subst l. apply in_set_cons. split; [apply in_all|apply in_set_nil].
  - rewrite repeat_length. lia.
  - rewrite <- E. f_equal. f_equal. generalize (Z.to_nat (g_size g)). intros n. induction n as [|n IH]; auto. cbn [repeat move_slots map]. f_equal. exact IH.
Qed.
Example C99_scheduler_case :
  let g := mkG 2 [0; - 5; 0; 2] in
  let cs := [Retain 0 (WCx (CRange 10 21)); Remove 1 (HPoint 15); Deadline 20; Retain 1 (WSet [mkI 90 95])] in
  stored g /\ in_graph 5 Debug g /\ (forall c, In c cs -> in_call 95 c) /\
  do_calls Debug (sc_new g) cs = Ret (mkS g [[mkI 10 18]; [mkI 12 14; mkI 16 20]],
    [Propagated; Propagated; Propagated; Recovered]) /\
  do_calls Debug (sc_new g) (map (move_call 1000) cs) = Ret (mkS g [[mkI 1010 1018]; [mkI 1012 1014; mkI 1016 1020]],
    [Propagated; Propagated; Propagated; Recovered]).
Proof.
  cbv zeta. split; [|split; [|split; [|split]]].
  - unfold stored. cbn. lia.
  - intros i j x. unfold g_lower. destruct (g_idx Debug i j) as [k| | |]; try discriminate. cbn [bind].
    unfold vget. cbn [g_data]. destruct (Z.to_nat k) as [|[|[|[|n]]]]; cbn; try (intros E; inv E; left; lia).
    destruct n; discriminate.
  - intros c [<-|[<-|[<-|[<-|[]]]]]; cbn; unfold within; try lia.
    split; [lia|]. intros i [<-|[]]. split; left; cbn; lia.
  - vm_compute. reflexivity.
  - vm_compute. reflexivity.
Qed.

(** The earliest end and the latest beginning move too. *)
Theorem C99_bounds : forall p g B W v cs s r, stored g -> in_graph B p g -> 0 <= B -> 0 <= W ->
  (forall c, In c cs -> in_call W c) -> W + weights g cs * (2 * B + 2) + 2 + Z.abs v < oo ->
  do_calls p (sc_new g) cs = Ret (s, r) ->
  sc_latest_beginning (move_s v s) = omap (fun x => shift x v) (sc_latest_beginning s) /\
  sc_earliest_ending (move_s v s) = omap (fun x => shift x v) (sc_earliest_ending s).
Proof.
  intros p g B W v cs s r St G B0 W0 Hc S E.
  assert (N : 0 <= g_size g) by (unfold stored in St; lia).
  destruct (calls_sim p g B v St G B0 cs W (repeat set_all (Z.to_nat (g_size g)))) as [_ K]; auto.
  { intros l Hl. apply repeat_spec in Hl. subst l. apply in_set_cons. split; [apply in_all|apply in_set_nil]. }
  { rewrite repeat_length. lia. }
  specialize (K s r E). set (D := W + weights g cs * (2 * B + 2)) in *. clearbody D.
  unfold sc_latest_beginning, sc_earliest_ending, move_s. cbn [sc_slots].
  destruct (sc_slots s) as [|l ls]; [split; reflexivity|]. cbn [move_slots map].
  destruct (upper_sim D v l (K l (or_introl eq_refl))) as [-> U]. destruct (lower_sim D v l (K l (or_introl eq_refl))) as [-> L].
  cbn [omap bind].
  assert (Q1 : forall m a, (forall x, In x m -> in_set D x) -> within D a ->
    fold_left Z.min (map set_upper (map (move v) m)) (shift a v) = shift (fold_left Z.min (map set_upper m) a) v).
  { induction m as [|x m IH]; intros a Hm Ha; auto. cbn [map fold_left].
    destruct (upper_sim D v x (Hm x (or_introl eq_refl))) as [-> X].
    rewrite (sh_min D v ltac:(lia)) by (apply ok_up; assumption). apply IH; [intros; apply Hm; now right|].
    now apply within_min. }
  assert (Q2 : forall m a, (forall x, In x m -> in_set D x) -> within D a ->
    fold_left Z.max (map set_lower (map (move v) m)) (shift a v) = shift (fold_left Z.max (map set_lower m) a) v).
  { induction m as [|x m IH]; intros a Hm Ha; auto. cbn [map fold_left].
    destruct (lower_sim D v x (Hm x (or_introl eq_refl))) as [-> X].
    rewrite (sh_max D v ltac:(lia)) by (apply ok_up; assumption). apply IH; [intros; apply Hm; now right|].
    now apply within_max. }
  split; f_equal; [apply Q1|apply Q2]; auto; intros x Hx; apply K; now right.
Qed.
Example C99_bounds_case :
  let s := mkS (mkG 2 [0; - 5; 0; 2]) [[mkI 10 18]; [mkI 12 14; mkI 16 20]] in
  do_calls Debug (sc_new (mkG 2 [0; - 5; 0; 2])) [Retain 0 (WCx (CRange 10 21)); Remove 1 (HPoint 15); Deadline 20] =
    Ret (s, [Propagated; Propagated; Propagated]) /\
  sc_latest_beginning (move_s 1000 s) = Ret 1018 /\ sc_earliest_ending (move_s 1000 s) = Ret 1012.
Proof. vm_compute. auto. Qed.

(** Without the margin it is false: bounds that reach an end of the range are merged with
    infinity. *)
Theorem C99_margin_refuted : exists v a b, canonical a /\ canonical b /\
  (forall i, In i (a ++ b) -> finite (lower i) /\ finite (upper i)) /\
  set_or (move v a) (move v b) <> omap (move v) (set_or a b).
Proof.
  exists 9, [mkI 0 (oo - 6)], [mkI (oo - 3) (oo - 1)]. split; [|split; [|split]].
  - cbn. unfold wf_iv; cbn [lower upper]. pts. lia.
  - cbn. unfold wf_iv; cbn [lower upper]. pts. lia.
  - intros i [<-|[<-|[]]]; cbn; pts; lia.
  - vm_compute. discriminate.
Qed.
