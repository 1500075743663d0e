(** The scheduler restricted by intervals: the dates of each instant form one interval, and
    the intervals are boxes of [SchedBox]. *)
From Verif Require Import Machine TimeValue Spec Tac TimeValueProofs Interval Iter TimeSet Relns
  Transl SpecSets SetProofs CollectProofs Prop_Interval SetOpsProofs Prop_TimeSet Prop_Transl SchedSets
  Graph MaxPlus GraphProofs SpecGraph GraphInv GraphIter Prop_Graph Prop_GraphIter Scheduler SpecSched
  SchedProofs SchedBox.

Definition apart1 (a b : Z) : Prop := a = - oo \/ b = - oo \/ a + b <= 0.
Definition piece (a b : Z) : tset := [mkI a (- b)].

Lemma piece_wf M a b : bnd M a -> bnd M b -> M < oo -> 0 <= M -> apart1 a b -> wf_iv (mkI a (- b)).
Proof. unfold bnd, apart1, wf_iv, oo. simpl. lia. Qed.
Lemma max_bnd M a b : bnd M a -> bnd M b -> 0 <= M -> M < oo -> bnd M (Z.max a b).
Proof. unfold bnd. lia. Qed.

(** ** One step *)

Lemma or_single k : wf_iv k -> set_or_cx [] (CIv k) = Ret [k].
Proof.
  intros W. unfold set_or_cx. cbn [cx_into]. unfold iv_into_iter, iv_is_empty, is_future_infinite.
  destruct k as (lo & up). cbn [lower upper] in *. unfold wf_iv in W; cbn [lower upper] in W.
  change INF with oo. replace (lo =? oo) with false by lia.
  unfold union_list, union_collect, union_init, union_fuel. cbn.
  unfold set_of_convex. cbn. unfold iv_is_empty, is_future_infinite. cbn.
  change INF with oo. replace (lo =? oo) with false by lia. reflexivity.
Qed.
Lemma add_single p a b D E M C : bnd M a -> bnd M b -> apart1 a b -> bnd C D -> bnd C E -> apart1 D E ->
  0 <= M -> 0 <= C -> M + C < oo ->
  set_add_span p (piece a b) (mkI D (- E)) = Ret (piece (esum a D) (esum b E)) /\
  wf_iv (mkI (esum a D) (- esum b E)).
Proof.
  intros Ba Bb Ab BD BE AD M0 C0 L. unfold set_add_span, piece. cbn [ofold].
  assert (Wi : wf_iv (mkI a (- b))) by (apply (piece_wf M); auto; lia).
  assert (Wj : wf_iv (mkI D (- E))) by (apply (piece_wf C); auto; lia).
  assert (El : lsum a D = esum a D).
  { unfold lsum, esum, clamp, bnd, oo in *. tests; lia. }
  assert (Eu : usum (- b) (- E) = - esum b E).
  { unfold usum, esum, clamp, bnd, oo in *. tests; lia. }
  destruct (n_add_piece p (mkI a (- b)) (mkI D (- E)) (wf_near _ Wi) Wj) as [(k & -> & W & Ek)|(N & _)].
  - cbn [bind]. cbn [lower upper] in Ek. rewrite El, Eu in Ek. subst k. rewrite or_single by auto. auto.
  - exfalso. unfold sum_box in N. cbn [lower upper] in N. rewrite El, Eu in N.
    set (x := if esum a D =? - oo then if esum b E =? - oo then 0 else - esum b E else esum a D).
    apply (N x). subst x. unfold esum, finite, bnd, apart1, oo in *. tests; lia.
Qed.
Lemma cap_single a b c d M : bnd M a -> bnd M b -> bnd M c -> bnd M d -> 0 <= M -> M < oo ->
  apart1 a b -> apart1 c d -> apart1 (Z.max a c) (Z.max b d) ->
  exists u, inter_list (piece a b) (piece c d) = Ret u /\ from_iter u = Ret (piece (Z.max a c) (Z.max b d)).
Proof.
  intros Ba Bb Bc Bd M0 L A1 A2 A3.
  assert (W1 : wf_iv (mkI a (- b))) by (apply (piece_wf M); auto).
  assert (W2 : wf_iv (mkI c (- d))) by (apply (piece_wf M); auto).
  assert (W3 : wf_iv (mkI (Z.max a c) (- Z.max b d))) by (apply (piece_wf M); auto using max_bnd).
  assert (N : forall k, wf_iv k -> near_from low [k]).
  { intros k W. cbn. pose proof (wf_near k W). unfold near, low in *. split; [lia|]. split; auto; lia. }
  exists (piece (Z.max a c) (Z.max b d)).
  rewrite (n_inter_list_caps (piece a b) (piece c d) low low) by (apply N; auto). split.
  - f_equal. unfold piece. cbn [all_caps app]. rewrite app_nil_r. unfold caps. cbn [filter].
    replace (touch (mkI a (- b)) (mkI c (- d))) with true.
    + cbn [map]. unfold cap. cbn [lower upper]. do 2 f_equal. lia.
    + unfold touch. cbn [lower upper]. unfold wf_iv in *. cbn [lower upper] in *. symmetry. lia.
  - apply (n_from_iter low). apply N. auto.
Qed.

Lemma step_single p g i j l M C A B P Q : mem_ok g -> Z.of_nat (length l) = g_size g ->
  node (g_size g) i -> node (g_size g) j -> all_bnd (g_size g) C (cell g) ->
  apart1 (cell g i j) (cell g j i) -> 0 <= M -> 0 <= C -> M + C < oo ->
  sl l i = piece A B -> sl l j = piece P Q -> bnd M A -> bnd M B -> bnd M P -> bnd M Q ->
  apart1 A B -> apart1 P Q ->
  apart1 (Z.max P (esum A (cell g i j))) (Z.max Q (esum B (cell g j i))) ->
  exists l', sc_step p g i l (i, j) = Ret l' /\ length l' = length l /\
    sl l' j = piece (Z.max P (esum A (cell g i j))) (Z.max Q (esum B (cell g j i))) /\
    forall m, 0 <= m -> m <> j -> sl l' m = sl l m.
Proof.
  intros Me Ln Ni Nj Bd Ad M0 C0 L Si Sj BA BB BP BQ AAB APQ AR. unfold sc_step. cbn [fst snd].
  rewrite k_graph_ok by auto. cbn [bind]. rewrite !slot_get_ok by (unfold node in *; lia). cbn [bind].
  unfold k_span. cbn [k_lo k_up]. fold (sl l i) (sl l j). rewrite Si, Sj.
  destruct (add_single p A B (cell g i j) (cell g j i) M C) as (-> & W); auto. cbn [bind].
  destruct (cap_single P Q (esum A (cell g i j)) (esum B (cell g j i)) (M + C)) as (u & -> & Fu); try lia; auto.
  - unfold bnd in *; lia.
  - unfold bnd in *; lia.
  - pose proof (Bd i j Ni Nj). unfold esum, bnd in *. tests; lia.
  - pose proof (Bd j i Nj Ni). unfold esum, bnd in *. tests; lia.
  - pose proof (Bd i j Ni Nj). pose proof (Bd j i Nj Ni). clear AR. unfold apart1, esum, bnd, oo in *. tests; lia.
  - cbn [bind]. rewrite Fu. cbn [bind].
    destruct (slot_set_ok l j (piece (Z.max P (esum A (cell g i j))) (Z.max Q (esum B (cell g j i)))))
      as (l' & -> & Ll & Ej & Eo); [unfold node in *; lia|].
    exists l'. auto.
Qed.

(** ** The whole propagation *)

Lemma cut_bnd n D C M W i a f : closed n D -> all_bnd n C D -> half n D M f ->
  node n i -> bnd W a -> 0 <= C -> 0 <= W -> W + C <= M -> M + C < oo ->
  forall j, node n j -> bnd M (cutf D i a f j) /\ Z.max (f j) (esum (cutf D i a f i) (D i j)) = cutf D i a f j /\
    Z.max (cutf D i a f j) (esum (cutf D i a f i) (D i j)) = cutf D i a f j.
Proof.
  intros Cl Bd H Ni Ba C0 W0 L L' j Nj. pose proof (half_cut n D C M W i a f Cl Bd H Ni Ba C0 W0 L L') as H'.
  pose proof (h_bnd _ _ _ _ H' j Nj) as B. pose proof (h_bnd _ _ _ _ H' i Ni) as Bi. split; auto. split.
  - rewrite (cut_at n D i a f Cl Ni) by (pose proof (h_bnd _ _ _ _ H i Ni); unfold bnd in *; lia). reflexivity.
  - pose proof (h_arc _ _ _ _ H' i j Ni Nj) as A. unfold esum. clear - A B L L' C0 W0.
    unfold bnd in B. tests; lia.
Qed.

(** The slots are the boxes [f, - u]. *)
Record boxes (g : graph) (M : Z) (l : list tset) (f u : Z -> Z) : Prop := {
  b_len : Z.of_nat (length l) = g_size g;
  b_slot : forall i, node (g_size g) i -> sl l i = piece (f i) (u i);
  b_low : half (g_size g) (cell g) M f;
  b_up : half (g_size g) (tr (cell g)) M u;
  b_apart : apart (g_size g) f u }.

Section Fold.
Variables (p : profile) (g : graph) (C M W : Z) (i a b : Z) (f u : Z -> Z).
Hypotheses (Me : mem_ok g) (Cl : closed (g_size g) (cell g)) (Bd : all_bnd (g_size g) C (cell g)).
Hypotheses (C0 : 0 <= C) (W0 : 0 <= W) (L : W + C <= M) (L' : M + C < oo) (Ni : node (g_size g) i).
Hypotheses (Ba : bnd W a) (Bb : bnd W b) (Hf : half (g_size g) (cell g) M f)
  (Hu : half (g_size g) (tr (cell g)) M u) (Ap : apart (g_size g) f u)
  (Ai : apart1 (Z.max (f i) a) (Z.max (u i) b)).
Let F := cutf (cell g) i a f.
Let U := cutf (tr (cell g)) i b u.

Lemma cut_apart : apart (g_size g) F U.
Proof. apply (apart_cut _ _ C M W); auto. Qed.
Lemma cell_apart m k : node (g_size g) m -> node (g_size g) k -> apart1 (cell g m k) (cell g k m).
Proof.
  intros Nm Nk. unfold apart1. destruct (Z.eq_dec (cell g m k) (- oo)); auto.
  destruct (Z.eq_dec (cell g k m) (- oo)); auto. right. right.
  destruct (tri _ _ m k m Cl Nm Nk Nm) as (_ & T); auto. destruct Cl as (Z0 & _). rewrite Z0 in T by auto. auto.
Qed.
(** [todo] remain to be visited *)
Definition midway (todo : list Z) (l : list tset) : Prop :=
  Z.of_nat (length l) = g_size g /\
  forall m, node (g_size g) m -> sl l m = piece (F m) (U m) \/
    (sl l m = piece (f m) (u m) /\ m <> i /\ (In m todo \/ (cell g i m = - oo /\ cell g m i = - oo))).

Lemma fold_single js : forall l, midway js l -> (forall j, In j js -> node (g_size g) j) ->
  exists l', ofold (sc_step p g i) l (map (fun j => (i, j)) js) = Ret l' /\ midway [] l'.
Proof.
  induction js as [|j js IH]; intros l (Ln & Sl) Hj; [exists l; split; [auto|split; auto]|].
  pose proof (Hj j (or_introl eq_refl)) as Nj.
  destruct (cut_bnd _ _ C M W i a f Cl Bd Hf Ni Ba C0 W0 L L' j Nj) as (BF & EF & EF').
  destruct (cut_bnd _ _ C M W i b u (tr_closed _ _ Cl) (tr_bnd _ _ _ Bd) Hu Ni Bb C0 W0 L L' j Nj) as (BU & EU & EU').
  destruct (cut_bnd _ _ C M W i a f Cl Bd Hf Ni Ba C0 W0 L L' i Ni) as (BFi & _).
  destruct (cut_bnd _ _ C M W i b u (tr_closed _ _ Cl) (tr_bnd _ _ _ Bd) Hu Ni Bb C0 W0 L L' i Ni) as (BUi & _).
  fold F in BF, EF, EF', BFi. fold U in BU, EU, EU', BUi. unfold tr in EU, EU'.
  assert (Si : sl l i = piece (F i) (U i)) by (destruct (Sl i Ni) as [E|(_ & N & _)]; [auto|congruence]).
  assert (X : exists P Q, sl l j = piece P Q /\ bnd M P /\ bnd M Q /\ apart1 P Q /\
    Z.max P (esum (F i) (cell g i j)) = F j /\ Z.max Q (esum (U i) (cell g j i)) = U j).
  { destruct (Sl j Nj) as [E|(E & _ & _)].
    - exists (F j), (U j). split; auto. split; auto. split; auto. split; [apply cut_apart; auto|]. auto.
    - exists (f j), (u j). split; auto. split; [apply (h_bnd _ _ _ _ Hf); auto|].
      split; [apply (h_bnd _ _ _ _ Hu); auto|]. split; [apply Ap; auto|]. auto. }
  destruct X as (P & Q & Sj & BP & BQ & APQ & EP & EQ).
  destruct (step_single p g i j l M C (F i) (U i) P Q) as (l1 & E & L1 & S1 & O1); auto; try lia.
  - apply cell_apart; auto.
  - apply cut_apart; auto.
  - rewrite EP, EQ. apply cut_apart; auto.
  - cbn [map ofold]. rewrite E. cbn [bind]. apply IH; [|intros; apply Hj; right; auto].
    split; [lia|]. intros m Nm. destruct (Z.eq_dec m j) as [->|Nmj].
    + left. rewrite S1, EP, EQ. auto.
    + rewrite O1 by (unfold node in *; lia). destruct (Sl m Nm) as [|(E1 & E2 & [[E3|E3]|E3])]; auto; congruence.
Qed.
Lemma propagate_single l : Z.of_nat (length l) = g_size g -> sl l i = piece (F i) (U i) ->
  (forall m, node (g_size g) m -> m <> i -> sl l m = piece (f m) (u m)) ->
  exists l', sc_propagate p g l i = Ret l' /\ boxes g M l' F U.
Proof.
  intros Ln Si Sm. unfold sc_propagate.
  assert (E : debug_assert p (i <=? Z.of_nat (length l)) = Ret tt).
  { unfold debug_assert. unfold node in Ni. replace (i <=? Z.of_nat (length l)) with true by lia. destruct p; auto. }
  rewrite E. cbn [bind]. destruct (from_ok p g i Me Ni) as (js & -> & Hj & _). cbn [bind].
  destruct (fold_single (0 :: js) l) as (l' & -> & Ln' & Sl').
  - split; auto. intros m Nm. destruct (Z.eq_dec m i) as [->|N]; [left; auto|]. right. split; auto. split; auto.
    destruct (Z.eq_dec m 0) as [->|Nz]; [left; left; auto|].
    destruct (Z.eq_dec (cell g i m) (- oo)) as [E1|E1]; [destruct (Z.eq_dec (cell g m i) (- oo)) as [E2|E2]; auto|].
    + left. right. apply Hj. unfold node, rel in *. split; [lia|]. split; auto.
    + left. right. apply Hj. unfold node, rel in *. split; [lia|]. split; auto.
  - intros j [<-|H]; [unfold node in *; lia|]. apply Hj in H. unfold node. lia.
  - exists l'. split; auto. constructor; auto.
    + intros m Nm. destruct (Sl' m Nm) as [E1|(E1 & _ & [[]|(E2 & E3)])]; auto. rewrite E1.
      unfold F, U, cutf, tr. rewrite E2, E3.
      pose proof (h_bnd _ _ _ _ Hf m Nm). pose proof (h_bnd _ _ _ _ Hu m Nm).
      f_equal; unfold esum, bnd, oo in *; tests; lia.
    + apply (half_cut _ _ C M W); auto.
    + apply (half_cut _ _ C M W); auto using tr_closed, tr_bnd.
    + apply cut_apart.
Qed.
End Fold.

(** ** [retain] *)

Definition cbox (g : graph) (M : Z) (s : sched) (f u : Z -> Z) : Prop :=
  sc_graph s = g /\ boxes g M (sc_slots s) f u.

Lemma overlaps_single a b c : set_overlaps_cx (piece a b) c =
  ((cx_lower c <=? - b) && (a <=? cx_upper c)).
Proof. unfold set_overlaps_cx, piece. cbn. destruct (cx_lower c <=? - b); auto. Qed.
Lemma and_single a b c M : bnd M a -> bnd M b -> M < oo -> 0 <= M -> apart1 a b ->
  cx_lower c <= cx_upper c -> cx_lower c <= - b -> a <= cx_upper c ->
  set_and_assign (piece a b) c = [mkI (Z.max a (cx_lower c)) (Z.min (- b) (cx_upper c))].
Proof.
  intros Ba Bb L M0 Ap Hc H1 H2. unfold set_and_assign, piece.
  unfold set_truncate_after. cbn [rposition]. cbn [lower]. replace (a <=? cx_upper c) with true by lia.
  cbn [length Nat.add Nat.eqb update_at fst]. unfold iv_truncate_after. cbn [lower upper].
  unfold set_truncate_before. cbn [position].
  destruct (- b <=? cx_upper c) eqn:E1; cbn [fst upper].
  - replace (cx_lower c <=? - b) with true by lia. unfold iv_truncate_before. cbn [lower upper].
    destruct (cx_lower c <=? a) eqn:E2; cbn [fst]; [|replace (- b <? cx_lower c) with false by lia; cbn [fst]];
      repeat f_equal; lia.
  - replace (cx_upper c <? a) with false by lia. cbn [fst upper].
    replace (cx_lower c <=? cx_upper c) with true by lia. unfold iv_truncate_before. cbn [lower upper].
    destruct (cx_lower c <=? a) eqn:E2; cbn [fst]; [|replace (cx_upper c <? cx_lower c) with false by lia; cbn [fst]];
      repeat f_equal; lia.
Qed.

Section Retain.
Variables (p : profile) (g : graph) (C M W : Z).
Hypotheses (Me : mem_ok g) (Cl : closed (g_size g) (cell g)) (Bd : all_bnd (g_size g) C (cell g)).
Hypotheses (C0 : 0 <= C) (W0 : 0 <= W) (L : W + C <= M) (L' : M + C < oo).

Lemma retain_single s f u i c a b : cbox g M s f u -> node (g_size g) i ->
  cx_lower c = a -> cx_upper c = - b -> bnd W a -> bnd W b -> apart1 a b ->
  (sc_retain p s i (WCx c) = Ret (s, Unchanged) /\ a <= f i /\ b <= u i) \/
  (sc_retain p s i (WCx c) = Ret (s, Recovered) /\ ~ apart1 (Z.max (f i) a) (Z.max (u i) b)) \/
  (exists s', sc_retain p s i (WCx c) = Ret (s', Propagated) /\ apart1 (Z.max (f i) a) (Z.max (u i) b) /\
     cbox g M s' (cutf (cell g) i a f) (cutf (tr (cell g)) i b u)).
Proof.
  intros (Eg & Bo) Ni El Eu Ba Bb Ab. pose proof (b_len _ _ _ _ _ Bo) as Ln.
  pose proof (b_slot _ _ _ _ _ Bo) as Sl. pose proof (b_low _ _ _ _ _ Bo) as Hf.
  pose proof (b_up _ _ _ _ _ Bo) as Hu. pose proof (b_apart _ _ _ _ _ Bo) as Ap.
  pose proof (h_bnd _ _ _ _ Hf i Ni) as Bf. pose proof (h_bnd _ _ _ _ Hu i Ni) as Bu. pose proof (Ap i Ni) as Ai.
  unfold sc_retain, assert_. replace (i <? Z.of_nat (length (sc_slots s))) with true by (unfold node in *; lia).
  cbn [bind]. rewrite slot_get_ok by (unfold node in *; lia). fold (sl (sc_slots s) i). rewrite (Sl i Ni).
  cbn [bind w_contains w_overlaps slot_and]. unfold cx_contains. cbn [w_lower w_upper].
  replace (set_lower (piece (f i) (u i))) with (f i) by reflexivity.
  replace (set_upper (piece (f i) (u i))) with (- u i) by reflexivity. rewrite El, Eu.
  destruct ((a <=? f i) && (- u i <=? - b)) eqn:E1; [left; split; auto; lia|]. right.
  unfold cx_overlaps_set. rewrite overlaps_single, El, Eu.
  destruct ((a <=? - u i) && (f i <=? - b)) eqn:E2; cbn [negb]; [right|left].
  - assert (Ar : apart1 (Z.max (f i) a) (Z.max (u i) b)) by (unfold apart1, bnd in *; lia).
    rewrite (and_single (f i) (u i) c M); try rewrite El; try rewrite Eu; auto; try lia;
      [|unfold apart1, bnd in *; lia].
    cbn [bind]. replace [mkI (Z.max (f i) a) (Z.min (- u i) (- b))]
      with (piece (Z.max (f i) a) (Z.max (u i) b)) by (unfold piece; do 2 f_equal; lia).
    destruct (slot_set_ok (sc_slots s) i (piece (Z.max (f i) a) (Z.max (u i) b))) as (l1 & -> & Ll & Ej & Eo);
      [unfold node in *; lia|]. cbn [bind]. rewrite Eg.
    destruct (propagate_single p g C M W i a b f u) with (l := l1) as (l2 & -> & B2); auto; try lia.
    + unfold sl. rewrite Ej. rewrite !(cut_at (g_size g)); auto using tr_closed; unfold bnd in *; lia.
    + intros m Nm N. unfold sl. rewrite Eo by (unfold node in *; lia). apply Sl; auto.
    + cbn [bind]. eexists. split; [reflexivity|]. split; auto. split; auto.
  - split; auto. unfold apart1, bnd in *. lia.
Qed.

Lemma box_nonempty s f u i : cbox g M s f u -> node (g_size g) i -> exists x, possible s i x.
Proof.
  intros (Eg & Bo) Ni. pose proof (b_slot _ _ _ _ _ Bo i Ni) as Sl. pose proof (b_len _ _ _ _ _ Bo) as Ln.
  pose proof (h_bnd _ _ _ _ (b_low _ _ _ _ _ Bo) i Ni) as Bf.
  pose proof (h_bnd _ _ _ _ (b_up _ _ _ _ _ Bo) i Ni) as Bu.
  pose proof (b_apart _ _ _ _ _ Bo i Ni) as Ai.
  set (x := if f i =? - oo then if u i =? - oo then 0 else - u i else f i).
  exists x. exists (sl (sc_slots s) i). split.
  - unfold sc_scheduling, sl. apply nth_error_nth'. unfold node in *; lia.
  - rewrite Sl. exists (mkI (f i) (- u i)). split; [left; auto|]. unfold In_iv, finite. cbn [lower upper]. subst x.
    unfold bnd, oo in *. tests; lia.
Qed.
Lemma box_possible s f u i x : cbox g M s f u -> node (g_size g) i ->
  (possible s i x <-> finite x /\ f i <= x <= - u i).
Proof.
  intros (Eg & Bo) Ni. pose proof (b_slot _ _ _ _ _ Bo i Ni) as Sl. pose proof (b_len _ _ _ _ _ Bo) as Ln.
  assert (E : sc_scheduling s i = Some (piece (f i) (u i))).
  { rewrite <- Sl. unfold sc_scheduling, sl. apply nth_error_nth'. unfold node in *; lia. }
  unfold possible. split.
  - intros (l & E' & k & I & H). rewrite E in E'. injection E' as <-. destruct I as [<-|[]]. exact H.
  - intros H. exists (piece (f i) (u i)). split; auto. exists (mkI (f i) (- u i)). split; [left; auto|]. exact H.
Qed.
End Retain.

(** ** Bounded schedules *)

Lemma trim g C M K : closed (g_size g) (cell g) -> all_bnd (g_size g) C (cell g) -> 0 <= C -> 0 <= M ->
  M <= K -> C <= K -> K + 2 * C < oo -> forall js f u, (forall j, In j js -> node (g_size g) j) ->
  half (g_size g) (cell g) (K + C) f -> half (g_size g) (tr (cell g)) (K + C) u -> apart (g_size g) f u ->
  (forall j, node (g_size g) j -> f j <= K) -> (forall j, node (g_size g) j -> u j <= K) ->
  exists f' u', half (g_size g) (cell g) (K + C) f' /\ half (g_size g) (tr (cell g)) (K + C) u' /\ apart (g_size g) f' u' /\ (forall j, node (g_size g) j -> f j <= f' j /\ u j <= u' j) /\ (forall j, node (g_size g) j -> (f' j = f j \/ f' j <= C - K) /\ (u' j = u j \/ u' j <= C - K)) /\ (forall j, In j js -> - K <= f' j /\ - K <= u' j).
Proof.
  intros Cl Bd C0 M0 LM LC L js. induction js as [|i js IH]; intros f u Hj Hf Hu Ap Kf Ku.
  - exists f, u. split; auto. split; auto. split; auto. split; [intros; lia|]. split; [intros; lia|]. intros j [].
  - pose proof (Hj i (or_introl eq_refl)) as Ni.
    assert (BK : bnd K (- K)) by (unfold bnd; lia).
    pose proof (Kf i Ni) as K1. pose proof (Ku i Ni) as K2. pose proof (Ap i Ni) as A1.
    pose proof (h_bnd _ _ _ _ Hf i Ni) as Bf. pose proof (h_bnd _ _ _ _ Hu i Ni) as Bu.
    assert (CF : forall j, node (g_size g) j -> cutf (cell g) i (- K) f j = f j \/
      (f j <= cutf (cell g) i (- K) f j <= C - K)).
    { intros j Nj. pose proof (cut_ge (cell g) i (- K) f j).
      destruct (cut_cases _ _ C (K + C) K i (- K) f j Cl Bd Hf Ni Nj BK C0) as [E|(E1 & E2 & E)]; auto; try lia.
      right. pose proof (Bd i j Ni Nj). unfold bnd in *. lia. }
    assert (CU : forall j, node (g_size g) j -> cutf (tr (cell g)) i (- K) u j = u j \/
      (u j <= cutf (tr (cell g)) i (- K) u j <= C - K)).
    { intros j Nj. pose proof (cut_ge (tr (cell g)) i (- K) u j).
      destruct (cut_cases _ _ C (K + C) K i (- K) u j (tr_closed _ _ Cl) (tr_bnd _ _ _ Bd) Hu Ni Nj BK C0)
        as [E|(E1 & E2 & E)]; auto; try lia.
      right. pose proof (Bd j i Nj Ni). unfold bnd, tr in *. lia. }
    destruct (IH (cutf (cell g) i (- K) f) (cutf (tr (cell g)) i (- K) u)) as (f' & u' & H1 & H2 & H3 & H4 & H5 & H6).
    + intros j I. apply Hj. right. auto.
    + apply (half_cut _ _ C (K + C) K); auto; lia.
    + apply (half_cut _ _ C (K + C) K); auto using tr_closed, tr_bnd; lia.
    + apply (apart_cut _ _ C (K + C) K); auto; lia.
    + intros j Nj. specialize (CF j Nj). specialize (Kf j Nj). lia.
    + intros j Nj. specialize (CU j Nj). specialize (Ku j Nj). lia.
    + exists f', u'. split; auto. split; auto. split; auto. split; [|split].
      * intros j Nj. specialize (H4 j Nj). pose proof (cut_ge (cell g) i (- K) f j).
        pose proof (cut_ge (tr (cell g)) i (- K) u j). lia.
      * intros j Nj. specialize (H5 j Nj). specialize (CF j Nj). specialize (CU j Nj). lia.
      * intros j [<-|I]; auto. specialize (H4 i Ni).
        rewrite !(cut_at (g_size g)) in H4; auto using tr_closed; unfold bnd in *; lia.
Qed.
Lemma half_weaken n D M M' f : M <= M' -> half n D M f -> half n D M' f.
Proof. intros L H. constructor; [|apply H]. intros i Ni. pose proof (h_bnd _ _ _ _ H i Ni). unfold bnd in *. lia. Qed.
(** Every date at most [X] in absolute value is part of a schedule. *)
Lemma box_schedule p g C M X s f u i x : mem_ok g -> closed (g_size g) (cell g) -> all_bnd (g_size g) C (cell g) ->
  0 <= C -> 0 <= M -> 2 * M + 2 * X + 5 * C < oo -> cbox g M s f u -> node (g_size g) i ->
  Z.abs x <= X -> possible s i x -> exists t, schedule p s t /\ t i = x.
Proof.
  intros Me Cl Bd C0 M0 L Bo Ni Hx Px. pose proof Bo as (Eg & B).
  pose proof (box_possible g M) as BP.
  pose proof (b_low _ _ _ _ _ B) as Hf. pose proof (b_up _ _ _ _ _ B) as Hu. pose proof (b_apart _ _ _ _ _ B) as Ap.
  set (K := M + X + C).
  destruct (trim g C M K Cl Bd C0 M0) with (js := zrange 0 (g_size g)) (f := f) (u := u)
    as (f' & u' & H1 & H2 & H3 & H4 & H5 & H6); try (unfold K; lia).
  - intros j I. unfold zrange in I. apply in_map_iff in I as (n & <- & I). apply in_seq in I. unfold node. lia.
  - apply (half_weaken _ _ M); auto. unfold K; lia.
  - apply (half_weaken _ _ M); auto. unfold K; lia.
  - auto.
  - intros j Nj. pose proof (h_bnd _ _ _ _ Hf j Nj). unfold bnd, K, oo in *. lia.
  - intros j Nj. pose proof (h_bnd _ _ _ _ Hu j Nj). unfold bnd, K, oo in *. lia.
  - apply BP with (f := f) (u := u) in Px; auto.
    assert (HK : forall j, node (g_size g) j -> - K <= f' j /\ - K <= u' j).
    { intros j Nj. apply H6. unfold zrange. apply in_map_iff. exists (Z.to_nat j). unfold node in Nj.
      split; [lia|]. apply in_seq. lia. }
    destruct (box_extends (g_size g) (cell g) C (K + C) f' u' i x) as (t & St & Et & Bt); auto; try (unfold K; lia).
    + apply Me.
    + right. specialize (H5 i Ni). unfold K in *. lia.
    + right. specialize (H5 i Ni). unfold K in *. lia.
    + exists t. split; auto. split; [rewrite Eg; apply sol_msat; auto|]. rewrite Eg. intros j Nj.
      apply BP with (f := f) (u := u); auto. specialize (Bt j Nj). specialize (HK j Nj). specialize (H4 j Nj).
      unfold finite. assert (K < oo) by (unfold K; lia). unfold oo in *. lia.
Qed.

(** ** Sessions *)

Lemma narrow_bounds W c : 0 <= W -> W < oo -> narrow W c ->
  exists a b, cx_lower c = a /\ cx_upper c = - b /\ bnd W a /\ bnd W b /\ apart1 a b /\
    forall x, In_cx x c <-> finite x /\ a <= x <= - b.
Proof.
  intros W0 L (V & (x & I) & Wl & Wu). exists (cx_lower c), (- cx_upper c).
  pose proof (fun x => proj1 (C11_convex_bounds c x V)) as D. pose proof (proj1 (D x) I) as (F & Hx).
  split; auto. split; [lia|]. unfold within, bnd, apart1, finite, oo in *. split; [lia|]. split; [lia|]. split; [lia|].
  intros y. rewrite D. split; intros (Fy & Hy); (split; [auto|lia]).
Qed.

Section Sessions.
Variables (p : profile) (g : graph) (C W : Z).
Hypotheses (Me : mem_ok g) (Cl : closed (g_size g) (cell g)) (Bd : all_bnd (g_size g) C (cell g)).
Hypotheses (C0 : 0 <= C) (W0 : 0 <= W) (L' : W + C + C < oo).

Lemma new_box : cbox g (W + C) (sc_new g) (fun _ => - oo) (fun _ => - oo).
Proof.
  split; auto. constructor.
  - unfold sc_new. cbn [sc_slots]. rewrite repeat_length. destruct Me as ((S0 & _) & _). lia.
  - intros i Ni. unfold sl, sc_new. cbn [sc_slots]. unfold node in Ni.
    rewrite (nth_indep _ [] set_all) by (rewrite repeat_length; lia). rewrite nth_repeat. reflexivity.
  - constructor; [intros; left; auto|]. intros; congruence.
  - constructor; [intros; left; auto|]. intros; congruence.
  - intros i Ni. left. auto.
Qed.
Definition too_late (s : sched) (d : Z) : Prop :=
  exists i, 0 <= i < g_size g /\ forall x, possible s i x -> d < x.
Definition too_early (s : sched) (d : Z) : Prop :=
  exists i, 0 <= i < g_size g /\ forall x, possible s i x -> x < d.

Lemma down_all d : Z.abs d <= W -> forall n a s res f u, cbox g (W + C) s f u -> accepted res ->
  Z.of_nat (a + n) <= g_size g -> (forall j, node (g_size g) j -> f j <= d) ->
  let h := fun '(s, res) n => r <- sc_retain p s (Z.of_nat n) (WCx (CRangeToIncl d)) ;; let '(s1, x) := r in
    match x with Unchanged => Ret (s1, res) | Propagated => Ret (s1, Propagated) | Recovered | Fatal => Panic end in
  exists s' r f' u', ofold h (s, res) (seq a n) = Ret (s', r) /\ accepted r /\ cbox g (W + C) s' f' u'.
Proof.
  intros Hd. induction n as [|n IH]; intros a s res f u Bo Ac Ln Hf h.
  - exists s, res, f, u. auto.
  - cbn [seq ofold]. unfold h at 1. assert (Na : node (g_size g) (Z.of_nat a)) by (unfold node; lia).
    pose proof Bo as (Eg & B). pose proof (h_bnd _ _ _ _ (b_low _ _ _ _ _ B) _ Na) as B1.
    pose proof (b_apart _ _ _ _ _ B _ Na) as A1.
    assert (T : finite d) by (unfold finite; lia).
    destruct (retain_single p g C (W + C) W Me Cl Bd C0 W0) with (s := s) (f := f) (u := u) (i := Z.of_nat a)
      (c := CRangeToIncl d) (a := - oo) (b := - d) as [(-> & _)|[(_ & N)|(s1 & -> & _ & B2)]]; auto; try lia.
    + cbn. lia.
    + left. auto.
    + right. lia.
    + left. auto.
    + cbn [bind]. apply (IH (S a) s res f u); auto. lia.
    + exfalso. apply N. specialize (Hf _ Na). unfold apart1, bnd in *. lia.
    + cbn [bind]. apply (IH (S a) s1 Propagated (cutf (cell g) (Z.of_nat a) (- oo) f)
        (cutf (tr (cell g)) (Z.of_nat a) (- d) u)); auto; [right; auto|lia|].
      intros j Nj. destruct (cut_cases _ _ C (W + C) W (Z.of_nat a) (- oo) f j Cl Bd (b_low _ _ _ _ _ B) Na Nj)
        as [->|(N & _)]; auto; try lia. left; auto.
Qed.
Lemma up_all d : Z.abs d <= W -> forall n a s res f u, cbox g (W + C) s f u -> accepted res ->
  Z.of_nat (a + n) <= g_size g -> (forall j, node (g_size g) j -> d <= - u j) ->
  let h := fun '(s, res) n => r <- sc_retain p s (Z.of_nat n) (WCx (CRangeFrom d)) ;; let '(s1, x) := r in
    match x with Unchanged => Ret (s1, res) | Propagated => Ret (s1, Propagated) | Recovered | Fatal => Panic end in
  exists s' r f' u', ofold h (s, res) (seq a n) = Ret (s', r) /\ accepted r /\ cbox g (W + C) s' f' u'.
Proof.
  intros Hd. induction n as [|n IH]; intros a s res f u Bo Ac Ln Hf h.
  - exists s, res, f, u. auto.
  - cbn [seq ofold]. unfold h at 1. assert (Na : node (g_size g) (Z.of_nat a)) by (unfold node; lia).
    pose proof Bo as (Eg & B). pose proof (h_bnd _ _ _ _ (b_up _ _ _ _ _ B) _ Na) as B1.
    pose proof (b_apart _ _ _ _ _ B _ Na) as A1.
    destruct (retain_single p g C (W + C) W Me Cl Bd C0 W0) with (s := s) (f := f) (u := u) (i := Z.of_nat a)
      (c := CRangeFrom d) (a := d) (b := - oo) as [(-> & _)|[(_ & N)|(s1 & -> & _ & B2)]]; auto; try lia.
    + right. lia.
    + left. auto.
    + right. left. auto.
    + cbn [bind]. apply (IH (S a) s res f u); auto. lia.
    + exfalso. apply N. specialize (Hf _ Na). unfold apart1, bnd in *. lia.
    + cbn [bind]. apply (IH (S a) s1 Propagated (cutf (cell g) (Z.of_nat a) d f)
        (cutf (tr (cell g)) (Z.of_nat a) (- oo) u)); auto; [right; auto|lia|].
      intros j Nj. destruct (cut_cases _ _ C (W + C) W (Z.of_nat a) (- oo) u j (tr_closed _ _ Cl) (tr_bnd _ _ _ Bd)
        (b_up _ _ _ _ _ B) Na Nj) as [->|(N & _)]; auto; try lia. left; auto.
Qed.
Lemma box_slot s f u n : cbox g (W + C) s f u -> (n < length (sc_slots s))%nat ->
  nth n (sc_slots s) [] = piece (f (Z.of_nat n)) (u (Z.of_nat n)).
Proof.
  intros (Eg & B) H. pose proof (b_len _ _ _ _ _ B). rewrite <- (b_slot _ _ _ _ _ B) by (unfold node; lia).
  unfold sl. rewrite Nat2Z.id. auto.
Qed.
Lemma deadline_box d s f u : Z.abs d <= W -> cbox g (W + C) s f u ->
  exists s' r f' u', sc_set_deadline p s d = Ret (s', r) /\ cbox g (W + C) s' f' u' /\
    (r = Recovered \/ accepted r) /\ (r = Recovered <-> too_late s d).
Proof.
  intros Hd Bo. pose proof Bo as (Eg & B). pose proof (b_len _ _ _ _ _ B) as Ln.
  unfold sc_set_deadline. destruct (existsb _ _) eqn:E.
  - exists s, Recovered, f, u. split; auto. split; auto. split; auto. split; auto. intros _.
    apply existsb_exists in E as (l & I & Q). apply In_nth with (d := []) in I as (n & Hn & <-).
    exists (Z.of_nat n). split; [lia|]. intros x Px. apply (box_possible g (W + C) s f u) in Px; auto; [|unfold node; lia].
    rewrite (box_slot s f u) in Q by auto. cbn in Q. lia.
  - unfold sc_retain_all.
    assert (F : forall j, node (g_size g) j -> f j <= d).
    { intros j Nj. apply Z.nlt_ge. intros K.
      assert (X : existsb (fun tw => d <? set_lower tw) (sc_slots s) = true); [|congruence].
      apply existsb_exists. exists (sl (sc_slots s) j). split.
      - apply nth_In. unfold node in Nj. lia.
      - rewrite (b_slot _ _ _ _ _ B) by auto. cbn. lia. }
    destruct (down_all d Hd (length (sc_slots s)) 0 s Unchanged f u Bo) as (s' & r & f' & u' & E' & Ac & Bo').
    + left. auto.
    + cbn. lia.
    + auto.
    + exists s', r, f', u'. split; [exact E'|]. split; auto. split; auto. split.
      * intros ->. destruct Ac; discriminate.
      * intros (i & Hi & N). exfalso. destruct (Z.eq_dec (f i) (- oo)) as [E1|E1].
        -- pose proof (h_bnd _ _ _ _ (b_up _ _ _ _ _ B) i Hi) as Bu.
           specialize (N (Z.min d (if u i =? - oo then d else - u i))).
           assert (d < Z.min d (if u i =? - oo then d else - u i)); [|lia].
           apply N. apply (box_possible g (W + C) s f u); auto. rewrite E1.
           unfold finite, bnd, oo in *. tests; lia.
        -- assert (d < f i); [|specialize (F i Hi); lia]. apply N. apply (box_possible g (W + C) s f u); auto.
           pose proof (h_bnd _ _ _ _ (b_low _ _ _ _ _ B) i Hi) as Bf.
           pose proof (h_bnd _ _ _ _ (b_up _ _ _ _ _ B) i Hi) as Bu.
           pose proof (b_apart _ _ _ _ _ B i Hi). unfold finite, bnd, oo in *. lia.
Qed.
Lemma startline_box d s f u : Z.abs d <= W -> cbox g (W + C) s f u ->
  exists s' r f' u', sc_set_startline p s d = Ret (s', r) /\ cbox g (W + C) s' f' u' /\
    (r = Recovered \/ accepted r) /\ (r = Recovered <-> too_early s d).
Proof.
  intros Hd Bo. pose proof Bo as (Eg & B). pose proof (b_len _ _ _ _ _ B) as Ln.
  unfold sc_set_startline. destruct (existsb _ _) eqn:E.
  - exists s, Recovered, f, u. split; auto. split; auto. split; auto. split; auto. intros _.
    apply existsb_exists in E as (l & I & Q). apply In_nth with (d := []) in I as (n & Hn & <-).
    exists (Z.of_nat n). split; [lia|]. intros x Px. apply (box_possible g (W + C) s f u) in Px; auto; [|unfold node; lia].
    rewrite (box_slot s f u) in Q by auto. cbn in Q. lia.
  - unfold sc_retain_all.
    assert (F : forall j, node (g_size g) j -> d <= - u j).
    { intros j Nj. apply Z.nlt_ge. intros K.
      assert (X : existsb (fun tw => set_upper tw <? d) (sc_slots s) = true); [|congruence].
      apply existsb_exists. exists (sl (sc_slots s) j). split.
      - apply nth_In. unfold node in Nj. lia.
      - rewrite (b_slot _ _ _ _ _ B) by auto. cbn. lia. }
    destruct (up_all d Hd (length (sc_slots s)) 0 s Unchanged f u Bo) as (s' & r & f' & u' & E' & Ac & Bo').
    + left. auto.
    + cbn. lia.
    + auto.
    + exists s', r, f', u'. split; [exact E'|]. split; auto. split; auto. split.
      * intros ->. destruct Ac; discriminate.
      * intros (i & Hi & N). exfalso. destruct (Z.eq_dec (u i) (- oo)) as [E1|E1].
        -- pose proof (h_bnd _ _ _ _ (b_low _ _ _ _ _ B) i Hi) as Bf.
           specialize (N (Z.max d (f i))).
           assert (Z.max d (f i) < d); [|lia].
           apply N. apply (box_possible g (W + C) s f u); auto. rewrite E1.
           unfold finite, bnd, oo in *. lia.
        -- assert (- u i < d); [|specialize (F i Hi); lia]. apply N. apply (box_possible g (W + C) s f u); auto.
           pose proof (h_bnd _ _ _ _ (b_low _ _ _ _ _ B) i Hi) as Bf.
           pose proof (h_bnd _ _ _ _ (b_up _ _ _ _ _ B) i Hi) as Bu.
           pose proof (b_apart _ _ _ _ _ B i Hi). unfold finite, bnd, oo in *. lia.
Qed.
Lemma retain_box s f u i c : cbox g (W + C) s f u -> node (g_size g) i -> narrow W c ->
  exists s' r f' u', sc_retain p s i (WCx c) = Ret (s', r) /\ cbox g (W + C) s' f' u' /\
    (r = Recovered \/ accepted r) /\ (accepted r <-> exists x, possible s i x /\ In_cx x c).
Proof.
  intros Bo Ni Na. destruct (narrow_bounds W c W0) as (a & b & El & Eu & Ba & Bb & Ab & D); [lia|auto|].
  pose proof Bo as (Eg & B).
  pose proof (h_bnd _ _ _ _ (b_low _ _ _ _ _ B) i Ni) as Bf.
  pose proof (h_bnd _ _ _ _ (b_up _ _ _ _ _ B) i Ni) as Bu. pose proof (b_apart _ _ _ _ _ B i Ni) as Ai.
  assert (X : (exists x, possible s i x /\ In_cx x c) <-> apart1 (Z.max (f i) a) (Z.max (u i) b)).
  { split.
    - intros (x & Px & Ix). apply (box_possible g (W + C) s f u) in Px; auto. apply D in Ix. unfold apart1. lia.
    - intros A. set (x := if Z.max (f i) a =? - oo then if Z.max (u i) b =? - oo then 0 else - Z.max (u i) b else Z.max (f i) a).
      assert (Hx : finite x /\ f i <= x <= - u i /\ a <= x <= - b).
      { subst x. unfold finite, apart1, bnd, oo in *. tests; lia. }
      exists x. split; [apply (box_possible g (W + C) s f u); auto; split; apply Hx|apply D; split; apply Hx]. }
  destruct (retain_single p g C (W + C) W Me Cl Bd C0 W0) with (s := s) (f := f) (u := u) (i := i)
      (c := c) (a := a) (b := b) as [(E & H)|[(E & N)|(s1 & E & A & B2)]]; auto; try lia.
  - exists s, Unchanged, f, u. split; auto. split; auto. split; [right; left; auto|]. rewrite X.
    split; [intros _|left; auto]. rewrite !Z.max_l by lia. auto.
  - exists s, Recovered, f, u. split; auto. split; auto. split; auto. rewrite X. split; [intros [|]; discriminate|tauto].
  - exists s1, Propagated, (cutf (cell g) i a f), (cutf (tr (cell g)) i b u). split; auto. split; auto.
    split; [right; right; auto|]. rewrite X. split; [auto|right; auto].
Qed.
Lemma convex_box s : convex_session p g W s -> exists f u, cbox g (W + C) s f u.
Proof.
  induction 1 as [|s i c s' r H (f & u & Bo) Hi Na E|s d s' r H (f & u & Bo) Hd E|s d s' r H (f & u & Bo) Hd E].
  - eexists _, _. apply new_box.
  - destruct (Z_lt_le_dec i (g_size g)) as [Lt|Ge].
    + destruct (retain_box s f u i c Bo (conj Hi Lt) Na) as (s2 & r2 & f' & u' & E' & Bo' & _).
      rewrite E in E'. injection E' as <- <-. eauto.
    + exfalso. unfold sc_retain, assert_ in E. destruct Bo as (_ & B). pose proof (b_len _ _ _ _ _ B).
      replace (i <? Z.of_nat (length (sc_slots s))) with false in E by lia. discriminate.
  - destruct (deadline_box d s f u Hd Bo) as (s2 & r2 & f' & u' & E' & Bo' & _).
    rewrite E in E'. injection E' as <- <-. eauto.
  - destruct (startline_box d s f u Hd Bo) as (s2 & r2 & f' & u' & E' & Bo' & _).
    rewrite E in E'. injection E' as <- <-. eauto.
Qed.
End Sessions.
