(** Windows and constraints without any date (property C106): an interval whose bounds are
    in the wrong order holds no date, but is not recognised as empty. *)
From Verif Require Import Machine TimeValue Spec Tac TimeValueProofs Interval Iter TimeSet Relns
  Transl SpecSets SetProofs CollectProofs Prop_Interval SetOpsProofs Prop_TimeSet Prop_Transl SchedSets
  Graph MaxPlus FwBound GraphProofs GraphOps GraphGrow GraphSafe GraphMem GraphHist GraphTight
  SpecGraph GraphSound GraphMono GraphInv GraphIter Prop_Graph
  Prop_Propagation Prop_GraphIter Scheduler SpecSched SchedProofs SchedBox SchedConv Prop_Scheduler
  Prop_SchedConvex Prop_Repeat Prop_Seen.

(** ** Specification *)

(** A window with valid bounds but without any date *)
Definition dateless (c : convex) : Prop := valid_cx c /\ forall x, ~ In_cx x c.
(** A piece of the set goes from the upper bound of the window to its lower bound: the two
    bounds being in the wrong order, it covers everything between them. *)
Definition spanned (c : convex) (l : tset) : Prop :=
  exists k, In k l /\ lower k <= cx_upper c /\ cx_lower c <= upper k.

(** ** Windows *)

Lemma cx_valid c : valid_cx c -> valid (cx_lower c) /\ valid (cx_upper c).
Proof. intros V. destruct c; iv; tests; lia. Qed.
Theorem C106_dateless : forall c, valid_cx c -> (dateless c <-> cx_upper c < cx_lower c \/
  (cx_lower c = oo /\ cx_upper c = oo) \/ (cx_lower c = - oo /\ cx_upper c = - oo)).
Proof.
  intros c V. destruct (cx_valid c V) as (Vl & Vu). split.
  - intros (_ & D). destruct (Z_lt_le_dec (cx_upper c) (cx_lower c)) as [L|L]; auto. right.
    assert (N : forall x, finite x -> ~ (cx_lower c <= x <= cx_upper c)).
    { intros x F H. apply (D x). apply (proj1 (C11_convex_bounds c x V)). auto. }
    pose proof (N (cx_lower c)) as N1. pose proof (N (cx_upper c)) as N2. pose proof (N 0) as N3.
    pts. clear - L Vl Vu N1 N2 N3. lia.
  - intros H. split; auto. intros x X. apply (proj1 (C11_convex_bounds c x V)) in X. pts. lia.
Qed.

Lemma overlaps_near B l c : near_from B l -> (set_overlaps_cx l c = true <-> spanned c l).
Proof.
  intros C. unfold set_overlaps_cx, spanned. pose proof (n_find l (cx_lower c) B C) as P.
  destruct (find (fun ts => cx_lower c <=? upper ts) l) as [k|].
  - destruct P as (Ik & Lk & Q). split.
    + intros H. exists k. split; auto. lia.
    + intros (m & Im & H1 & H2). destruct (near_from_In _ _ _ C Ik) as (_ & Nk). unfold near in Nk.
      destruct (Q m Im) as [->|[?|?]]; lia.
  - split; [discriminate|]. intros (m & Im & _ & H2). specialize (P m Im). lia.
Qed.
Theorem C106_overlaps : forall l c, canonical l -> (set_overlaps_cx l c = true <-> spanned c l).
Proof. intros l c C. eapply overlaps_near, nset_canonical; auto. Qed.
Theorem C106_contains : forall l c, canonical l -> cx_upper c < cx_lower c ->
  (set_contains_cx l c = true <-> exists k, In k l /\ lower k <= cx_lower c <= upper k).
Proof.
  intros l c C L. apply nset_canonical in C. unfold set_contains_cx.
  pose proof (n_find l (cx_lower c) _ C) as P.
  destruct (find (fun ts => cx_lower c <=? upper ts) l) as [k|].
  - destruct P as (Ik & Lk & Q). unfold cx_contains. cbn [cx_lower cx_upper w_lower w_upper]. split.
    + intros H. exists k. split; auto. lia.
    + intros (m & Im & H1 & H2). destruct (near_from_In _ _ _ C Ik) as (_ & Nk). unfold near in Nk.
      destruct (Q m Im) as [->|[?|?]]; lia.
  - split; [discriminate|]. intros (m & Im & _ & H2). specialize (P m Im). lia.
Qed.
Lemma after_low s : nset s -> forall k, In k (fst (set_truncate_after s (- oo))) -> upper k <= - oo.
Proof.
  intros N. apply Forall_forall. unfold set_truncate_after.
  pose proof (rposition_spec (fun i => lower i <=? - oo) s) as P.
  destruct (rposition (fun i => lower i <=? - oo) s) as [n|].
  - destruct P as (a & i & b & -> & <- & Hi & Fb).
    destruct (near_app_inv _ _ _ N) as (Na & c & Lc & Nb & U). destruct Nb as (Li & Ni & Nb).
    assert (a = []).
    { destruct a as [|k a]; auto. exfalso. destruct Na as (Lk & Nk & _).
      specialize (U k (or_introl eq_refl)). unfold near, low in *. lia. }
    subst a.
    assert (T : upper (fst (iv_truncate_after i (- oo))) <= - oo).
    { unfold iv_truncate_after. destruct (upper i <=? - oo) eqn:E1; [unfold near in Ni; lia|].
      destruct (- oo <? lower i) eqn:E2; cbn; pts; lia. }
    cbn [length app Nat.add]. destruct (Nat.eqb 1 (S (length b))) eqn:E.
    + destruct b; [|cbn in E; discriminate]. cbn [update_at fst]. auto.
    + cbn [firstn update_at fst]. auto.
  - destruct s; cbn; auto.
Qed.
Lemma and_nil l c : nset l -> valid_cx c -> cx_upper c < cx_lower c -> set_and_assign l c = [].
Proof.
  intros C V L. unfold set_and_assign.
  assert (H : forall k, In k (fst (set_truncate_after l (cx_upper c))) -> upper k <= cx_upper c).
  { destruct (cx_valid c V) as (_ & Vu). destruct (Z.eq_dec (cx_upper c) (- oo)) as [->|Ne].
    - apply after_low. auto.
    - eapply after_box; eauto. unfold valid in Vu. lia. }
  unfold set_truncate_before.
  assert (Q : position (fun i => cx_lower c <=? upper i) (fst (set_truncate_after l (cx_upper c))) = None).
  { induction (fst (set_truncate_after l (cx_upper c))) as [|i r IH]; cbn; auto.
    pose proof (H i (or_introl eq_refl)) as Hi. replace (cx_lower c <=? upper i) with false by lia.
    rewrite IH; auto. intros k Hk. apply H. right. auto. }
  rewrite Q. now destruct (fst (set_truncate_after l (cx_upper c))).
Qed.
Theorem C106_restrict : forall l c, canonical l -> valid_cx c -> cx_upper c < cx_lower c ->
  set_and_assign l c = [].
Proof. intros l c C V L. eapply and_nil; eauto. apply nset_canonical, C. Qed.

(** ** Schedulers *)

(** An instant without dates takes them from the instants of its constraints. *)
Lemma step_nil p g i j l : mem_ok g -> node (g_size g) i -> node (g_size g) j ->
  Z.of_nat (length l) = g_size g -> sl l i = [] -> exists l', sc_step p g i l (i, j) = Ret l' /\
    length l' = length l /\ sl l' j = [] /\ forall m, 0 <= m -> m <> j -> sl l' m = sl l m.
Proof.
  intros M Ni Nj Ln E. unfold sc_step. cbn [fst snd].
  rewrite k_graph_ok by auto. cbn [bind]. rewrite !slot_get_ok by (unfold node in *; lia). cbn [bind].
  fold (sl l i) (sl l j). rewrite E. cbn [set_add_span ofold bind].
  unfold set_add_span. cbn [ofold bind].
  assert (Q : inter_list (sl l j) [] = Ret []) by (destruct (sl l j); reflexivity).
  rewrite Q. cbn [bind]. change (from_iter []) with (Ret (@nil interval)). cbn [bind].
  destruct (slot_set_ok l j []) as (l' & E' & Ll & Ej & Eo); [unfold node in *; lia|].
  exists l'. auto.
Qed.
Lemma fold_nil p g i : mem_ok g -> node (g_size g) i -> forall js l,
  (forall j, In j js -> node (g_size g) j) -> Z.of_nat (length l) = g_size g -> sl l i = [] ->
  exists l', ofold (sc_step p g i) l (map (fun b => (i, b)) js) = Ret l' /\ length l' = length l /\
    (forall m, 0 <= m -> ~ In m js -> sl l' m = sl l m) /\ (forall m, 0 <= m -> In m js -> sl l' m = []) /\
    sl l' i = [].
Proof.
  intros M Ni. induction js as [|j js IH]; intros l Nj Ln E.
  - exists l. cbn. repeat split; auto. intros m _ [].
  - cbn [map ofold]. destruct (step_nil p g i j l) as (l1 & -> & L1 & E1 & O1); auto.
    { apply Nj. left. auto. }
    assert (Ei : sl l1 i = []).
    { destruct (Z.eq_dec i j) as [->|Ne]; auto. rewrite O1; auto. apply Ni. }
    cbn [bind]. destruct (IH l1) as (l2 & -> & L2 & O2 & E2 & I2); auto.
    { intros b Hb. apply Nj. right. auto. }
    { lia. }
    exists l2. split; auto. split; [lia|]. split; [|split; auto].
    + intros m Hm N. rewrite O2; [apply O1|..]; auto; intros X; apply N; [left|right]; auto.
    + intros m Hm [<-|H]; [|apply E2; auto]. destruct (in_dec Z.eq_dec j js) as [H|H]; [apply E2; auto|].
      rewrite O2 by auto. auto.
Qed.
Theorem C106_retain : forall p g s i l c, stored g -> proper p g -> session p g s -> 0 <= i ->
  sc_scheduling s i = Some l -> (exists x, In_set x l) -> valid_cx c -> cx_upper c < cx_lower c ->
  (spanned c l -> exists s', sc_retain p s i (WCx c) = Ret (s', Propagated) /\
     forall j x, 0 <= j -> (possible s' j x <->
       possible s j x /\ j <> i /\ j <> 0 /\ ~ relevant p g i j)) /\
  (~ spanned c l -> sc_retain p s i (WCx c) = Ret (s, Recovered)).
Proof.
  intros p g s i l c M P Se Hi El (x0 & X0) V L.
  pose proof (proj1 (proper_prop p g M) P) as Pr.
  pose proof (session_sinv p g s M Pr Se) as I. pose proof I as (Eg & Ln & N).
  assert (Hn : (Z.to_nat i < length (sc_slots s))%nat).
  { apply nth_error_Some. unfold sc_scheduling in El. congruence. }
  assert (Es : sl (sc_slots s) i = l).
  { unfold sl. unfold sc_scheduling in El. erewrite nth_error_nth; eauto. }
  assert (Ns : nset l) by (rewrite <- Es; apply N; lia).
  unfold sc_retain, assert_. replace (i <? Z.of_nat (length (sc_slots s))) with true by lia. cbn [bind].
  rewrite slot_get_ok by lia. cbn [bind]. fold (sl (sc_slots s) i). rewrite Es.
  assert (C : w_contains (WCx c) l = false).
  { cbn. unfold cx_contains. cbn. pose proof (n_upper l _ x0 Ns X0). lia. }
  rewrite C. cbn [w_overlaps]. unfold cx_overlaps_set. pose proof (overlaps_near _ l c Ns) as O.
  destruct (set_overlaps_cx l c); cbn [negb].
  2: { split; auto. intros H. apply O in H. discriminate. }
  split; [|intros H; exfalso; apply H, O; auto]. intros _.
  cbn [slot_and]. rewrite and_nil by auto. cbn [bind].
  destruct (slot_set_ok (sc_slots s) i []) as (l1 & -> & L1 & E1 & O1); [lia|]. cbn [bind]. rewrite Eg.
  unfold sc_propagate.
  assert (Ni : node (g_size g) i) by (unfold node; lia).
  assert (D : debug_assert p (i <=? Z.of_nat (length l1)) = Ret tt).
  { unfold debug_assert. replace (i <=? Z.of_nat (length l1)) with true by lia. destruct p; auto. }
  rewrite D. cbn [bind]. destruct (from_ok p g i M) as (js & -> & Hj & _); [auto|]. cbn [bind].
  destruct (fold_nil p g i M Ni (0 :: js) l1) as (l2 & -> & L2 & O2 & E2 & I2); auto; try lia.
  { intros j [<-|H]; [unfold node in *; lia|]. apply Hj in H. unfold node. lia. }
  cbn [bind]. eexists. split; [reflexivity|]. intros j x Hj0.
  assert (Po : forall s' : sched, possible s' j x <-> In_set x (sl (sc_slots s') j)).
  { intros s'. unfold possible, sc_scheduling, sl. destruct (nth_error (sc_slots s') (Z.to_nat j)) as [a|] eqn:Ea.
    - erewrite nth_error_nth by eauto. split; [intros (b & Eb & H); congruence|eauto].
    - apply nth_error_None in Ea. rewrite nth_overflow by auto. split; [intros (b & Eb & _); discriminate|].
      intros (k & [] & _). }
  rewrite !Po. cbn [sc_slots]. clear Po.
  destruct (Z_lt_le_dec j (g_size g)) as [Lj|Lj].
  2: { assert (Q : forall a : list tset, length a = length (sc_slots s) -> sl a j = []).
       { intros a Ha. unfold sl. apply nth_overflow. lia. }
       rewrite !Q by lia. rewrite In_set_nil. tauto. }
  assert (Nj : node (g_size g) j) by (unfold node; lia).
  assert (R : relevant p g i j <-> rel g i j).
  { rewrite (rel_timespan p g i j) by auto. unfold relevant. unfold node in *. tauto. }
  rewrite R. destruct (Z.eq_dec j i) as [->|Nji].
  { rewrite I2, In_set_nil. tauto. }
  destruct (in_dec Z.eq_dec j (0 :: js)) as [H|H].
  - rewrite E2 by auto. rewrite In_set_nil. split; [tauto|]. intros (_ & _ & J0 & Nr).
    destruct H as [H|H]; [lia|]. apply Hj in H. tauto.
  - rewrite O2 by auto. unfold sl at 1. rewrite O1 by auto. fold (sl (sc_slots s) j).
    assert (j <> 0 /\ ~ rel g i j); [|tauto]. split; [intros ->; apply H; left; auto|].
    intros Rl. apply H. right. apply Hj. repeat split; auto.
    assert (j <> 0) by (intros ->; apply H; left; auto). lia.
Qed.

(** ** Graphs *)

(** [propagate_lower_bound] returns even on a graph without any solution, as long as the sums
    are exact. *)
Lemma plb_total p g io jo C : mem_ok g -> node (g_size g) io -> node (g_size g) jo -> 0 <= C -> 8 * C < oo ->
  all_bnd (g_size g) C (cell g) ->
  exists g', g_plb p g io jo = Ret g' /\ same_shape g g'.
Proof.
  intros M Ni Nj C0 L B. unfold g_plb. rewrite g_lower_ok by auto. cbn [bind].
  set (n := g_size g) in *. assert (n0 : 0 <= n) by (unfold node in *; lia). set (w := cell g io jo).
  assert (Bw : bnd C w) by (apply B; auto).
  edestruct (ofold_range graph (fun g i =>
                 a <- g_lower p g i io ;; val <- tv_add a w ;; g_raise p g i jo val)
      (fun k g1 => same_shape g g1 /\ all_bnd n (2 * C) (cell g1) /\
         forall a b, node n a -> node n b -> k <= a -> cell g1 a b = cell g a b)
      0 n g n0) as (g1 & E1 & S1 & B1 & _).
  { split; auto. split; auto. intros a b Na Nb. apply bnd_mono with (C := C); [lia|auto]. }
  { intros k g1 Hk (S1 & B1 & I1).
    assert (M1 : mem_ok g1) by (eapply same_shape_mem; eauto).
    assert (Z1 : g_size g1 = n) by apply S1.
    assert (Nk : node n k) by (unfold node; lia).
    rewrite g_lower_ok by (rewrite ?Z1; auto). cbn [bind]. rewrite (I1 k io) by (auto; lia).
    assert (Bk : bnd C (cell g k io)) by (apply B; auto).
    rewrite (tv_add_esum C C) by (auto; lia). cbn [bind].
    destruct (g_raise_ok p g1 k jo (esum (cell g k io) w)) as (g2 & E2 & S2 & I2); rewrite ?Z1; auto.
    exists g2. split; auto. split; [eapply same_shape_trans; eauto|]. split.
    - intros a b Na Nb. rewrite I2 by (unfold node in *; lia). destruct ((a =? k) && (b =? jo)); auto.
      apply GraphProofs.max_bnd; [lia|auto|]. replace (2 * C) with (C + C) by lia. apply esum_bnd; auto.
    - intros a b Na Nb Ha. rewrite I2 by (unfold node in *; lia). replace (a =? k) with false by lia. cbn [andb].
      apply I1; auto. lia. }
  rewrite E1. cbn [bind]. assert (Z1 : g_size g1 = n) by apply S1. rewrite Z1.
  edestruct (ofold_range graph (fun g j => j_jo <- g_lower p g j jo ;;
           ofold (fun g i => b <- g_lower p g jo i ;; val <- tv_add j_jo b ;; g_raise p g j i val)
                 g (zrange 0 (g_size g)))
      (fun k g2 => same_shape g g2 /\
         (forall b, node n b -> bnd (4 * C) (cell g2 jo b)) /\
         (forall a b, node n a -> node n b -> k <= a -> bnd (2 * C) (cell g2 a b)))
      0 n g1 n0) as (g2 & E2 & S2 & _).
  { split; auto. split; auto. intros b Nb. apply bnd_mono with (C := 2 * C); [lia|auto]. }
  { intros j g2 Hj (S2 & R2 & B2).
    assert (M2 : mem_ok g2) by (eapply same_shape_mem; eauto).
    assert (Z2 : g_size g2 = n) by apply S2.
    assert (Nj' : node n j) by (unfold node; lia).
    rewrite g_lower_ok by (rewrite ?Z2; auto). cbn [bind]. set (v := cell g2 j jo).
    assert (Bv : bnd (2 * C) v) by (apply B2; auto; lia). rewrite Z2.
    edestruct (ofold_range graph (fun g i => b <- g_lower p g jo i ;; val <- tv_add v b ;; g_raise p g j i val)
      (fun k g3 => same_shape g g3 /\
         (forall b, node n b -> bnd (4 * C) (cell g3 jo b)) /\
         (forall b, node n b -> jo = j -> k <= b -> bnd (2 * C) (cell g3 jo b)) /\
         (forall a b, node n a -> node n b -> j + 1 <= a -> bnd (2 * C) (cell g3 a b)))
      0 n g2 n0) as (g3 & E3 & S3 & R3 & _ & B3).
    { split; auto. split; auto. split.
      - intros b Nb -> _. apply B2; auto. lia.
      - intros a b Na Nb Ha. apply B2; auto. lia. }
    { intros i g3 Hi (S3 & R3 & Q3 & B3).
      assert (M3 : mem_ok g3) by (eapply same_shape_mem; eauto).
      assert (Z3 : g_size g3 = n) by apply S3.
      assert (Ni' : node n i) by (unfold node; lia).
      rewrite g_lower_ok by (rewrite ?Z3; auto). cbn [bind].
      rewrite (tv_add_esum (2 * C) (4 * C)) by (auto; lia). cbn [bind].
      destruct (g_raise_ok p g3 j i (esum v (cell g3 jo i))) as (g4 & E4 & S4 & I4); rewrite ?Z3; auto.
      exists g4. split; auto. split; [eapply same_shape_trans; eauto|]. split; [|split].
      - intros b Nb. rewrite I4 by (unfold node in *; lia). destruct ((jo =? j) && (b =? i)) eqn:T; auto.
        assert (jo = j) by lia. assert (b = i) by lia. subst j b. apply GraphProofs.max_bnd; [lia|auto|].
        replace (4 * C) with (2 * C + 2 * C) by lia. apply esum_bnd; auto. apply Q3; auto. lia.
      - intros b Nb Ej Hb. rewrite I4 by (unfold node in *; lia).
        replace (b =? i) with false by lia. rewrite andb_false_r. apply Q3; auto. lia.
      - intros a b Na Nb Ha. rewrite I4 by (unfold node in *; lia).
        replace (a =? j) with false by lia. cbn [andb]. apply B3; auto. }
    exists g3. split; auto. }
  exists g2. split; auto.
Qed.

Theorem C106_propagate_partial : forall p C g k iv, stored g -> minimal p g -> (exists t, solution p g t) ->
  seen p C g -> 32 * C < oo -> k_empty k = false -> k_up k < k_lo k -> Z.abs (k_lo k) <= C -> Z.abs (k_up k) <= C ->
  0 <= k_from k < g_size g -> 0 <= k_to k < g_size g -> g_timespan p g (k_from k) (k_to k) = Ret iv ->
  (lower iv < k_lo k <= upper iv -> exists g', g_propagate p g k = Ret (g', Propagated) /\
     forall t, ~ solution p g' t) /\
  (~ (lower iv < k_lo k <= upper iv) -> g_propagate p g k = Ret (g, Recovered)).
Proof.
  intros p C g k iv M Mn S Se L Ek Inv Bl Bu Nf Nt T.
  assert (O : 0 < oo) by reflexivity.
  pose proof (seen_bnd _ _ _ M Se) as B.
  assert (Cl : closed (g_size g) (cell g)) by (eapply seen_closed; eauto; lia).
  rewrite timespan_ok in T by auto. injection T as <-. cbn [lower upper].
  pose proof Cl as (Z0 & Tr).
  set (n := g_size g) in *. set (f := k_from k) in *. set (u := k_to k) in *.
  assert (Hc : cell g f u <> - oo -> cell g u f <> - oo -> cell g f u + cell g u f <= 0).
  { intros F1 F2. destruct (closed_sol p g M Cl) as (t & St). apply sol_msat in St; auto.
    pose proof (St f u (cell g f u) Nf Nt ltac:(split; auto; lia)).
    pose proof (St u f (cell g u f) Nt Nf ltac:(split; auto; lia)). lia. }
  pose proof (B f u Nf Nt) as Bfu. pose proof (B u f Nt Nf) as Buf. unfold bnd in Bfu, Buf.
  assert (Kv : kvalid k) by (destruct M as ((? & ?) & _); unfold kvalid, valid; fold f u; lia).
  assert (V : vcells n (cell g)).
  { intros a b Na Nb. pose proof (B a b Na Nb) as Y. unfold bnd, valid in *. lia. }
  pose proof (propagate_safe p g k M V Kv Nf Nt) as Sf.
  enough (H : (cell g f u < k_lo k <= - cell g u f -> exists g', g_propagate p g k = Ret (g', Propagated)) /\
    (~ (cell g f u < k_lo k <= - cell g u f) -> g_propagate p g k = Ret (g, Recovered))).
  { destruct H as (H1 & H2). split; auto. intros Hr. destruct (H1 Hr) as (g' & E). exists g'. split; auto.
    rewrite E in Sf. cbn in Sf. destruct Sf as ((D1 & D2) & R). destruct (raised_mem _ _ _ R M) as (M' & Sz).
    fold f u in D1, D2. intros t St. apply sol_msat in St; auto. rewrite Sz in St.
    pose proof (St f u (k_lo k) Nf Nt ltac:(split; lia)).
    pose proof (St u f (- k_up k) Nt Nf ltac:(split; lia)). lia. }
  clear Sf V Kv.
  assert (Hm : (n <=? Z.max f u) = false) by lia.
  unfold g_propagate. rewrite Ek. cbv zeta. fold f u n. rewrite Hm.
  rewrite !g_lower_ok by auto. cbn [bind]. unfold tv_neg.
  destruct (k_lo k <=? cell g f u) eqn:T1.
  { split; [lia|]. intros _. replace (- k_up k <=? cell g u f) with false by (clear - T1 Hc Inv Bu Bl Bfu Buf L O; lia).
    replace (k_up k <? cell g f u) with true by lia. auto. }
  destruct (- k_lo k <? cell g u f) eqn:T2; [split; [lia|auto]|].
  split; [|lia]. intros _.
  assert (Nfu : f <> u).
  { intros e. rewrite e in T1, T2. rewrite (Z0 u Nt) in T1, T2. lia. }
  destruct (g_set_ok p g f u (k_lo k) M Nf Nt) as (g1 & E1 & S1 & C1). rewrite E1. cbn [bind].
  assert (M1 : mem_ok g1) by (eapply same_shape_mem; eauto). assert (Z1 : g_size g1 = n) by apply S1.
  assert (B1 : all_bnd n C (cell g1)).
  { intros a b Na Nb. rewrite C1 by (unfold node in *; lia). destruct ((a =? f) && (b =? u)); [|auto].
    right. lia. }
  destruct (plb_ok p g1 f u C) as (g2 & E2 & S2 & C2); rewrite ?Z1; auto; try lia.
  { rewrite C1 by lia. replace (u =? f) with false by lia. cbn [andb]. rewrite (Z0 u Nt). lia. }
  { rewrite (C1 u f), (C1 f u) by lia. replace (u =? f) with false by lia. cbn [andb].
    rewrite !Z.eqb_refl. cbn [andb]. unfold esum. tests; lia. }
  rewrite E2. cbn [bind]. rewrite Z1 in C2.
  assert (M2 : mem_ok g2) by (eapply same_shape_mem; eauto).
  assert (Z2 : g_size g2 = n) by (rewrite <- Z1; apply S2).
  rewrite g_lower_ok by (rewrite ?Z2; auto). cbn [bind].
  assert (T3 : cell g2 u f = cell g u f).
  { rewrite C2 by auto. unfold plb2, plb1. rewrite Z.eqb_refl. replace (f =? u) with false by lia.
    rewrite !C1 by lia. replace (u =? f) with false by lia. rewrite !Z.eqb_refl. replace (f =? u) with false by lia.
    cbn [andb]. rewrite (Z0 u Nt). clear - Buf Bl L O T2. unfold esum.
    destruct (cell g u f =? - oo) eqn:X; destruct (k_lo k =? - oo) eqn:Y; cbn [orb]; tests; lia. }
  rewrite T3. replace (cell g u f <? - k_up k) with true by lia.
  assert (B2 : all_bnd n (4 * C) (cell g2)).
  { intros a b Na Nb. rewrite C2 by auto. pose proof (plb1_bnd n C (cell g1) f u Nf Nt ltac:(lia) ltac:(lia) B1) as P1.
    unfold plb2. apply GraphProofs.max_bnd; [lia|apply bnd_mono with (C := 2 * C); [lia|auto]|].
    replace (4 * C) with (2 * C + 2 * C) by lia. apply esum_bnd; auto. }
  destruct (g_set_ok p g2 u f (- k_up k) M2) as (g3 & E3 & S3 & C3); rewrite ?Z2; auto. rewrite E3. cbn [bind].
  assert (M3 : mem_ok g3) by (eapply same_shape_mem; eauto).
  assert (Z3 : g_size g3 = n) by (rewrite <- Z2; apply S3).
  destruct (plb_total p g3 u f (4 * C)) as (g4 & E4 & _); rewrite ?Z3; auto; try lia.
  { intros a b Na Nb. rewrite C3 by (unfold node in *; lia). destruct ((a =? u) && (b =? f)); [right; lia|auto]. }
  rewrite E4. cbn [bind]. eauto.
Qed.

(** [extend] computes the closure of the graph: it finds that there is no solution. *)
Theorem C106_extend_partial : forall p C ks g N B hint l k, 3 * C < oo -> watched p C ks g ->
  room N B -> g_size g <= N -> seen p B g -> hint <> Some 0 -> hint <> Some 1 ->
  Forall (fun k => 0 <= k_from k < N /\ 0 <= k_to k < N /\ within B (k_lo k) /\ within B (k_up k) /\
    k_lo k < oo /\ - oo < k_up k) l ->
  In k l -> k_up k < k_lo k -> exists g', g_extend p g hint l = Ret (g', Fatal).
Proof.
  intros p C ks g N B hint l k L W R Sn Se H0 H1 G Ik Inv. pose proof (watched_inv p C ks g L W) as I.
  pose proof (seen_bnd _ _ _ (wi_mem _ _ I) Se) as Bn. pose proof R as (B0 & RN & RL).
  assert (KL : ksize (g_size g) l <= N).
  { apply ksize_le; auto. intros a Ia. rewrite Forall_forall in G. destruct (G a Ia) as (? & ? & _). lia. }
  pose proof (ksize_ge l (g_size g)) as (KG & _). assert (S0 : 0 <= g_size g) by apply I.
  destruct (room_lin N B (ksize (g_size g) l) R ltac:(lia)) as (_ & Rl).
  assert (O : 0 < oo) by reflexivity.
  assert (Bo : 2 * B < oo) by (destruct (room_lin N B 0 R ltac:(lia)); lia).
  destruct (extend_tight p g l hint (medge (g_size g) (cell g)) B) as (g2 & r2 & E2 & X); auto; try apply I.
  - apply closed_tight, I.
  - intros i j w (Ni & Nj & F & ->). pose proof (Bn i j Ni Nj) as Y. unfold bnd in Y. lia.
  - eapply Forall_impl; [|exact G]. intros a (? & ? & A1 & A2 & ? & ?). unfold kvalid, valid, within in *. lia.
  - eapply Forall_impl; [|exact G]. intros a (? & ? & A1 & A2 & ? & ?). unfold kbnd, bnd, within in *. lia.
  - exists g2. destruct X as [(_ & _ & M' & _ & T & Ms)|(-> & _)]; auto. exfalso.
    destruct (closed_consistent (g_size g2) (cell g2)) as (t & St); [apply T|].
    apply Ms in St. destruct St as (_ & F). rewrite Forall_forall in F. specialize (F k Ik).
    destruct F as (F1 & F2). cbn [lower upper] in F1, F2. rewrite Forall_forall in G.
    destruct (G k Ik) as (_ & _ & A1 & A2 & A3 & A4). unfold within in *. lia.
Qed.

(** ** Examples *)

(** The intersection of two disjoint intervals; a graph where the first instant is followed
    by the second one within 5 to 10 ticks accepts it and has no solution any more. *)
Definition none_a : interval := iv_and (mkI 1 6) (CIv (mkI 8 9)).
Definition none_k : kons := k_cx 0 1 (CIv none_a).
Example C106_window_case : canonical [mkI 0 3; mkI 5 10] /\ dateless (CIv none_a) /\ iv_is_empty none_a = false /\
  set_contains_cx [mkI 0 3; mkI 5 10] (CIv none_a) = true /\ set_overlaps_cx [mkI 0 3; mkI 5 10] (CIv none_a) = true /\
  set_overlaps_cx [mkI 0 5; mkI 8 10] (CIv none_a) = false /\ set_and_assign [mkI 0 3; mkI 5 10] (CIv none_a) = [].
Proof.
  assert (V : valid_cx (CIv none_a)) by (vm_compute; intuition discriminate).
  split; [unfold canonical, wf_iv, oo; cbn; lia|]. split; [apply (C106_dateless _ V); left; reflexivity|].
  repeat split; reflexivity.
Qed.
Theorem C106_propagate_refuted : exists p N B ks g k, room N B /\ history p N B ks g /\
  k = k_cx 0 1 (CIv (iv_and (mkI 1 6) (CIv (mkI 8 9)))) /\ inside g k /\ (forall t, ~ sat k t) /\
  exists g', g_propagate p g k = Ret (g', Propagated) /\ forall t, ~ solution p g' t.
Proof.
  exists Debug, 3, 10, [k12; k01], h3, none_k.
  pose proof (h3_history 3 10 ltac:(lia) ltac:(lia)) as H. pose proof (history_inv _ _ _ _ _ room3 H) as I.
  split; [exact room3|]. split; auto. split; [reflexivity|]. split; [split; reflexivity|].
  split; [intros t (S1 & S2); unfold none_k, none_a, k_cx in *; cbn in *; unfold oo in *; lia|].
  destruct (C40_solutions_partial Debug 3 10 [k12; k01] h3 (fun _ => 0) room3 H) as (_ & Mn & Co).
  apply (C106_propagate_partial Debug 18 h3 none_k (mkI 5 10)); auto; try reflexivity; try (cbn; lia).
  - apply I.
  - apply bnd_seen; [apply I|]. intros i j Ni Nj. cbn [g_size h3] in *.
    assert (In3 : forall i, node 3 i -> i = 0 \/ i = 1 \/ i = 2) by (unfold node; lia).
    destruct (In3 i Ni) as [->|[-> | ->]]; destruct (In3 j Nj) as [->|[-> | ->]]; vm_compute; right; split; discriminate.
Qed.
(** A scheduler of that graph, with the first instant at the date 0: a window without any date,
    from 15 to 14, is accepted for the last instant and removes the dates of all the instants;
    from 20 to 19 it is refused. *)
Definition s_none : sched := mkS h3 [[mkI 0 0]; [mkI 5 10]; [mkI 12 18]].
Example C106_sched_case : stored h3 /\ proper Debug h3 /\ session Debug h3 s_none /\
  sc_retain Debug s_none 2 (WCx (CIv (mkI 15 14))) = Ret (mkS h3 [[]; []; []], Propagated) /\
  sc_retain Debug s_none 2 (WCx (CIv (mkI 20 19))) = Ret (s_none, Recovered).
Proof.
  destruct (C52_history_proper Debug 3 10 [k12; k01] h3 room3 (h3_history 3 10 ltac:(lia) ltac:(lia))) as (St & Pr).
  split; auto. split; auto. split; [|split; reflexivity].
  apply (s_retain Debug h3 (sc_new h3) 0 (WCx (CPoint 0)) s_none Propagated); [apply s_new|lia| |reflexivity].
  vm_compute. intuition (discriminate || (left; split; reflexivity)).
Qed.

Print Assumptions C106_dateless.
Print Assumptions C106_overlaps.
Print Assumptions C106_contains.
Print Assumptions C106_restrict.
Print Assumptions C106_retain.
Print Assumptions C106_propagate_partial.
Print Assumptions C106_propagate_refuted.
Print Assumptions C106_extend_partial.
