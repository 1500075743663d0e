(** Reading a graph back (property C113): the constraints iterated from the graph of a program describe
    it entirely; given to [extend], they rebuild it or do the work of [merge].  No margin is needed. *)
From Verif Require Import Machine TimeValue Spec Tac TimeValueProofs Interval Iter TimeSet Relns
  SpecSets Graph MaxPlus FwBound GraphProofs GraphOps GraphFits GraphWarshall GraphGrow GraphSafe GraphMem
  GraphHist GraphTight SpecGraph GraphSound GraphMono GraphInv GraphIter GraphCalls Prop_Graph Prop_Propagation
  Prop_GraphQuery Prop_GraphIter Prop_Seen Prop_Queries Prop_Fits Prop_Represent Prop_Program.

(** ** Specification *)

(** The iteration of the constraints of [g] announces at most [hint] of them and gives [its]. *)
Definition read_back (p : profile) (g : graph) (hint : Z) (its : list kons) : Prop :=
  exists l, g_iter p g = Ret l /\ items p g l = Ret its /\ citer_hint p g citer_init = Ret (0, Some hint).

(** ** Proofs *)

Lemma read_ok p n S g : answer p n S g -> (exists t, S t) -> exists hint its, read_back p g hint its /\
  2 * hint = n * (n - 1) + 2 /\ (forall t, S t <-> Forall (fun k => sat k t) its) /\
  Forall (fun k => legal k /\ k_from k < k_to k < n) its.
Proof.
  intros A Co. destruct (answer_closed p n S g A Co) as (M & Sz & Cl & Lw & H). pose proof A as (St & _).
  pose proof M as ((S0 & S1) & _).
  destruct (C47_exact p g St) as (l & E & Hl & _). destruct (C47_items p g l St E) as (its & Ei & _ & Hi).
  destruct (hint_ok p g 0 0) as (hint & Eh & Hh); auto; try lia.
  exists hint, its. split; [exists l; auto|]. rewrite Sz in Hh. split; [clear - Hh; lia|]. split.
  - intros t. rewrite <- H, <- Sz. apply (items_sat p); auto. rewrite Sz. apply Cl.
  - apply Forall_forall. intros k Hk. apply Hi in Hk. destruct Hk as (Lk & (Nf & Nt & _) & _ & T).
    rewrite timespan_ok in T by auto. injection T as T1 T2. rewrite Sz in *.
    pose proof (Lw _ _ Nf Nt) as V1. pose proof (Lw _ _ Nt Nf) as V2. unfold legal, valid. rewrite <- T1, <- T2.
    clear - Lk Nf Nt V1 V2 S0 S1. lia.
Qed.
Lemma hint_small n h : 1 < n -> 2 * h = n * (n - 1) + 2 -> 1 < h.
Proof. nia. Qed.

(** ** C113 *)

(** The constraints that are iterated describe the same dates as the program. *)
Theorem C113_read : forall p m n S, means m n S -> exists g hint its, run p m = Ret g /\ read_back p g hint its /\
  forall t, S t <-> Forall (fun k => sat k t) its.
Proof.
  intros p m n S H. destruct (C110_program p m n S H) as (g & R & _ & A & Co).
  destruct (read_ok p n S g A Co) as (h & its & Rb & _ & Q & _). exists g, h, its. auto.
Qed.
(** Given at once to a graph of the same size, they rebuild the graph. *)
Theorem C113_rebuild : forall p m n S, means m n S ->
  exists g hint its g0 g' r, run p m = Ret g /\ read_back p g hint its /\ g_with_size p n = Ret g0 /\
    g_extend p g0 (Some hint) its = Ret (g', r) /\ accepted r /\ same_bounds p g g'.
Proof.
  intros p m n S H. destruct (C110_program p m n S H) as (g & R & _ & A & Co).
  destruct (read_ok p n S g A Co) as (h & its & Rb & Hh & Q & F). pose proof A as (((N0 & N1) & _) & Sz & _).
  rewrite Sz in N0, N1.
  pose proof (m_resize New 0 (fun _ => True) n m_new (conj N0 N1)) as Hz.
  destruct (C110_program p _ _ _ Hz) as (g0 & R0 & C0 & A0 & Co0). cbn [run bind] in R0.
  assert (T0 : forall t, solution p g0 t).
  { intros t. apply A0. exists t. auto. }
  exists g, h, its, g0. destruct (Z_le_gt_dec n 1) as [L|L].
  - assert (its = []) as ->.
    { destruct its as [|k its]; auto. inversion F as [|? ? (K1 & K2) _]; subst. destruct K1 as (K1 & _). lia. }
    exists g0, Unchanged. split; auto. split; auto. split; auto.
    split; [assert (h = 1) as -> by nia; reflexivity|]. split; [left; auto|].
    eapply answer_unique; [exact A| |exact Co]. eapply answer_ext; [|exact A0]. intros t. cbv beta. rewrite Q. split; auto.
    intros _. exists t. auto.
  - pose proof (hint_small n h ltac:(lia) Hh) as H1.
    assert (Eq : forall t, solution p g0 t /\ Forall (fun k => sat k t) its <-> S t).
    { intros t. rewrite Q. split; [tauto|auto]. }
    destruct (C109_extend p g0 (Some h) its n) as (X & _); auto.
    + eapply answer_anchored; eauto.
    + eapply Forall_impl; [|exact F]. cbv beta. tauto.
    + intros e. injection e as ->. lia.
    + intros e. injection e as ->. lia.
    + assert (Z0 : g_size g0 = n) by apply A0. split; [lia|]. split; [|left; auto].
      eapply Forall_impl; [|exact F]. cbv beta. intros k (_ & K). lia.
    + destruct Co as (t & St). exists t. apply Eq. auto.
    + destruct X as (g' & E & A').
      { eapply spread_ext; [|eapply answer_spread; exact A]. intros t. symmetry. apply Eq. }
      exists g', Propagated. split; auto. split; auto. split; auto. split; auto. split; [right; auto|].
      eapply answer_unique; [exact A| |exact Co]. eapply answer_ext; [|exact A']. exact Eq.
Qed.
(** ... so that one call is enough to build any of these graphs. *)
Theorem C113_normal : forall p m n S, means m n S -> 2 <= n ->
  exists hint its S', means (AddAll (Resize New n) hint its) n S' /\ (forall t, S' t <-> S t) /\
    exists g g', run p m = Ret g /\ run p (AddAll (Resize New n) hint its) = Ret g' /\ same_bounds p g g'.
Proof.
  intros p m n S H L. destruct (C110_program p m n S H) as (g & R & _ & A & Co).
  destruct (read_ok p n S g A Co) as (h & its & Rb & Hh & Q & F). pose proof A as (((N0 & N1) & _) & Sz & _).
  rewrite Sz in N0, N1. pose proof (hint_small n h ltac:(lia) Hh) as H1.
  pose proof (m_resize New 0 (fun _ => True) n m_new (conj N0 N1)) as Hz.
  set (S0 := fun t : Z -> Z => exists t' : Z -> Z, True /\ forall i, 0 <= i < n -> t i = t' i) in *.
  assert (Eq : forall t, S0 t /\ Forall (fun k => sat k t) its <-> S t).
  { intros t. rewrite Q. split; [tauto|]. intros X. split; auto. exists t. auto. }
  assert (X : means (AddAll (Resize New n) (Some h) its) n (fun t => S0 t /\ Forall (fun k => sat k t) its)).
  { apply (m_all (Resize New n) n S0); auto.
    - eapply Forall_impl; [|exact F]. cbv beta. tauto.
    - intros e. injection e as ->. lia.
    - intros e. injection e as ->. lia.
    - lia.
    - eapply Forall_impl; [|exact F]. cbv beta. intros k (_ & K). lia.
    - destruct Co as (t & St). exists t. apply Eq. auto.
    - eapply spread_ext; [|eapply answer_spread; exact A]. intros t. symmetry. apply Eq. }
  exists (Some h), its, (fun t => S0 t /\ Forall (fun k => sat k t) its). split; auto. split; auto.
  apply (C110_same p m (AddAll (Resize New n) (Some h) its) n S _ H X). intros t. symmetry. apply Eq.
Qed.
(** Extending with the constraints of another graph is merging it. *)
Theorem C113_extend : forall p m m' n n' S S', means m n S -> means m' n' S' -> 2 <= n' <= n ->
  (exists t, S t /\ S' t) -> spread n (fun t => S t /\ S' t) ->
  exists g h hint its a b r, run p m = Ret g /\ run p m' = Ret h /\ read_back p h hint its /\
    g_extend p g (Some hint) its = Ret (a, Propagated) /\ g_merge p g h = Ret (b, r) /\ accepted r /\ same_bounds p a b.
Proof.
  intros p m m' n n' S S' H H' (L2 & L) Co Sp. destruct (C110_program p m n S H) as (g & R & Cg & A & Cs).
  destruct (C110_program p m' n' S' H') as (h & R' & Ch & A' & Cs').
  destruct (read_ok p n' S' h A' Cs') as (hi & its & Rb & Hh & Q & F).
  pose proof (hint_small n' hi ltac:(lia) Hh) as H1.
  assert (Qg : forall t, solution p g t <-> S t) by apply A. assert (Qh : forall t, solution p h t <-> S' t) by apply A'.
  assert (Sg : g_size g = n) by apply A. assert (Sh : g_size h = n') by apply A'.
  assert (E1 : forall t, solution p g t /\ Forall (fun k => sat k t) its <-> S t /\ S' t) by (intros t; rewrite Qg, Q; tauto).
  assert (E2 : forall t, solution p g t /\ solution p h t <-> S t /\ S' t) by (intros t; rewrite Qg, Qh; tauto).
  destruct (C109_extend p g (Some hi) its n) as (X & _); auto.
  - eapply answer_anchored; eauto.
  - eapply Forall_impl; [|exact F]. cbv beta. tauto.
  - intros e. injection e as ->. lia.
  - intros e. injection e as ->. lia.
  - split; [lia|]. split; [|left; auto]. eapply Forall_impl; [|exact F]. cbv beta. intros k (_ & K). lia.
  - destruct Co as (t & St). exists t. apply E1. auto.
  - destruct X as (a & Ea & Aa); [eapply spread_ext; [|exact Sp]; intros t; symmetry; apply E1|].
    destruct (C109_merge p g h Cg Ch (proj1 (proj2 (proj2 A))) (proj1 (proj2 (proj2 A')))) as (Y & _).
    { destruct Co as (t & St). exists t. apply E2. auto. }
    rewrite Sg, Sh, Z.max_l in Y by lia.
    destruct Y as (b & r & Eb & Ac & Ab); [eapply spread_ext; [|exact Sp]; intros t; symmetry; apply E2|].
    exists g, h, hi, its, a, b, r. do 6 (split; [auto|]).
    eapply answer_unique; [eapply answer_ext; [exact E1|exact Aa]|eapply answer_ext; [exact E2|exact Ab]|exact Co].
Qed.
(** The order of the merges does not matter. *)
Theorem C113_commutes : forall p m m' n n' S S', means m n S -> means m' n' S' ->
  (exists t, S t /\ S' t) -> spread (Z.max n n') (fun t => S t /\ S' t) ->
  exists a b, run p (Merge m m') = Ret a /\ run p (Merge m' m) = Ret b /\ same_bounds p a b.
Proof.
  intros p m m' n n' S S' H H' Co Sp. eapply C110_same.
  - apply (m_merge m m' n n' S S'); auto.
  - rewrite Z.max_comm. apply (m_merge m' m n' n S' S); auto.
    + destruct Co as (t & X & Y). exists t. auto.
    + rewrite Z.max_comm. eapply spread_ext; [|exact Sp]. intros t. cbv beta. tauto.
  - intros t. cbv beta. tauto.
Qed.
Theorem C113_associates : forall p m m' m'' n n' n'' S S' S'', means m n S -> means m' n' S' -> means m'' n'' S'' ->
  (exists t, S t /\ S' t /\ S'' t) -> spread (Z.max n n') (fun t => S t /\ S' t) ->
  spread (Z.max n' n'') (fun t => S' t /\ S'' t) ->
  spread (Z.max n (Z.max n' n'')) (fun t => S t /\ S' t /\ S'' t) ->
  exists a b, run p (Merge (Merge m m') m'') = Ret a /\ run p (Merge m (Merge m' m'')) = Ret b /\ same_bounds p a b.
Proof.
  intros p m m' m'' n n' n'' S S' S'' H H' H'' (t0 & X & Y & W) Sp1 Sp2 Sp. eapply C110_same.
  - apply (m_merge (Merge m m') m'' (Z.max n n') n'' (fun t => S t /\ S' t) S''); auto.
    + apply m_merge; eauto.
    + exists t0. auto.
    + rewrite <- Z.max_assoc. eapply spread_ext; [|exact Sp]. intros t. cbv beta. tauto.
  - rewrite <- Z.max_assoc. apply (m_merge m (Merge m' m'') n (Z.max n' n'') S (fun t => S' t /\ S'' t)); auto.
    + apply m_merge; eauto.
    + exists t0. auto.
  - intros t. cbv beta. tauto.
Qed.
(** Merging a graph with itself changes nothing. *)
Theorem C113_idempotent : forall p m n S, means m n S ->
  exists g g', run p m = Ret g /\ run p (Merge m m) = Ret g' /\ same_bounds p g g'.
Proof.
  intros p m n S H. destruct (C110_program p m n S H) as (g0 & _ & _ & A & t0 & S0).
  eapply C110_same; [exact H| |].
  - pose proof (m_merge m m n n S S H H) as X. rewrite Z.max_id in X. apply X; [eauto|].
    eapply spread_ext; [|eapply answer_spread; exact A]. intros t. cbv beta. tauto.
  - intros t. cbv beta. tauto.
Qed.

(** ** Examples *)

Definition e_its : list kons := [mkK 0 1 false far far; mkK 0 2 false 0 0; mkK 1 2 false (- far) (- far)].
Example C113_rebuild_case : exists S, means e_merge 3 S /\ forall p, run p e_merge = Ret g_m /\ read_back p g_m 4 e_its /\
  (g0 <- g_with_size p 3 ;; g_extend p g0 (Some 4) e_its) = Ret (g_m, Propagated).
Proof.
  destruct e_merge_means as (S & H & _). exists S. split; auto. intros p.
  split; [destruct p; vm_compute; reflexivity|]. split; [|destruct p; vm_compute; reflexivity].
  exists [(0, 1); (0, 2); (1, 2)]. repeat split; destruct p; vm_compute; reflexivity.
Qed.
(** The graph of [0 1] alone is merged into it, or its only constraint is added. *)
Example C113_extend_case : exists S S', means e_merge 3 S /\ means (Add New (mkK 0 1 false far far)) 2 S' /\
  (exists t, S t /\ S' t) /\ spread 3 (fun t => S t /\ S' t) /\
  forall p, read_back p g_m1 2 [mkK 0 1 false far far] /\
    g_extend p g_m (Some 2) [mkK 0 1 false far far] = Ret (g_m, Propagated) /\ g_merge p g_m g_m1 = Ret (g_m, Unchanged).
Proof.
  destruct e_merge_means as (S & H & Q). exists S, (fun t => True /\ sat (mkK 0 1 false far far) t). split; auto.
  assert (E : forall t, S t /\ True /\ sat (mkK 0 1 false far far) t <-> t 1 - t 0 = far /\ t 2 - t 1 = - far).
  { intros t. rewrite Q, sat_eq by discriminate. tauto. }
  split; [apply (m_more New 0 (fun _ => True) (mkK 0 1 false far far)); [constructor|goodk|cbn; lia..]|].
  split; [exists (fun i => if i =? 1 then far else 0); apply E; split; reflexivity|].
  split; [eapply spread_ext; [|exact e_spread]; intros t; symmetry; apply E|].
  intros p. split; [exists [(0, 1)]; repeat split; destruct p; vm_compute; reflexivity|].
  split; destruct p; vm_compute; reflexivity.
Qed.
(** The hypotheses on three merges hold beyond any margin. *)
Example C113_associates_case : exists S S' S'', means (Add New (mkK 0 1 false far far)) 2 S /\
  means (Add (Resize New 1) (mkK 1 2 false (- far) (- far))) 3 S' /\ means e_merge 3 S'' /\
  (exists t, S t /\ S' t /\ S'' t) /\ spread 3 (fun t => S t /\ S' t) /\ spread 3 (fun t => S' t /\ S'' t) /\
  spread 3 (fun t => S t /\ S' t /\ S'' t).
Proof.
  destruct e_merge_means as (S & H & Q).
  set (S1 := fun t : Z -> Z => True /\ sat (mkK 0 1 false far far) t).
  set (S2 := fun t : Z -> Z => (exists t', True /\ forall i, 0 <= i < 1 -> t i = t' i) /\ sat (mkK 1 2 false (- far) (- far)) t).
  assert (Q1 : forall t, S1 t <-> t 1 - t 0 = far) by (intros t; unfold S1; rewrite sat_eq by discriminate; tauto).
  assert (Q2 : forall t, S2 t <-> t 2 - t 1 = - far).
  { intros t. unfold S2. rewrite sat_eq by discriminate. split; [tauto|]. intros X. split; auto. exists t. auto. }
  exists S1, S2, S. split; [apply (m_more New 0 (fun _ => True) (mkK 0 1 false far far)); [constructor|goodk|cbn; lia..]|].
  split; [apply (m_more (Resize New 1) 1 (fun t => exists t', True /\ forall i, 0 <= i < 1 -> t i = t' i) (mkK 1 2 false (- far) (- far)));
      [apply (m_resize New 0 (fun _ => True)); [constructor|lia]|goodk|cbn; lia..]|].
  split; auto. split.
  - exists (fun i => if i =? 1 then far else 0). rewrite Q1, Q2, Q. repeat split; reflexivity.
  - repeat split; (eapply spread_ext; [|exact e_spread]; intros t; cbv beta; rewrite ?Q1, ?Q2, ?Q; tauto).
Qed.
