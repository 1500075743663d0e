(** What the reports of the calls of a program say, without margin (property C117): each call of the
    programs of C110 tells exactly whether the described dates are unchanged, fewer, or none.
    C42 and C94 say so for the graphs of the bounded histories only. *)
From Verif Require Import Machine TimeValue Spec Tac TimeValueProofs Interval Iter TimeSet Relns
  SpecSets Graph MaxPlus FwBound GraphProofs GraphOps GraphFits GraphWarshall GraphGrow GraphSafe GraphMem
  GraphHist GraphTight SpecGraph GraphSound GraphMono GraphInv GraphIter GraphCalls Prop_Graph Prop_Propagation Prop_GraphRepair
  Prop_GraphQuery Prop_Merge Prop_Seen Prop_Queries Prop_Fits Prop_Represent Prop_Program.

(** ** Proofs *)

(** More dates, wider bounds *)
Lemma wider p n n' S S' g h : answer p n S g -> answer p n' S' h -> (exists t, S t) -> n' <= n -> (forall t, S t -> S' t) ->
  forall i j, node n' i -> node n' j -> cell h i j <= cell g i j.
Proof.
  intros A A' Co L H i j Ni Nj. destruct (answer_closed p n S g A Co) as (_ & _ & _ & Lw & _).
  destruct A as (St & Sz & Mn & _ & Q). destruct A' as (St' & Sz' & _ & _ & Q'). destruct Co as (t0 & T0).
  assert (Gi : node n i) by (unfold node in *; lia). assert (Gj : node n j) by (unfold node in *; lia).
  pose proof (Lw i j Gi Gj) as Lij. rewrite <- Sz in Gi, Gj. rewrite <- Sz' in Ni, Nj.
  destruct (Z_le_gt_dec (cell h i j) (cell g i j)) as [l|l]; auto. exfalso.
  apply Q in T0. destruct (any_bounds p g St i j t0 Gi Gj T0) as (B1 & B2). cbn [lower upper] in B1, B2.
  destruct (any_min p g St Mn i j (if cell g i j =? - oo then Z.min (t0 j - t0 i) (cell h i j - 1) else cell g i j) Gi Gj) as (t & T & V).
  - split; cbn [lower upper]; destruct (cell g i j =? - oo) eqn:E; lia.
  - apply Q in T. apply H, Q' in T. destruct (any_bounds p h St' i j t Ni Nj T) as (W & _). cbn [lower upper] in W.
    rewrite V in W. destruct (cell g i j =? - oo) eqn:E; lia.
Qed.
(** One constraint between instants of the graph *)
Theorem C117_add : forall p m n S k, means m n S -> good n oo k ->
  (forall t, ~ (S t /\ sat k t)) \/ ((exists t, S t /\ sat k t) /\ spread n (fun t => S t /\ sat k t)) ->
  exists g g' r, run p m = Ret g /\ g_propagate p g k = Ret (g', r) /\
    (r = Unchanged <-> forall t, S t -> sat k t) /\
    (r = Recovered <-> forall t, ~ (S t /\ sat k t)) /\
    (r = Propagated <-> (exists t, S t /\ sat k t) /\ ~ forall t, S t -> sat k t) /\
    (r = Unchanged \/ r = Recovered -> g' = g).
Proof.
  intros p m n S k H Gd Sp. destruct (C110_program p m n S H) as (g & R & _ & (St & Sz & Mn & Rg & Q) & (t0 & T0)).
  assert (Cg : exists t, solution p g t) by (exists t0; apply Q; exact T0).
  rewrite <- Sz in Gd. exists g. destruct Sp as [N|((t1 & T1 & K1) & Sp)].
  - exists g, Recovered. split; [exact R|]. split; [apply C108_refused; auto; intros t (A & B); apply (N t); split; auto; apply Q; exact A|].
    split; [|split; [|split]].
    + split; [discriminate|]. intros X. destruct (N t0). auto.
    + split; auto.
    + split; [discriminate|]. intros ((t & A) & _). destruct (N t A).
    + auto.
  - pose proof (proj1 (stored_mem g) St) as M. pose proof Gd as (Ek & W & Nf & Nt & _).
    pose proof (any_closed p g St Mn Cg) as Cl. assert (T1' : solution p g t1) by (apply Q; exact T1).
    assert (Rp : representable p g k).
    { intros i j Ni Nj. rewrite Sz in Ni, Nj. destruct (Sp i j Ni Nj) as (iv & P & V). exists iv. split; auto.
      intros v. rewrite V. split; intros (t & A); exists t; rewrite Q in *; tauto. }
    destruct (propagate_fits p g k) as (g' & r & E & Sh & X & Y); auto.
    { apply (ex_low p); auto. }
    { intros _. split; [apply (ex_first p g k St Mn Rg Gd t1); auto|apply (ex_second p g k St Mn Rg Gd t1); auto]. }
    exists g', r. split; [exact R|]. split; [exact E|].
    assert (I : (forall t, S t -> sat k t) -> r = Unchanged).
    { intros A. assert (E' : g_propagate p g k = Ret (g, Unchanged)) by (apply C108_unchanged; auto; intros t B; apply A, Q; exact B).
      rewrite E in E'. injection E' as _ E'. exact E'. }
    destruct X as [(-> & -> & _)|[(-> & _ & X)|(-> & _ & _)]].
    + assert (A : forall t, S t -> sat k t).
      { intros t T. apply Q, sol_msat in T; auto. destruct Y as (_ & _ & Y & _); [discriminate|]. apply Y in T. apply T. }
      split; [split; auto|]. split; [split; [discriminate|]; intros B; destruct (B t1); auto|].
      split; [split; [discriminate|]; intros (_ & B); destruct (B A)|auto].
    + exfalso. apply sol_msat in T1'; auto. eapply (contradicts_sound (g_size g) (cell g) k t1); eauto.
    + split; [split; [discriminate|]; intros A; discriminate (I A)|]. split; [split; [discriminate|]; intros B; destruct (B t1); auto|].
      split; [|intros [?|?]; discriminate]. split; [|auto]. intros _. split; [eauto|]. intros A. discriminate (I A).
Qed.
(** A second time *)
Theorem C117_again : forall p m n S k, means m n S -> good n oo k -> (exists t, S t /\ sat k t) ->
  spread n (fun t => S t /\ sat k t) ->
  exists g, run p (Add m k) = Ret g /\ g_propagate p g k = Ret (g, Unchanged).
Proof.
  intros p m n S k H Gd Co Sp. pose proof (m_add m n S k H Gd Co Sp) as H'.
  destruct (C117_add p (Add m k) n _ k H' Gd) as (g & g' & r & R & E & U & _ & _ & I).
  - right. destruct Co as (t & T & K). split; [exists t; auto|]. eapply spread_ext; [|exact Sp]. intros u. cbv beta. tauto.
  - exists g. split; [exact R|]. assert (r = Unchanged) as -> by (apply U; tauto). rewrite <- (I (or_introl eq_refl)) at 2. exact E.
Qed.
(** One constraint between two new instants *)
Theorem C117_more : forall p m n S k, means m n S -> good 65535 oo k -> n <= k_from k -> n <= k_to k -> k_from k <> k_to k ->
  exists g g', run p m = Ret g /\ g_propagate p g k = Ret (g', Propagated) /\ g_size g' = Z.max (k_from k) (k_to k) + 1.
Proof.
  intros p m n S k H Gd Lf Lt Ne. destruct (C110_program p m n S H) as (g & R & C & A & Co).
  destruct (C110_program p (Add m k) _ _ (m_more m n S k H Gd Lf Lt Ne)) as (g' & R' & _ & A' & _).
  cbn [run] in R'. rewrite R in R'. cbn [bind] in R'. exists g, g'. split; [exact R|].
  pose proof (calls_exact _ _ C) as X. pose proof A as (_ & Sz & _). pose proof Gd as (Ek & _).
  pose proof (good_legal 65535 k ltac:(lia) Gd) as Lk.
  rewrite grow_insert in *; try apply X; auto; try (apply exact_clean; exact X); try (unfold inside; lia).
  destruct (g_insert p g k) as [g2| | |]; cbn in R' |- *; try discriminate. injection R' as <-. split; auto. apply A'.
Qed.
(** Two graphs *)
Theorem C117_merge : forall p m m' n n' S S', means m n S -> means m' n' S' -> (exists t, S t /\ S' t) ->
  spread (Z.max n n') (fun t => S t /\ S' t) ->
  exists g h g' r, run p m = Ret g /\ run p m' = Ret h /\ g_merge p g h = Ret (g', r) /\
    (r = Unchanged \/ r = Propagated) /\ (r = Unchanged <-> n' <= n /\ forall t, S t -> S' t) /\ (r = Unchanged -> g' = g).
Proof.
  intros p m m' n n' S S' H H' Co Sp. destruct (C110_program p m n S H) as (g & R & C & A & _).
  destruct (C110_program p m' n' S' H') as (h & R' & C' & A' & _). exists g, h.
  pose proof A as (St & Sz & Mn & Rg & Q). pose proof A' as (St' & Sz' & Mn' & Rg' & Q').
  destruct (proj1 (C109_merge p g h C C' Mn Mn' ltac:(destruct Co as (t & T); exists t; rewrite Q, Q'; exact T))) as (g' & r & E & Ac & _).
  { rewrite Sz, Sz'. eapply spread_ext; [|exact Sp]. intros t. cbv beta. rewrite Q, Q'. tauto. }
  exists g', r. split; [exact R|]. split; [exact R'|]. split; [exact E|]. split; [exact Ac|].
  destruct (C94_unchanged p g h g' r C C' E) as (U & V). split; [|exact V]. rewrite U, Sz, Sz'. clear U V.
  pose proof (proj1 (stored_mem g) St) as M. pose proof (proj1 (stored_mem h) St') as M'. split.
  - intros (L & F). split; auto. intros t T. apply Q'. apply Q in T. intros i j Ni Nj. rewrite Sz' in Ni, Nj.
    destruct (F i j Ni Nj) as (a & b & Ea & Eb & L1 & L2). exists b. split; auto.
    destruct (T i j ltac:(lia) ltac:(lia)) as (a' & Ea' & (I1 & I2)). rewrite Ea in Ea'. injection Ea' as <-.
    destruct (Rg' i j ltac:(lia) ltac:(lia)) as (b' & Eb' & Pb). rewrite Eb in Eb'. injection Eb' as <-.
    unfold proper_bounds in Pb. split; lia.
  - intros (L & F). split; auto. intros i j Ni Nj.
    pose proof (wider p n n' S S' g h A A' ltac:(destruct Co as (t & T & _); eauto) L F) as Wd.
    do 2 eexists. split; [apply timespan_ok; auto; unfold node; lia|]. split; [apply timespan_ok; auto; unfold node; lia|].
    cbn [lower upper]. pose proof (Wd i j Ni Nj). pose proof (Wd j i Nj Ni). lia.
Qed.
(** Several constraints: always [Propagated], even if nothing changes *)
Theorem C117_all : forall p m n S hint ks n', means m n S -> Forall legal ks -> hint <> Some 0 -> hint <> Some 1 ->
  n <= n' -> Forall (fun k => k_from k < n' /\ k_to k < n') ks ->
  (n' = n \/ Exists (fun k => n' = k_from k + 1 \/ n' = k_to k + 1) ks) ->
  (exists t, S t /\ Forall (fun k => sat k t) ks) -> spread n' (fun t => S t /\ Forall (fun k => sat k t) ks) ->
  exists g g', run p m = Ret g /\ g_extend p g hint ks = Ret (g', Propagated) /\
    answer p n' (fun t => S t /\ Forall (fun k => sat k t) ks) g' /\
    (n' = n -> (forall t, S t -> Forall (fun k => sat k t) ks) -> same_bounds p g g').
Proof.
  intros p m n S hint ks n' H Lk H0 H1 L F X Co Sp. destruct (C110_program p m n S H) as (g & R & C & A & Cs).
  pose proof A as (St & Sz & Mn & Rg & Q). exists g.
  assert (Eq : forall t, solution p g t /\ Forall (fun k => sat k t) ks <-> S t /\ Forall (fun k => sat k t) ks) by (intros t; rewrite Q; tauto).
  destruct (proj1 (C109_extend p g hint ks n' C (answer_anchored p n S g A Cs) Lk H0 H1 ltac:(unfold reach; rewrite Sz; auto)
    ltac:(destruct Co as (t & T); exists t; apply Eq; exact T))) as (g' & E & A').
  { eapply spread_ext; [|exact Sp]. intros t. symmetry. apply Eq. }
  assert (A2 : answer p n' (fun t => S t /\ Forall (fun k => sat k t) ks) g') by (eapply answer_ext; [exact Eq|exact A']).
  exists g'. split; [exact R|]. split; [exact E|]. split; [exact A2|]. intros -> I.
  apply (answer_unique p n S); auto. eapply answer_ext; [|exact A2]. intros t. cbv beta. split; [tauto|auto].
Qed.

(** ** Examples (those of C110 meet the hypotheses of [C117_more], [C117_merge] and [C117_all]) *)

(** On a graph with bounds whose sum is no time value: a refused constraint, and one that adds nothing *)
Example C117_case : exists S, means e_merge 3 S /\
  good 3 oo (mkK 0 2 false 1 oo) /\ (forall t, ~ (S t /\ sat (mkK 0 2 false 1 oo) t)) /\
  good 3 oo (mkK 0 2 false 0 0) /\ (exists t, S t /\ sat (mkK 0 2 false 0 0) t) /\ spread 3 (fun t => S t /\ sat (mkK 0 2 false 0 0) t) /\
  forall p, run p e_merge = Ret g_m /\ g_propagate p g_m (mkK 0 2 false 1 oo) = Ret (g_m, Recovered) /\
    g_propagate p g_m (mkK 0 2 false 0 0) = Ret (g_m, Unchanged).
Proof.
  destruct e_merge_means as (S & H & Q). exists S. split; [exact H|]. split; [goodk|]. split.
  { intros t (T & K). apply Q in T. unfold sat, In_ext in K. cbn [k_from k_to k_lo k_up lower upper] in K.
    destruct K as ([K|K] & _); [discriminate|]. lia. }
  assert (E : forall t, S t /\ sat (mkK 0 2 false 0 0) t <-> t 1 - t 0 = far /\ t 2 - t 1 = - far).
  { intros t. rewrite Q. rewrite sat_eq by discriminate. lia. }
  split; [goodk|]. split; [exists (fun i => if i =? 1 then far else 0); apply E; split; reflexivity|].
  split; [eapply spread_ext; [|exact e_spread]; intros t; symmetry; apply E|].
  intros p. destruct p; repeat split; vm_compute; reflexivity.
Qed.
(** A constraint that removes dates, given twice, then merged with the graph of before *)
Example C117_fewer_case : exists S, means (Add New (mkK 0 1 false far oo)) 2 S /\
  good 2 oo (mkK 0 1 false far far) /\ (exists t, S t /\ sat (mkK 0 1 false far far) t) /\ spread 2 (fun t => S t /\ sat (mkK 0 1 false far far) t) /\
  forall p, exists g, run p (Add New (mkK 0 1 false far oo)) = Ret g /\ exists g', g_propagate p g (mkK 0 1 false far far) = Ret (g', Propagated) /\
    g_propagate p g' (mkK 0 1 false far far) = Ret (g', Unchanged) /\ g_merge p g' g = Ret (g', Unchanged) /\ g_merge p g g' = Ret (g', Propagated).
Proof.
  eexists. split; [apply (m_more New 0 (fun _ => True) (mkK 0 1 false far oo)); [apply m_new|goodk|cbn; lia..]|].
  split; [goodk|].
  assert (E : forall t, (True /\ sat (mkK 0 1 false far oo) t) /\ sat (mkK 0 1 false far far) t <-> True /\ sat (mkK 0 1 false far far) t).
  { intros t. split; [tauto|]. intros (_ & K). split; auto. split; auto. apply sat_eq in K; [|discriminate..].
    unfold sat, In_ext. cbn [k_from k_to k_lo k_up lower upper]. split; [right; lia|left; reflexivity]. }
  split; [exists (fun i => if i =? 1 then far else 0); apply E; split; auto; apply sat_eq; [discriminate..|reflexivity]|]. split.
  - eapply spread_ext; [intros t; symmetry; apply E|].
    destruct (C110_program Debug (Add New (mkK 0 1 false far far)) 2 (fun t => True /\ sat (mkK 0 1 false far far) t)) as (g & _ & _ & A & _).
    + apply (m_more New 0 (fun _ => True) (mkK 0 1 false far far)); [apply m_new|goodk|cbn; lia..].
    + apply (answer_spread Debug 2 _ g A).
  - intros p. destruct p; eexists; (split; [vm_compute; reflexivity|]); eexists; repeat split; vm_compute; reflexivity.
Qed.
