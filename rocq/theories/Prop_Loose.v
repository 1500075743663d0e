(** Programs that grow a graph by [propagate], without margin (property C111): they keep the
    solutions, and one [extend] completes the graph. *)
From Verif Require Import Machine TimeValue Spec Tac TimeValueProofs Interval Iter TimeSet Relns
  SpecSets Graph MaxPlus FwBound GraphProofs GraphOps GraphFits GraphWarshall GraphGrow GraphSafe GraphMem
  GraphHist GraphTight SpecGraph GraphSound GraphMono GraphInv GraphIter GraphCalls Prop_Graph Prop_Propagation
  Prop_GraphRepair Prop_GraphQuery Prop_Seen Prop_Queries Prop_Fits Prop_Represent Prop_Program.

(** ** Specification *)

(** The meaning of a program, with a flag: is the graph surely minimal?  It is not after a constraint
    between an instant of the graph and a new one; [extend] makes it minimal again. *)
Inductive builds : bool -> prog -> Z -> ((Z -> Z) -> Prop) -> Prop :=
| b_exact m n S : means m n S -> builds true m n S
| b_grow b m n S k : builds b m n S -> good 65535 oo k -> n <= Z.max (k_from k) (k_to k) -> k_from k <> k_to k ->
    builds false (Add m k) (Z.max (k_from k) (k_to k) + 1) (fun t => S t /\ sat k t)
| b_all b m n S hint ks n' : builds b m n S -> Forall legal ks -> hint <> Some 0 -> hint <> Some 1 ->
    n <= n' -> Forall (fun k => k_from k < n' /\ k_to k < n') ks ->
    (n' = n \/ Exists (fun k => n' = k_from k + 1 \/ n' = k_to k + 1) ks) ->
    (exists t, S t /\ Forall (fun k => sat k t) ks) ->
    spread n' (fun t => S t /\ Forall (fun k => sat k t) ks) ->
    builds true (AddAll m hint ks) n' (fun t => S t /\ Forall (fun k => sat k t) ks)
| b_add m n S k : builds true m n S -> good n oo k -> (exists t, S t /\ sat k t) ->
    spread n (fun t => S t /\ sat k t) -> builds true (Add m k) n (fun t => S t /\ sat k t)
| b_refused m n S k : builds true m n S -> good n oo k -> (forall t, ~ (S t /\ sat k t)) -> builds true (Add m k) n S
| b_merge b b' m m' n n' S S' : builds b m n S -> builds b' m' n' S' -> (exists t, S t /\ S' t) ->
    spread (Z.max n n') (fun t => S t /\ S' t) -> builds (b && b') (Merge m m') (Z.max n n') (fun t => S t /\ S' t)
| b_larger b m n S n' : builds b m n S -> n <= n' <= 65535 -> builds b (Resize m n') n' S
| b_smaller m n S n' : builds true m n S -> 0 <= n' <= n ->
    builds true (Resize m n') n' (fun t => exists t', S t' /\ forall i, 0 <= i < n' -> t i = t' i)
| b_clear b m n S : builds b m n S -> builds true (Clear m) n (fun _ => True).
(** The solutions of [g] are the dates described by [S]; each instant is at no distance of itself. *)
Definition faithful (p : profile) (n : Z) (S : (Z -> Z) -> Prop) (g : graph) : Prop :=
  stored g /\ g_size g = n /\ anchored p g /\ forall t, solution p g t <-> S t.

(** ** Proofs *)

Lemma answer_faithful p n S g : answer p n S g -> (exists t, S t) -> faithful p n S g.
Proof.
  intros A Co. pose proof (answer_anchored p n S g A Co). destruct A as (A1 & A2 & _ & _ & A5).
  split; [exact A1|]. auto.
Qed.
Lemma faithful_msat p n S g : faithful p n S g -> mem_ok g /\ g_size g = n /\
  (forall i, node n i -> cell g i i = 0) /\ forall t, msat n (cell g) t <-> S t.
Proof.
  intros (St & <- & An & H). split; auto. split; auto. split; [intros i Ni; apply (anchored_diag p g); auto|].
  intros t. rewrite <- H. symmetry. apply sol_msat; auto.
Qed.
Lemma msat_faithful p n S g : mem_ok g -> g_size g = n -> (forall i, node n i -> cell g i i = 0) ->
  (forall t, msat n (cell g) t <-> S t) -> faithful p n S g.
Proof.
  intros M <- Z0 H. split; [apply M|]. split; auto. split.
  - intros i Ni. rewrite timespan_ok by auto. rewrite Z0 by auto. auto.
  - intros t. rewrite sol_msat by auto. apply H.
Qed.
Lemma some_value lo up : lo <= up -> lo < oo -> - oo < up -> exists v, In_ext v (mkI lo up).
Proof.
  intros L A B. unfold In_ext. cbn [lower upper]. destruct (Z.eq_dec lo (- oo)) as [e|e]; [|exists lo; lia].
  exists up. lia.
Qed.
Lemma grow_faithful p g n S k : exact g -> faithful p n S g -> (exists t, S t) -> good 65535 oo k ->
  n <= Z.max (k_from k) (k_to k) -> k_from k <> k_to k ->
  exists g', g_propagate p g k = Ret (g', Propagated) /\
    faithful p (Z.max (k_from k) (k_to k) + 1) (fun t => S t /\ sat k t) g' /\ exists t, S t /\ sat k t.
Proof.
  intros X F (t0 & S0) G L Ne. destruct (faithful_msat p n S g F) as (M & Sz & Z0 & H). pose proof X as (_ & _ & V).
  pose proof (good_legal 65535 k ltac:(lia) G) as Lk. pose proof G as (Ek & (W1 & W2 & W3 & W4 & W5) & Nf & Nt & _). cbn [lower upper] in *.
  destruct (inserted_ok p [k] g M (exact_clean _ X) V ltac:(constructor; auto)) as (g1 & E1 & M1 & C1 & S1 & V1 & O1 & MS).
  assert (S1' : g_size g1 = Z.max (k_from k) (k_to k) + 1) by (rewrite S1; unfold ksize; cbn [fold_left]; lia).
  assert (N0 : 0 <= n) by (rewrite <- Sz; apply M).
  exists g1. split.
  { rewrite grow_insert; auto; [|apply exact_clean; auto|unfold inside; lia]. cbn [ofold] in E1.
    destruct (g_insert p g k) as [g2| | |]; cbn in *; congruence. }
  split.
  - apply msat_faithful; auto.
    + intros i Ni. rewrite <- S1' in Ni. assert (O : 0 < oo) by reflexivity.
      assert (Q : forall w, ent (cell g1) i i w <-> w <= 0).
      { intros w. rewrite (O1 i i w Ni Ni). unfold ent, extm. rewrite Z.eqb_refl.
        assert (K : ~ exists w', kedges [k] i i w' /\ w <= w'). { intros (w' & (k' & [<-|[]] & K) & _). unfold kedge in K. lia. }
        destruct ((i <? g_size g) && (i <? g_size g)) eqn:T.
        - rewrite (Z0 i) by (unfold node in *; lia). split; [intros [Y|Y]; tauto|]. intros Y. left. split; [discriminate|auto].
        - split; [intros [Y|Y]; tauto|]. intros Y. left. split; [discriminate|auto]. }
      unfold ent in Q. pose proof (proj2 (Q 0) ltac:(lia)) as Q0. pose proof (proj1 (Q (cell g1 i i)) ltac:(lia)). lia.
    + intros t. rewrite <- S1'. rewrite MS. rewrite Sz, H. unfold sat. split.
      * intros (A & B). inversion B; auto.
      * intros (A & B). split; auto.
  - destruct (some_value (k_lo k) (k_up k) W2 W4 W5) as (v & Iv).
    assert (Loc : forall t t', (forall i, 0 <= i < n -> t i = t' i) -> S t -> S t').
    { intros t t' A Q. apply H. apply H in Q. intros i j w Ni Nj E. rewrite <- (A i), <- (A j) by auto. apply Q; auto. }
    destruct (Z_le_gt_dec n (k_to k)) as [lt|lt].
    + exists (upd t0 (k_to k) (t0 (k_from k) + v)). split.
      * apply (Loc t0); auto. intros i Ni. unfold upd. replace (i =? k_to k) with false by lia. auto.
      * unfold sat, upd. rewrite Z.eqb_refl. replace (k_from k =? k_to k) with false by lia.
        replace (_ - _) with v by lia. auto.
    + exists (upd t0 (k_from k) (t0 (k_to k) - v)). split.
      * apply (Loc t0); auto. intros i Ni. unfold upd. replace (i =? k_from k) with false by lia. auto.
      * unfold sat, upd. rewrite Z.eqb_refl. replace (k_to k =? k_from k) with false by lia.
        replace (_ - _) with v by lia. auto.
Qed.
Lemma larger_faithful p g n S m : exact g -> faithful p n S g -> n <= m <= 65535 ->
  exists g', g_resize p g m = Ret g' /\ faithful p m S g'.
Proof.
  intros X F L. destruct (faithful_msat p n S g F) as (M & Sz & Z0 & H). assert (N0 : 0 <= n) by (rewrite <- Sz; apply M).
  destruct (resize_exact p g m X ltac:(lia)) as (g' & E & Sz' & X' & C). exists g'. split; auto.
  pose proof (extended_exact g g' n m Sz Sz' C) as Ex. pose proof (extended_ent n m _ _ N0 Z0 Ex) as En.
  apply msat_faithful; auto; [apply X'| |].
  - intros i Ni. rewrite Ex by auto. destruct ((i <? n) && (i <? n)) eqn:T; [apply Z0; unfold node in *; lia|].
    rewrite Z.eqb_refl. auto.
  - intros t. rewrite <- H. split.
    + intros Q i j w Ni Nj Y. apply Q; [unfold node in *; lia..|]. apply En; [unfold node in *; lia..|]. left. auto.
    + intros Q i j w Ni Nj Y. apply En in Y; auto. destruct Y as [(Y1 & Y2 & Y)|(-> & Y)]; [apply Q; auto|lia].
Qed.
Lemma merge_faithful p g h S S' : exact g -> exact h -> faithful p (g_size g) S g -> faithful p (g_size h) S' h ->
  (exists t, S t /\ S' t) -> spread (Z.max (g_size g) (g_size h)) (fun t => S t /\ S' t) ->
  exists g' r, g_merge p g h = Ret (g', r) /\ accepted r /\
    faithful p (Z.max (g_size g) (g_size h)) (fun t => S t /\ S' t) g'.
Proof.
  intros X X' F F' Co Sp. destruct (faithful_msat p _ S g F) as (M & _ & Zg & H).
  destruct (faithful_msat p _ S' h F') as (M' & _ & Zh & H'). destruct (merged_ok g h X X') as (Xm & Sz & MS).
  assert (MS' : forall t, msat (g_size (merged g h)) (cell (merged g h)) t <-> S t /\ S' t).
  { intros t. rewrite MS, H, H'. tauto. }
  assert (Zm : forall i, node (g_size (merged g h)) i -> cell (merged g h) i i = 0).
  { intros i Ni. rewrite Sz in Ni.
    assert (W : forall a b, exact a -> exact b -> g_size b <= g_size a -> (forall i, node (g_size a) i -> cell a i i = 0) ->
      (forall i, node (g_size b) i -> cell b i i = 0) -> node (g_size a) i ->
      cell (mkG (g_size a) (fst (zip_max (g_data a) (g_data b)))) i i = 0).
    { intros a b Xa Xb L Za Zb Na. rewrite zip_cells by (auto; apply Xa). rewrite (Za i Na).
      destruct ((i <? g_size b) && (i <? g_size b)) eqn:T; [rewrite (Zb i) by (unfold node in *; lia)|]; auto. }
    unfold merged. destruct (g_size g <? g_size h) eqn:T; apply W; auto; try lia; unfold node in *; lia. }
  rewrite merge_unfold. rewrite <- Sz in *. destruct (snd _) eqn:Ch.
  - destruct (global_answer p (merged g h) (fun t => S t /\ S' t)) as (g' & E & A); auto.
    + intros i Ni. rewrite Zm by auto. lia.
    + exists g', Propagated. split; auto. split; [right; auto|]. apply answer_faithful; auto.
  - exists (merged g h), (if g_size g <? g_size h then Propagated else Unchanged). split; auto.
    split; [destruct (g_size g <? g_size h); [right|left]; auto|]. apply msat_faithful; auto. apply Xm.
Qed.

(** ** C111 *)

(** Any such program ends without panic nor undefined behaviour, in both profiles; the graph has
    exactly the solutions that the program describes, and it is minimal when the flag says so. *)
Theorem C111_program : forall p b m n S, builds b m n S ->
  exists g, run p m = Ret g /\ calls p false g /\ faithful p n S g /\ (b = true -> answer p n S g) /\ exists t, S t.
Proof.
  intros p b m n S H. induction H as [m n S H|b m n S k H IH G L Ne|b m n S hint ks n' H IH Lk H0 H1 L F X Co Sp
    |m n S k H IH G Co Sp|m n S k H IH G N|b b' m m' n n' S S' H IH H' IH' Co Sp|b m n S n' H IH L|m n S n' H IH L|b m n S H IH].
  - destruct (C110_program p m n S H) as (g & R & C & A & Co). exists g. split; auto. split; auto.
    split; [apply answer_faithful; auto|]. auto.
  - destruct IH as (g & R & C & F & _ & Co). pose proof (calls_exact _ _ C) as X.
    destruct (grow_faithful p g n S k X F Co G L Ne) as (g' & E & F' & Co').
    exists g'. simpl. rewrite R. cbn [bind]. rewrite E. cbn [bind fst]. split; auto. split.
    { eapply c_propagate; eauto. apply (good_legal 65535); auto. lia. }
    split; auto. split; [discriminate|auto].
  - destruct IH as (g & R & C & (St & Sz & An & Q) & _ & Co0).
    assert (Ex : forall t, solution p g t /\ Forall (fun k => sat k t) ks <-> S t /\ Forall (fun k => sat k t) ks).
    { intros t. rewrite Q. tauto. }
    destruct (proj1 (C109_extend p g hint ks n' C An Lk H0 H1
      ltac:(unfold reach; rewrite Sz; auto) ltac:(destruct Co as (t & T); exists t; apply Ex; auto))) as (g' & E & A').
    { eapply spread_ext; [|exact Sp]. intros t. symmetry. apply Ex. }
    apply (answer_ext p n' _ (fun t => S t /\ Forall (fun k => sat k t) ks)) in A'; [|exact Ex].
    exists g'. simpl. rewrite R. cbn [bind]. rewrite E. cbn [bind fst]. split; auto. split.
    { eapply c_extend; eauto. discriminate. }
    split; [apply answer_faithful; auto|]. auto.
  - destruct IH as (g & R & C & _ & A & _). specialize (A eq_refl). pose proof A as (St & Sz & Mn & Rg & Q).
    destruct (proj1 (C108_exact p g k St Mn Rg ltac:(rewrite Sz; auto) ltac:(destruct Co as (t & T & K); exists t; split; auto; apply Q; auto)))
      as (g' & r & E & Ac & St' & Sz' & Mn' & Rg' & Q').
    { intros i j Ni Nj. rewrite Sz in Ni, Nj. destruct (Sp i j Ni Nj) as (iv & P & V). exists iv. split; auto. intros v. rewrite V.
      split; [intros (t & (T & K) & D)|intros (t & T & K & D)]; exists t; [split; [apply Q; auto|auto]|split; [split; [apply Q; auto|auto]|auto]]. }
    assert (A' : answer p n (fun t => S t /\ sat k t) g').
    { split; auto. split; [congruence|]. split; auto. split; auto. intros t. rewrite Q', Q. tauto. }
    exists g'. simpl. rewrite R. cbn [bind]. rewrite E. cbn [bind fst]. split; auto. split.
    { eapply c_propagate; eauto. apply (good_legal n); auto. rewrite <- Sz. apply St. }
    split; [apply answer_faithful; auto|]. auto.
  - destruct IH as (g & R & C & F & A & Co). specialize (A eq_refl). pose proof A as (St & Sz & Mn & Rg & Q).
    exists g. simpl. rewrite R. cbn [bind].
    rewrite (C108_refused p g k St Mn Rg ltac:(destruct Co as (t & T); exists t; apply Q; auto) ltac:(rewrite Sz; auto))
      by (intros t (T & K); apply (N t); split; [apply Q; auto|auto]).
    auto.
  - destruct IH as (g & R & C & F & A & Co0). destruct IH' as (h & R' & C' & F' & A' & Co0').
    pose proof (calls_exact _ _ C) as X. pose proof (calls_exact _ _ C') as X'.
    pose proof F as (_ & Sz & _). pose proof F' as (_ & Sz' & _). subst n n'.
    destruct (merge_faithful p g h S S' X X' F F' Co Sp) as (g' & r & E & Ac & B).
    exists g'. simpl. rewrite R, R'. cbn [bind]. rewrite E. cbn [bind fst]. split; auto. split.
    { eapply c_merge; [exact C|exact C'|exact E|]. intros ->. destruct Ac; discriminate. }
    split; auto. split; auto. intros Eb. apply andb_prop in Eb. destruct Eb as (Eb & Eb').
    destruct (A Eb) as (_ & _ & Mn & _ & Q). destruct (A' Eb') as (_ & _ & Mn' & _ & Q').
    assert (Ex : forall t, solution p g t /\ solution p h t <-> S t /\ S' t) by (intros t; rewrite Q, Q'; tauto).
    destruct (proj1 (C109_merge p g h C C' Mn Mn' ltac:(destruct Co as (t & T); exists t; apply Ex; auto))) as (g2 & r2 & E2 & _ & B2).
    { eapply spread_ext; [|exact Sp]. intros t. symmetry. apply Ex. }
    rewrite E in E2. injection E2 as <- _. eapply answer_ext; [|exact B2]. auto.
  - destruct IH as (g & R & C & F & A & Co). pose proof (calls_exact _ _ C) as X.
    destruct (larger_faithful p g n S n' X F L) as (g' & E & F'). exists g'. simpl. rewrite R. cbn [bind]. split; auto.
    pose proof F as (M & Sz & _). assert (N0 : 0 <= n) by (rewrite <- Sz; apply M).
    split; [eapply c_resize; eauto; lia|]. split; auto. split; auto. intros Eb. specialize (A Eb).
    destruct (resize_answer p g n S n' X A Co ltac:(lia)) as (g2 & E2 & _ & _ & A2). rewrite E in E2. injection E2 as <-.
    eapply answer_ext; [|exact A2]. intros t. split; [|intros T; exists t; auto]. intros (t' & T & Ag).
    destruct (faithful_msat p n S g F) as (_ & _ & _ & H0). apply H0. apply H0 in T. intros i j w Ni Nj Y.
    rewrite (Ag i), (Ag j) by (unfold node in *; lia). apply T; auto.
  - destruct IH as (g & R & C & F & A & Co). specialize (A eq_refl). pose proof (calls_exact _ _ C) as X.
    pose proof F as (M & Sz & _).
    destruct (resize_answer p g n S n' X A Co) as (g' & E & _ & _ & A'); [destruct M; lia|].
    assert (Co' : exists t, exists t', S t' /\ forall i, 0 <= i < n' -> t i = t' i).
    { destruct Co as (t & T). exists t. exists t. auto. }
    exists g'. simpl. rewrite R. cbn [bind]. split; auto. split; [eapply c_resize; eauto; destruct M; lia|].
    split; [apply answer_faithful; auto|]. auto.
  - destruct IH as (g & R & C & F & _ & Co). pose proof (calls_exact _ _ C) as X.
    destruct (reset_answer p g X) as (g' & E & A'). exists g'. simpl. rewrite R. cbn [bind]. split; auto.
    pose proof F as (_ & Sz & _). rewrite Sz in A'. assert (Co' : exists t : Z -> Z, True) by (exists (fun _ => 0); auto).
    split; [eapply c_reset; eauto|]. split; [apply answer_faithful; auto|]. auto.
Qed.
(** Whatever was grown, one [extend], even without constraint, completes the graph: it is the one that
    any other program with the same meaning builds.  Its iterator does not announce 0 or 1 constraint. *)
Theorem C111_completed : forall p b m n S hint m' S', builds b m n S -> hint <> Some 0 -> hint <> Some 1 -> spread n S ->
  means m' n S' -> (forall t, S t <-> S' t) ->
  exists g g', run p (AddAll m hint []) = Ret g /\ run p m' = Ret g' /\ answer p n S g /\ same_bounds p g g'.
Proof.
  intros p b m n S hint m' S' H H0 H1 Sp H' E. destruct (C111_program p b m n S H) as (g0 & _ & _ & _ & _ & Co).
  assert (E2 : forall t, S t /\ Forall (fun k => sat k t) [] <-> S t) by (intros t; split; [tauto|auto]).
  assert (B : builds true (AddAll m hint []) n (fun t => S t /\ Forall (fun k => sat k t) [])).
  { eapply b_all; eauto; [lia| |].
    - destruct Co as (t & T). exists t. auto.
    - eapply spread_ext; [|exact Sp]. intros t. symmetry. apply E2. }
  destruct (C111_program p _ _ _ _ B) as (g & R & _ & _ & A & _). specialize (A eq_refl).
  destruct (C110_program p m' n S' H') as (g' & R' & _ & A' & _). exists g, g'. split; auto. split; auto.
  apply (answer_ext p n _ S) in A; [|exact E2]. split; auto. eapply answer_unique; [exact A| |exact Co].
  eapply answer_ext; [|exact A']. intros t. symmetry. apply E.
Qed.
(** Before it, each interval contains all the possible differences, but may be too large. *)
Theorem C111_timespan : forall p b m n S i j, builds b m n S -> 0 <= i < n -> 0 <= j < n ->
  exists g iv, run p m = Ret g /\ g_timespan p g i j = Ret iv /\ forall t, S t -> In_ext (t j - t i) iv.
Proof.
  intros p b m n S i j H Ni Nj. destruct (C111_program p b m n S H) as (g & R & _ & (St & Sz & An & Q) & _ & (t0 & T0)).
  rewrite <- Sz in Ni, Nj. apply Q in T0. destruct (T0 i j Ni Nj) as (iv & E & _). exists g, iv. split; auto. split; auto.
  intros t T. apply Q in T. destruct (T i j Ni Nj) as (iv' & E' & I). rewrite E in E'. injection E' as <-. auto.
Qed.

(** ** Examples *)

(** Two constraints in a row: the graph does not say that the first and the last instants are at the
    same date until an empty [extend]. *)
Definition e_grow : prog := Add (Add New (mkK 0 1 false far far)) (mkK 1 2 false (- far) (- far)).
Definition g_grow : graph := mkG 3 [0; - far; 0; far; - oo; far; 0; - far; - oo].
Example C111_case : exists S S', builds false e_grow 3 S /\ spread 3 S /\ means e_merge 3 S' /\ (forall t, S t <-> S' t) /\
  (forall t, S t -> t 2 - t 0 = 0) /\ forall p, run p e_grow = Ret g_grow /\ g_timespan p g_grow 0 2 = Ret (mkI (- oo) oo) /\
  run p (AddAll e_grow None []) = Ret g_m /\ g_timespan p g_m 0 2 = Ret (mkI 0 0).
Proof.
  destruct e_merge_means as (S' & H' & Q').
  assert (Q : forall t, (True /\ sat (mkK 0 1 false far far) t) /\ sat (mkK 1 2 false (- far) (- far)) t <->
     t 1 - t 0 = far /\ t 2 - t 1 = - far).
  { intros t. rewrite !sat_eq by discriminate. tauto. }
  exists (fun t => (True /\ sat (mkK 0 1 false far far) t) /\ sat (mkK 1 2 false (- far) (- far)) t), S'.
  split.
  { apply (b_grow true (Add New (mkK 0 1 false far far)) 2 (fun t => True /\ sat (mkK 0 1 false far far) t)
      (mkK 1 2 false (- far) (- far))); [|goodk|cbn; lia..].
    apply b_exact. apply (m_more New 0 (fun _ => True) (mkK 0 1 false far far)); [constructor|goodk|cbn; lia..]. }
  split; [eapply spread_ext; [|exact e_spread]; intros t; symmetry; apply Q|].
  split; auto. split; [intros t; rewrite Q, Q'; tauto|]. split; [intros t T; apply Q in T; lia|].
  intros p. destruct p; (split; [vm_compute; reflexivity|]; split; [vm_compute; reflexivity|]; split; vm_compute; reflexivity).
Qed.
