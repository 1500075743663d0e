(** Removing instants of any minimal graph (property C116), whatever its size and its bounds: [resize]
    to fewer instants keeps the restrictions of the solutions and [shrink_to_fit] removes exactly the
    last instants that the solutions leave free.  C50 says so for the graphs of the bounded
    histories only. *)
From Verif Require Import Machine TimeValue Spec Tac TimeValueProofs Interval Iter TimeSet Relns
  SpecSets Graph MaxPlus FwBound GraphProofs GraphOps GraphFits GraphWarshall GraphGrow GraphSafe GraphMem
  GraphHist GraphTight SpecGraph GraphSound GraphMono GraphInv GraphIter GraphCalls Prop_Graph Prop_Propagation
  Prop_GraphQuery Prop_Seen Prop_Queries Prop_Fits Prop_Represent Prop_Program.

(** ** Specification *)

(** The dates described by [S] leave the instant [i] free: it may be at any distance of each other
    one of the [n] instants. *)
Definition loose (n : Z) (S : (Z -> Z) -> Prop) (i : Z) : Prop :=
  forall j v, 0 <= j < n -> j <> i -> exists t, S t /\ t i - t j = v.

(** ** Proofs *)

Section Any.
Variables (p : profile) (g : graph).
Hypotheses (St : stored g) (Mn : minimal p g) (Co : exists t, solution p g t).
Let M : mem_ok g := proj1 (stored_mem g) St.
Let Cl : closed (g_size g) (cell g) := any_closed p g St Mn Co.

Lemma any_resize m : 0 <= m <= 65535 -> exists g', g_resize p g m = Ret g' /\ g_size g' = m /\ mem_ok g' /\
  (forall a b, node m a -> node m b -> node (g_size g) a -> node (g_size g) b -> cell g' a b = cell g a b).
Proof.
  intros Hm. pose proof M as ((S0 & S1) & _).
  destruct (resize_ok p g m S0 Hm) as (g' & E & S & M' & _ & _ & _ & C). exists g'.
  split; [exact E|]. split; [exact S|]. split; [exact M'|]. intros a b Na Nb Ga Gb. apply C; auto. unfold node in *. lia.
Qed.
(** Fewer instants *)
Theorem C116_resize : forall m, 0 <= m <= g_size g ->
  exists g', g_resize p g m = Ret g' /\ g_size g' = m /\ minimal p g' /\
    (forall i j, 0 <= i < m -> 0 <= j < m -> g_timespan p g' i j = g_timespan p g i j) /\
    (forall t, solution p g' t <-> exists t', solution p g t' /\ forall i, 0 <= i < m -> t' i = t i).
Proof.
  intros m Hm. pose proof M as ((S0 & S1) & _). destruct (any_resize m ltac:(lia)) as (g' & E & S & M' & C).
  assert (NN : forall a, node m a -> node (g_size g) a) by (unfold node; lia).
  assert (C' : forall a b, node m a -> node m b -> cell g' a b = cell g a b) by (intros; apply C; auto).
  assert (Cl' : closed m (cell g')).
  { destruct Cl as (Zd & Tr). split.
    - intros i Ni. rewrite C' by auto. auto.
    - intros i k j a b Ni Nk Nj. unfold ent. rewrite !C' by auto. apply Tr; auto. }
  exists g'. split; auto. split; auto. split; [|split].
  - apply closed_min_any; auto. rewrite S. exact Cl'.
  - intros i j Hi Hj. rewrite !timespan_ok by (auto; rewrite ?S; unfold node; lia). rewrite !C' by auto. auto.
  - intros t. rewrite sol_msat, S by auto. split.
    + intros Mt. destruct (closed_extends (g_size g) (cell g) (nodes m) t Cl) as (t' & Eq & Mt').
      * apply Forall_forall. intros i Ii. apply nodes_in in Ii. auto.
      * intros i j w Ii Ij En. apply nodes_in in Ii, Ij. apply Mt; auto. unfold ent in *. rewrite C' by auto. auto.
      * exists t'. split; [apply sol_msat; auto|]. intros i Hi. apply Eq, nodes_in. auto.
    + intros (t' & Mt' & Eq) i j w Ni Nj En. rewrite sol_msat in Mt' by auto.
      rewrite <- !Eq by auto. apply Mt'; auto. unfold ent in *. rewrite <- C' by auto. auto.
Qed.
Lemma any_extends m : 0 <= m <= g_size g -> (forall i, m <= i < g_size g -> ~ constrained g i) ->
  extends m (cell g) (g_size g) (cell g).
Proof.
  intros L C a b Na Nb. destruct ((a <? m) && (b <? m)) eqn:T; auto. destruct (a =? b) eqn:T2.
  - assert (a = b) by lia. subst. apply Cl. auto.
  - assert (U : forall i j, m <= i < g_size g -> 0 <= j < i -> cell g i j = - oo /\ cell g j i = - oo).
    { intros i j Hi Hj. split.
      - destruct (Z.eq_dec (cell g i j) (- oo)); auto. destruct (C i Hi). exists j. auto.
      - destruct (Z.eq_dec (cell g j i) (- oo)); auto. destruct (C i Hi). exists j. auto. }
    unfold node in *. destruct (Z_lt_le_dec a b) as [l|l].
    + apply (U b a); lia.
    + apply (U a b); lia.
Qed.
(** A difference between two instants that takes all the values *)
Lemma any_free i j : node (g_size g) i -> node (g_size g) j ->
  ((forall v, exists t, solution p g t /\ t i - t j = v) <-> cell g i j = - oo /\ cell g j i = - oo).
Proof.
  intros Ni Nj. split.
  - intros F. split.
    + destruct (Z.eq_dec (cell g i j) (- oo)) as [e|e]; auto. exfalso.
      destruct (F (1 - cell g i j)) as (t & T & V). pose proof (any_bounds p g St i j t Ni Nj T) as (L & _).
      cbn [lower upper] in L. lia.
    + destruct (Z.eq_dec (cell g j i) (- oo)) as [e|e]; auto. exfalso.
      destruct (F (cell g j i - 1)) as (t & T & V). pose proof (any_bounds p g St j i t Nj Ni T) as (L & _).
      cbn [lower upper] in L. lia.
  - intros (A & B) v. apply (any_min p g St Mn j i v Nj Ni). rewrite A, B. split; cbn [lower upper]; lia.
Qed.
Lemma loose_cells n i : n <= g_size g -> node (g_size g) i ->
  (loose n (solution p g) i <-> forall j, 0 <= j < n -> j <> i -> cell g i j = - oo /\ cell g j i = - oo).
Proof.
  intros Ln Ni. split.
  - intros F j Nj Ne. apply any_free; [auto|unfold node; lia|]. intros v. apply F; auto.
  - intros F j v Nj Ne. apply any_free; auto. unfold node. lia.
Qed.
Lemma free_loose m : 0 <= m <= g_size g ->
  ((forall i, m <= i < g_size g -> loose (g_size g) (solution p g) i) <-> forall i, m <= i < g_size g -> ~ constrained g i).
Proof.
  intros Hm. split.
  - intros F i Hi (j & Hj & C). destruct (proj1 (loose_cells (g_size g) i ltac:(lia) ltac:(unfold node; lia)) (F i Hi) j) as (A & B); [lia..|].
    destruct C; auto.
  - intros C i Hi. apply loose_cells; [lia|unfold node; lia|]. intros j Hj Ne. pose proof (any_extends m Hm C) as X.
    rewrite (X i j), (X j i) by (unfold node; lia).
    replace ((i <? m) && (j <? m)) with false by lia. replace ((j <? m) && (i <? m)) with false by lia.
    replace (i =? j) with false by lia. replace (j =? i) with false by lia. auto.
Qed.
(** No more instants than needed *)
Theorem C116_shrink : exists g', g_shrink_to_fit p g = Ret g' /\ 0 <= g_size g' <= g_size g /\ stored g' /\ minimal p g' /\
  (forall i j, 0 <= i < g_size g' -> 0 <= j < g_size g' -> g_timespan p g' i j = g_timespan p g i j) /\
  (forall t, solution p g' t <-> solution p g t) /\
  (forall m, 0 <= m <= g_size g -> (g_size g' <= m <-> forall i, m <= i < g_size g -> loose (g_size g) (solution p g) i)) /\
  exists g2, g_resize p g' (g_size g) = Ret g2 /\ same_bounds p g2 g.
Proof.
  pose proof M as ((S0 & S1) & S2). destruct (shrink_ok p g M) as (m & E & L & C & F).
  assert (M' : mem_ok (mkG m (g_data g))) by (split; simpl; [lia|]; nia).
  pose proof (any_extends m L C) as X. exists (mkG m (g_data g)).
  assert (Cg : forall a b, cell (mkG m (g_data g)) a b = cell g a b) by reflexivity.
  split; [exact E|]. cbn [g_size]. split; [exact L|]. split; [apply stored_mem; exact M'|]. split; [|split; [|split; [|split]]].
  - apply closed_min_any; auto. cbn [g_size]. destruct Cl as (Zd & Tr). split.
    + intros i Ni. rewrite Cg. apply Zd. unfold node in *. lia.
    + intros i k j a b Ni Nk Nj. unfold ent. rewrite !Cg. apply Tr; unfold node in *; lia.
  - intros i j Hi Hj. rewrite !timespan_ok by (auto; unfold node; cbn [g_size]; lia). rewrite !Cg. auto.
  - intros t. rewrite !sol_msat by auto. cbn [g_size]. rewrite (extends_msat _ _ _ _ t X) by lia.
    unfold msat, ent. split; intros Mt i j w Ni Nj W; apply Mt; auto; rewrite ?Cg in *; auto.
  - intros q Hq. rewrite free_loose by auto. split.
    + intros Q i Hi. apply C. lia.
    + intros Q. destruct F as [F|F]; [lia|]. destruct (Z_lt_le_dec q m); auto. exfalso. apply (Q (m - 1)); auto. lia.
  - destruct (resize_ok p (mkG m (g_data g)) (g_size g) ltac:(cbn [g_size]; lia) ltac:(lia)) as (g2 & E2 & Z2 & M2 & _ & _ & D2 & C2).
    exists g2. split; [exact E2|]. split; [exact Z2|]. intros i j Hi Hj. rewrite Z2 in Hi, Hj.
    assert (Q : forall a b, node (g_size g) a -> node (g_size g) b -> cell g2 a b = cell g a b).
    { intros a b Na Nb. destruct (Z.eq_dec a b) as [e|e].
      - subst b. destruct (Z_lt_le_dec a m) as [l|l].
        + rewrite C2 by (auto; right; cbn [g_size]; lia). reflexivity.
        + rewrite D2 by (cbn [g_size]; unfold node in *; lia). symmetry. apply Cl. auto.
      - rewrite C2 by auto. reflexivity. }
    rewrite !timespan_ok by (auto; rewrite ?Z2; unfold node; lia). rewrite !Q by (unfold node; lia). auto.
Qed.
End Any.

Lemma loose_ext n S S' i : (forall t, S t <-> S' t) -> loose n S i -> loose n S' i.
Proof.
  intros E F j v Hj Ne. destruct (F j v Hj Ne) as (t & T & V). exists t. split; auto. apply E. auto.
Qed.
(** After any program: the size is the first one beyond which the program leaves all the instants free. *)
Theorem C116_program : forall p m n S, means m n S ->
  exists g g' n', run p m = Ret g /\ g_shrink_to_fit p g = Ret g' /\ answer p n' S g' /\ 0 <= n' <= n /\
    (forall q, 0 <= q <= n -> (n' <= q <-> forall i, q <= i < n -> loose n S i)) /\
    exists g2, g_resize p g' n = Ret g2 /\ same_bounds p g2 g.
Proof.
  intros p m n S H. destruct (C110_program p m n S H) as (g & R & _ & (St & Sz & Mn & Rg & Q) & Co).
  destruct (C116_shrink p g St Mn) as (g' & E & L & St' & Mn' & T & Q' & F & B).
  { destruct Co as (t & T). exists t. apply Q. exact T. }
  exists g, g', (g_size g'). rewrite Sz in *. split; [exact R|]. split; [exact E|]. split; [|split; [exact L|split; [|exact B]]].
  - split; [exact St'|]. split; [reflexivity|]. split; [exact Mn'|]. split.
    + intros i j Hi Hj. destruct (Rg i j ltac:(lia) ltac:(lia)) as (iv & I1 & I2). exists iv. split; auto. rewrite T; auto.
    + intros t. rewrite Q'. apply Q.
  - intros q Hq. rewrite (F q Hq). split; intros X i Hi; (eapply loose_ext; [|apply X; exact Hi]); intros t; [|symmetry]; apply Q.
Qed.

(** ** Examples *)

(** A bound whose double is no time value. The instants 2 and 3 of the first program are free; in the second
    one only the instant 4 is. *)
Definition e_wide : prog := Resize (Add New (mkK 0 1 false far far)) 4.
Definition e_tail : prog := Resize (Add (Add New (mkK 0 1 false far far)) (mkK 2 3 false 0 oo)) 5.
Lemma new_means : means (Add New (mkK 0 1 false far far)) 2 (fun t => True /\ sat (mkK 0 1 false far far) t).
Proof. apply (m_more New 0 (fun _ => True) (mkK 0 1 false far far)); [apply m_new|goodk|cbn; lia..]. Qed.
Example C116_case : exists S, means e_wide 4 S /\ (forall t, S t <-> t 1 - t 0 = far) /\ forall p,
  exists g g', run p e_wide = Ret g /\ g_shrink_to_fit p g = Ret g' /\ g_size g' = 2 /\ g_timespan p g' 0 1 = Ret (mkI far far).
Proof.
  eexists. split; [eapply m_resize; [exact new_means|lia]|]. split.
  - intros t. cbv beta. split.
    + intros (t' & (_ & T) & A). apply sat_eq in T; [|discriminate..]. rewrite (A 0), (A 1) by lia. exact T.
    + intros T. exists t. split; auto. split; auto. apply sat_eq; [discriminate..|exact T].
  - intros p. destruct p; do 2 eexists; repeat split; vm_compute; reflexivity.
Qed.
Example C116_tail_case : exists S, means e_tail 5 S /\ loose 5 S 4 /\ ~ loose 5 S 3.
Proof.
  eexists. split; [eapply m_resize; [|lia]; apply (m_more _ 2 _ (mkK 2 3 false 0 oo) new_means); [goodk|cbn; lia..]|].
  split.
  - intros j v Hj Ne. set (u := fun i => if i =? 1 then far else 0).
    exists (fun i => if i =? 4 then u j + v else u i). split.
    + eexists. split; [|intros i Hi; reflexivity]. split; [split; auto; apply sat_eq; [discriminate..|reflexivity]|].
      split; [right; discriminate|left; reflexivity].
    + change (4 =? 4) with true. replace (j =? 4) with false by lia. lia.
  - intros F. destruct (F 2 (- 1) ltac:(lia) ltac:(lia)) as (t & (t' & (_ & (T & _)) & A) & V). cbn [k_from k_to k_lo k_up lower] in T.
    rewrite (A 3), (A 2) in V by lia. destruct T as [T|T]; [discriminate|lia].
Qed.
(** The graph of the first program, cut *)
Example C116_resize_case : forall p, exists g, run p e_wide = Ret g /\ stored g /\ minimal p g /\ (exists t, solution p g t) /\
  exists g', g_resize p g 3 = Ret g' /\ g_size g' = 3 /\ g_timespan p g' 0 1 = Ret (mkI far far) /\ g_timespan p g' 1 2 = Ret (mkI (- oo) oo).
Proof.
  intros p. destruct C116_case as (S & H & _). destruct (C110_program p e_wide 4 S H) as (g & R & _ & (St & Sz & Mn & Rg & Q) & (t & T)).
  exists g. split; [exact R|]. split; [exact St|]. split; [exact Mn|]. split; [exists t; apply Q; exact T|].
  clear - R. destruct p; vm_compute in R; injection R as <-; eexists; repeat split; vm_compute; reflexivity.
Qed.
(** The graph of the second program keeps four instants. *)
Example C116_tail_size_case : forall p, exists g g', run p e_tail = Ret g /\ g_shrink_to_fit p g = Ret g' /\ g_size g' = 4.
Proof.
  intros p. destruct C116_tail_case as (S & H & L & N).
  destruct (C116_program p e_tail 5 S H) as (g & g' & n' & R & E & (_ & Sz & _) & Ln & F & _).
  exists g, g'. split; [exact R|]. split; [exact E|]. rewrite Sz.
  assert (A : n' <= 4) by (apply F; [lia|]; intros i Hi; assert (i = 4) as -> by lia; exact L).
  destruct (Z_lt_le_dec n' 4) as [l|l]; [|lia]. exfalso. apply N. apply (proj1 (F 3 ltac:(lia))); lia.
Qed.
