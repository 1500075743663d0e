(** Programs of public calls without margin (property C110): as long as the differences between the
    instants are intervals of time values after each call, any program that builds a graph gives the
    exact one. *)
From Verif Require Import Machine TimeValue Spec Tac TimeValueProofs Interval Iter TimeSet Relns
  SpecSets Graph MaxPlus FwBound GraphProofs GraphOps GraphFits GraphWarshall GraphGrow GraphSafe GraphMem
  GraphHist GraphTight SpecGraph GraphSound GraphMono GraphInv GraphIter GraphCalls Prop_Graph Prop_Propagation
  Prop_GraphQuery Prop_Seen Prop_Queries Prop_Fits Prop_Represent.

(** ** Specification *)

(** A program that builds a graph: graph/mod.rs:71 (a new graph), propagation.rs:47-99, 180-214,
    102-117, storage.rs:37-45 and 8-15 *)
Inductive prog :=
| New
| Add (m : prog) (k : kons)
| AddAll (m : prog) (hint : option Z) (ks : list kons)
| Merge (m m' : prog)
| Resize (m : prog) (n : Z)
| Clear (m : prog).

(** Its execution; the report of each call is ignored. *)
Fixpoint run (p : profile) (m : prog) : outcome graph :=
  match m with
  | New => Ret g_default
  | Add m k => g <- run p m ;; x <- g_propagate p g k ;; Ret (fst x)
  | AddAll m hint ks => g <- run p m ;; x <- g_extend p g hint ks ;; Ret (fst x)
  | Merge m m' => g <- run p m ;; h <- run p m' ;; x <- g_merge p g h ;; Ret (fst x)
  | Resize m n => g <- run p m ;; g_resize p g n
  | Clear m => g <- run p m ;; g_reset p g
  end.

(** Its meaning: a number of instants and the dates that it describes.  A contradictory constraint
    is refused by [Add]; the constraints of [AddAll] and the graphs of [Merge] have a common solution;
    a constraint is between instants of the graph, or between two new ones. *)
Inductive means : prog -> Z -> ((Z -> Z) -> Prop) -> Prop :=
| m_new : means New 0 (fun _ => True)
| m_add m n S k : means m n S -> good n oo k -> (exists t, S t /\ sat k t) ->
    spread n (fun t => S t /\ sat k t) -> means (Add m k) n (fun t => S t /\ sat k t)
| m_refused m n S k : means m n S -> good n oo k -> (forall t, ~ (S t /\ sat k t)) -> means (Add m k) n S
| m_more m n S k : means m n S -> good 65535 oo k -> n <= k_from k -> n <= k_to k -> k_from k <> k_to k ->
    means (Add m k) (Z.max (k_from k) (k_to k) + 1) (fun t => S t /\ sat k t)
| m_all m n S hint ks n' : means m n S -> Forall legal ks -> hint <> Some 0 -> hint <> Some 1 ->
    n <= n' -> Forall (fun k => k_from k < n' /\ k_to k < n') ks ->
    (n' = n \/ Exists (fun k => n' = k_from k + 1 \/ n' = k_to k + 1) ks) ->
    (exists t, S t /\ Forall (fun k => sat k t) ks) ->
    spread n' (fun t => S t /\ Forall (fun k => sat k t) ks) ->
    means (AddAll m hint ks) n' (fun t => S t /\ Forall (fun k => sat k t) ks)
| m_merge m m' n n' S S' : means m n S -> means m' n' S' -> (exists t, S t /\ S' t) ->
    spread (Z.max n n') (fun t => S t /\ S' t) -> means (Merge m m') (Z.max n n') (fun t => S t /\ S' t)
| m_resize m n S n' : means m n S -> 0 <= n' <= 65535 ->
    means (Resize m n') n' (fun t => exists t', S t' /\ forall i, 0 <= i < n' -> t i = t' i)
| m_clear m n S : means m n S -> means (Clear m) n (fun _ => True).

(** ** Proofs *)

Lemma answer_closed p n S g : answer p n S g -> (exists t, S t) ->
  mem_ok g /\ g_size g = n /\ closed n (cell g) /\ low n (cell g) /\ forall t, msat n (cell g) t <-> S t.
Proof.
  intros (St & <- & Mn & Rg & H) (t0 & S0). split; auto. split; auto.
  split; [apply (any_closed p); auto; exists t0; apply H; auto|]. split; [apply (ex_low p); auto|].
  intros t. rewrite <- H. symmetry. apply sol_msat; auto.
Qed.
Lemma answer_ext p n S S' g : (forall t, S t <-> S' t) -> answer p n S g -> answer p n S' g.
Proof.
  intros E (A1 & A2 & A3 & A4 & A5). split; auto. split; auto. split; auto. split; auto. intros t. rewrite A5. apply E.
Qed.
Lemma answer_anchored p n S g : answer p n S g -> (exists t, S t) -> anchored p g.
Proof.
  intros A Co i Ni. destruct (answer_closed p n S g A Co) as (M & Sz & Cl & _). rewrite timespan_ok by auto.
  rewrite (proj1 Cl) by (rewrite <- Sz; auto). auto.
Qed.

(** A matrix extended with isolated instants *)
Definition extended (n m : Z) (D D' : mat) : Prop := forall a b, node m a -> node m b ->
  D' a b = if (a <? n) && (b <? n) then D a b else if a =? b then 0 else - oo.
Lemma extended_ent n m D D' : 0 <= n -> zero_diag n D -> extended n m D D' -> forall a b w, node m a -> node m b ->
  (ent D' a b w <-> (node n a /\ node n b /\ ent D a b w) \/ (a = b /\ w <= 0)).
Proof.
  intros N0 Z0 X a b w Na Nb. unfold ent. rewrite (X a b Na Nb). unfold node in *. assert (O : 0 < oo) by reflexivity.
  destruct ((a <? n) && (b <? n)) eqn:T.
  - split; [intros H; left; repeat split; try tauto; lia|]. intros [(_ & _ & H)|(-> & H)]; auto.
    rewrite Z0 by (unfold node; lia). lia.
  - assert (NN : ~ (0 <= a < n /\ 0 <= b < n)) by (clear - T; lia). destruct (Z.eqb_spec a b) as [e|e]; split.
    + intros (_ & H). right. auto.
    + intros [H|(_ & H)]; [tauto|]. split; [clear - O; lia|auto].
    + intros (H & _). congruence.
    + intros [H|H]; tauto.
Qed.
Lemma extended_closed n m D D' : 0 <= n -> closed n D -> extended n m D D' -> closed m D'.
Proof.
  intros N0 (Z0 & Tr) X. split.
  - intros i Ni. rewrite X by auto. destruct ((i <? n) && (i <? n)) eqn:T; [apply Z0; unfold node in *; lia|].
    rewrite Z.eqb_refl. auto.
  - intros i k j a b Ni Nk Nj. rewrite !(extended_ent n m D D' N0 Z0 X) by auto.
    intros [(I1 & I2 & I)|(-> & I)] [(J1 & J2 & J)|(-> & J)].
    + left. split; auto. split; auto. eapply Tr; [| | | exact I|exact J]; auto.
    + left. split; auto. split; auto. eapply ent_mono; [exact I|lia].
    + left. split; auto. split; auto. eapply ent_mono; [exact J|lia].
    + right. split; [auto|clear - I J; lia].
Qed.
Lemma extended_low n m D D' : 0 <= n -> low n D -> extended n m D D' -> low m D'.
Proof.
  intros N0 Lw X i j Ni Nj. rewrite X by auto. assert (O : 0 < oo) by reflexivity.
  destruct ((i <? n) && (j <? n)) eqn:T; [apply Lw; unfold node in *; lia|]. destruct (i =? j); lia.
Qed.
Lemma extended_msat n m D D' : 0 <= n -> closed n D -> extended n m D D' -> forall t,
  msat m D' t <-> exists t', msat n D t' /\ forall i, 0 <= i < m -> t i = t' i.
Proof.
  intros N0 Cl X t. pose proof (extended_ent n m D D' N0 (proj1 Cl) X) as E. split.
  - intros S. destruct (Z_le_gt_dec n m) as [L|L].
    + exists t. split; auto. intros i j w Ni Nj H. apply S; [unfold node in *; lia..|].
      apply E; [unfold node in *; lia..|]. left. auto.
    + destruct (closed_extends n D (nodes m) t Cl) as (t' & A & Q).
      * apply Forall_forall. intros x Ix. apply nodes_in in Ix. unfold node in *. lia.
      * intros i j w Ii Ij H. apply nodes_in in Ii, Ij. apply S; auto. apply E; auto. left.
        unfold node in *. split; [lia|]. split; [lia|auto].
      * exists t'. split; auto. intros i Ni. symmetry. apply A. apply nodes_in; auto.
  - intros (t' & S & A) i j w Ni Nj H. apply E in H; auto. rewrite (A i), (A j) by auto.
    destruct H as [(I1 & I2 & H)|(-> & H)]; [apply S; auto|lia].
Qed.
Lemma extended_exact g g' n m : g_size g = n -> g_size g' = m ->
  (forall a b, node m a -> node m b -> cell g' a b =
     if (a <? g_size g) && (b <? g_size g) then cell g a b else if a =? b then 0 else - oo) ->
  extended n m (cell g) (cell g').
Proof. intros <- _ H a b Na Nb. apply H; auto. Qed.

(** A constraint between two isolated instants *)
Lemma pair_closed n D f u lo up D' : closed n D -> node n f -> node n u -> f <> u -> lo <= up -> lo < oo -> - oo < up ->
  (forall x, node n x -> x <> f -> D f x = - oo /\ D x f = - oo) ->
  (forall x, node n x -> x <> u -> D u x = - oo /\ D x u = - oo) ->
  (forall a b, node n a -> node n b -> D' a b = if (a =? u) && (b =? f) then - up else if (a =? f) && (b =? u) then lo else D a b) ->
  closed n D'.
Proof.
  intros (Z0 & Tr) Nf Nu Fu L L1 L2 If Iu H.
  assert (E : forall a b w, node n a -> node n b -> ent D' a b w <->
    (a = u /\ b = f /\ - up <> - oo /\ w <= - up) \/ (a = f /\ b = u /\ lo <> - oo /\ w <= lo) \/ (a = b /\ w <= 0) \/
    (a <> f /\ a <> u /\ b <> f /\ b <> u /\ ent D a b w)).
  { intros a b w Na Nb. unfold ent. rewrite H by auto. assert (O : 0 < oo) by reflexivity.
    destruct ((a =? u) && (b =? f)) eqn:T1.
    { assert (a = u /\ b = f) as (-> & ->) by (clear - T1; lia). clear - Fu. split; [intros X; left; tauto|].
      intros [X|[X|[X|X]]]; [tauto|destruct X; congruence|destruct X; congruence|tauto]. }
    destruct ((a =? f) && (b =? u)) eqn:T2.
    { assert (a = f /\ b = u) as (-> & ->) by (clear - T2; lia). clear - Fu. split; [intros X; right; left; tauto|].
      intros [X|[X|[X|X]]]; [destruct X; congruence|tauto|destruct X; congruence|tauto]. }
    assert (T1' : ~ (a = u /\ b = f)) by (clear - T1; lia). assert (T2' : ~ (a = f /\ b = u)) by (clear - T2; lia). clear T1 T2.
    destruct (Z.eq_dec a b) as [e|e].
    { subst b. rewrite (Z0 a Na). split; [intros (_ & X); right; right; left; auto|].
      intros X. split; [clear - O; lia|]. destruct X as [X|[X|[X|X]]]; [tauto|tauto|apply X|].
      destruct X as (_ & _ & _ & _ & _ & X). exact X. }
    destruct (Z.eq_dec a f) as [->|ef]; [rewrite (proj1 (If b Nb ltac:(auto))); clear - T1' T2' e; tauto|].
    destruct (Z.eq_dec a u) as [->|eu]; [rewrite (proj1 (Iu b Nb ltac:(auto))); clear - T1' T2' e; tauto|].
    destruct (Z.eq_dec b f) as [->|ef']; [rewrite (proj2 (If a Na ltac:(auto))); clear - T1' T2' e; tauto|].
    destruct (Z.eq_dec b u) as [->|eu']; [rewrite (proj2 (Iu a Na ltac:(auto))); clear - T1' T2' e; tauto|].
    split; [intros X; right; right; right; auto|]. intros [(X & _)|[(X & _)|[(X & _)|(_ & _ & _ & _ & X)]]]; try contradiction. auto. }
  split.
  - intros i Ni. rewrite H by auto. replace ((i =? u) && (i =? f)) with false by lia.
    replace ((i =? f) && (i =? u)) with false by lia. apply Z0; auto.
  - intros i k j a b Ni Nk Nj A B. apply E in A; auto. apply E in B; auto. apply E; auto.
    destruct A as [(-> & -> & A1 & A2)|[(-> & -> & A1 & A2)|[(-> & A2)|(A1 & A2 & A3 & A4 & A5)]]];
      destruct B as [(B0 & -> & B1 & B2)|[(B0 & -> & B1 & B2)|[(<- & B2)|(B1 & B2 & B3 & B4 & B5)]]]; try (exfalso; congruence);
      try lia.
    + right. right. right. repeat split; auto; try apply B5. destruct B5. lia.
    + right. right. right. repeat split; auto; try apply A5. destruct A5. lia.
    + right. right. right. repeat split; auto; eapply (Tr i k j a b); eauto.
Qed.
Lemma pair_msat n D f u lo up D' : closed n D -> node n f -> node n u -> f <> u ->
  (forall x, node n x -> x <> f -> D f x = - oo /\ D x f = - oo) ->
  (forall a b, node n a -> node n b -> D' a b = if (a =? u) && (b =? f) then - up else if (a =? f) && (b =? u) then lo else D a b) ->
  forall t, msat n D' t <-> msat n D t /\ In_ext (t u - t f) (mkI lo up).
Proof.
  intros (Z0 & Tr) Nf Nu Fu If H t. unfold In_ext. cbn [lower upper]. split.
  - intros S. split.
    + intros i j w Ni Nj (E1 & E2). apply S; auto. unfold ent. rewrite H by auto.
      destruct ((i =? u) && (j =? f)) eqn:T1.
      { exfalso. assert (i = u /\ j = f) as (-> & ->) by (clear - T1; lia). apply E1. apply If; auto. }
      destruct ((i =? f) && (j =? u)) eqn:T2; [|auto].
      exfalso. assert (i = f /\ j = u) as (-> & ->) by (clear - T2; lia). apply E1. apply If; auto.
    + split.
      * destruct (Z.eq_dec lo (- oo)) as [e|e]; auto. right. apply S; auto. unfold ent. rewrite H by auto.
        replace ((f =? u) && (u =? f)) with false by (clear - Fu; lia). rewrite !Z.eqb_refl. cbn [andb]. split; auto. lia.
      * destruct (Z.eq_dec up oo) as [e|e]; auto. right. enough (- up <= t f - t u) by (clear - H0; lia).
        apply S; auto. unfold ent. rewrite H by auto. rewrite !Z.eqb_refl. cbn [andb]. split; [clear - e; lia|lia].
  - intros (S & P1 & P2) i j w Ni Nj E. unfold ent in E. rewrite H in E by auto.
    destruct ((i =? u) && (j =? f)) eqn:T1.
    { assert (i = u /\ j = f) as (-> & ->) by (clear - T1; lia). clear - P2 E. lia. }
    destruct ((i =? f) && (j =? u)) eqn:T2; [|apply S; auto].
    assert (i = f /\ j = u) as (-> & ->) by (clear - T2; lia). clear - P1 E. lia.
Qed.

(** The calls, one by one *)
Lemma resize_answer p g n S m : exact g -> answer p n S g -> (exists t, S t) -> 0 <= m <= 65535 ->
  exists g', g_resize p g m = Ret g' /\ exact g' /\ extended n m (cell g) (cell g') /\
    answer p m (fun t => exists t', S t' /\ forall i, 0 <= i < m -> t i = t' i) g'.
Proof.
  intros X A Co L. destruct (answer_closed p n S g A Co) as (M & Sz & Cl & Lw & H). assert (N0 : 0 <= n) by (rewrite <- Sz; apply M).
  destruct (resize_exact p g m X L) as (g' & E & Sz' & X' & C). exists g'. split; auto. split; auto.
  pose proof (extended_exact g g' n m Sz Sz' C) as Ex. split; auto. apply closed_answer; auto.
  - apply X'.
  - eapply extended_closed; eauto.
  - eapply extended_low; eauto.
  - intros t. rewrite (extended_msat n m _ _ N0 Cl Ex). split; intros (t' & Q & R); exists t'; split; auto; apply H; auto.
Qed.
Lemma reset_answer p g : exact g -> exists g', g_reset p g = Ret g' /\ answer p (g_size g) (fun _ => True) g'.
Proof.
  intros (M & _). destruct (reset_ok p g M) as (g' & E & S & M' & _ & D & O). exists g'. split; auto.
  assert (Oo : 0 < oo) by reflexivity. apply closed_answer; auto.
  - split; [intros i Ni; apply D; auto|]. intros i k j a b Ni Nk Nj (A1 & A2) (B1 & B2).
    destruct (Z.eq_dec i k) as [<-|e]; [|rewrite O in A1 by (auto; apply Ni || apply Nk); congruence].
    destruct (Z.eq_dec i j) as [<-|e]; [|rewrite O in B1 by (auto; apply Ni || apply Nj); congruence].
    unfold ent. rewrite D in * by auto. lia.
  - intros i j Ni Nj. destruct (Z.eq_dec i j) as [<-|e]; [rewrite D by auto; lia|]. rewrite O by (auto; apply Ni || apply Nj). lia.
  - intros t. split; auto. intros _ i j w Ni Nj (A1 & A2). destruct (Z.eq_dec i j) as [<-|e].
    + rewrite D in A2 by auto. lia.
    + rewrite O in A1 by (auto; apply Ni || apply Nj). congruence.
Qed.
Lemma more_answer p g n S k : exact g -> answer p n S g -> (exists t, S t) -> good 65535 oo k ->
  n <= k_from k -> n <= k_to k -> k_from k <> k_to k ->
  exists g', g_propagate p g k = Ret (g', Propagated) /\
    answer p (Z.max (k_from k) (k_to k) + 1) (fun t => S t /\ sat k t) g' /\ exists t, S t /\ sat k t.
Proof.
  intros X A Co (Ek & (W1 & W2 & W3 & W4 & W5) & Nf & Nt & _) Lf Lt Ne. cbn [lower upper] in *.
  set (m := Z.max (k_from k) (k_to k) + 1). pose proof A as (_ & Sz & _).
  assert (Hm : 0 <= m <= 65535) by (unfold m; lia).
  destruct (resize_answer p g n S m X A Co Hm) as (g1 & E1 & X1 & Ex & A1).
  destruct (answer_closed p n S g A Co) as (M & _ & Cl & Lw & H).
  assert (N0 : 0 <= n) by (rewrite <- Sz; apply M).
  destruct (answer_closed p m _ g1 A1) as (M1 & Sz1 & Cl1 & Lw1 & H1).
  { destruct Co as (t & Q). exists t. exists t. auto. }
  assert (Nf1 : node m (k_from k)) by (unfold node, m; lia). assert (Nt1 : node m (k_to k)) by (unfold node, m; lia).
  destruct (g_set_ok p g1 (k_from k) (k_to k) (k_lo k)) as (g2 & E2 & Sh2 & C2); auto; try (rewrite Sz1; auto).
  pose proof (same_shape_mem _ _ Sh2 M1) as M2. assert (Sz2 : g_size g2 = m) by (destruct Sh2; congruence).
  destruct (g_set_ok p g2 (k_to k) (k_from k) (tv_neg (k_up k))) as (g3 & E3 & Sh3 & C3); auto; try (rewrite Sz2; auto).
  pose proof (same_shape_mem _ _ Sh3 M2) as M3. assert (Sz3 : g_size g3 = m) by (destruct Sh3; congruence).
  exists g3. split.
  { unfold g_propagate. rewrite Ek. cbv zeta. replace (g_size g <=? Z.max (k_from k) (k_to k)) with true by lia.
    unfold add32, chk32. replace (_ && _) with true by (unfold u32_max; lia). cbn [bind]. fold m. rewrite E1. cbn [bind].
    rewrite E2. cbn [bind]. rewrite E3. auto. }
  assert (C : forall a b, node m a -> node m b -> cell g3 a b =
    if (a =? k_to k) && (b =? k_from k) then - k_up k else if (a =? k_from k) && (b =? k_to k) then k_lo k else cell g1 a b).
  { intros a b Na Nb. rewrite C3 by (apply Na || apply Nb). rewrite C2 by (apply Na || apply Nb). auto. }
  assert (Is : forall x y, node m x -> node m y -> n <= x -> y <> x -> cell g1 x y = - oo /\ cell g1 y x = - oo).
  { intros x y Nx Ny Lx Nxy. rewrite !Ex by auto. replace ((x <? n) && (y <? n)) with false by lia.
    replace ((y <? n) && (x <? n)) with false by lia. replace (x =? y) with false by lia. replace (y =? x) with false by lia. auto. }
  assert (Cl3 : closed m (cell g3)).
  { apply (pair_closed m (cell g1) (k_from k) (k_to k) (k_lo k) (k_up k)); auto. }
  assert (H3 : forall t, msat m (cell g3) t <-> S t /\ sat k t).
  { intros t. rewrite (pair_msat m (cell g1) (k_from k) (k_to k) (k_lo k) (k_up k) (cell g3)) by auto.
    unfold sat. rewrite H1. split; intros (Q & R); split; auto.
    - destruct Q as (t' & Q & Ag). apply H. intros i j w Ni Nj E.
      rewrite (Ag i), (Ag j) by (unfold node, m in *; lia). apply H in Q. apply Q; auto.
    - exists t. auto. }
  split.
  - apply closed_answer; auto. intros i j Ni Nj. rewrite C by auto.
    destruct ((i =? k_to k) && (j =? k_from k)); [lia|]. destruct ((i =? k_from k) && (j =? k_to k)); [lia|]. apply Lw1; auto.
  - destruct (closed_minimal m (cell g3) (k_from k) (k_from k) 0 Cl3 Nf1 Nf1) as (t & Q & _).
    + intros w (_ & E). rewrite (proj1 Cl3) in E by auto. auto.
    + intros w (_ & E). rewrite (proj1 Cl3) in E by auto. lia.
    + exists t. apply H3; auto.
Qed.
Lemma good_legal n k : n <= 65535 -> good n oo k -> legal k.
Proof.
  intros L (_ & (A1 & A2 & A3 & A4 & A5) & B1 & B2 & _). cbn [lower upper] in *. unfold legal, valid. lia.
Qed.

(** ** C110 *)

(** Any program with a meaning terminates without panic nor undefined behaviour, in both profiles, and
    builds the exact graph. *)
Theorem C110_program : forall p m n S, means m n S ->
  exists g, run p m = Ret g /\ calls p false g /\ answer p n S g /\ exists t, S t.
Proof.
  intros p m n S H. induction H as [|m n S k H IH G Co Sp|m n S k H IH G N|m n S k H IH G Nf Nt Ne|m n S hint ks n' H IH Lk H0 H1 L F X Co Sp
    |m m' n n' S S' H IH H' IH' Co Sp|m n S n' H IH L|m n S H IH].
  - exists g_default. split; auto. split; [constructor|]. split; [|exists (fun _ => 0); auto].
    split; [split; simpl; lia|]. split; auto. split; [intros i j Ni; simpl in Ni; lia|].
    split; [intros i j Ni; simpl in Ni; lia|]. intros t. split; auto. intros _ i j Ni. simpl in Ni. lia.
  - destruct IH as (g & R & C & A & _). pose proof A as (St & Sz & Mn & Rg & Q).
    destruct (proj1 (C108_exact p g k St Mn Rg ltac:(rewrite Sz; auto) ltac:(destruct Co as (t & T & K); exists t; split; auto; apply Q; auto)))
      as (g' & r & E & Ac & St' & Sz' & Mn' & Rg' & Q').
    { intros i j Ni Nj. rewrite Sz in Ni, Nj. destruct (Sp i j Ni Nj) as (iv & P & V). exists iv. split; auto. intros v. rewrite V.
      split; [intros (t & (T & K) & D)|intros (t & T & K & D)]; exists t; [split; [apply Q; auto|auto]|split; [split; [apply Q; auto|auto]|auto]]. }
    exists g'. simpl. rewrite R. cbn [bind]. rewrite E. cbn [bind fst]. split; auto. split.
    { eapply c_propagate; eauto. apply (good_legal n); auto. rewrite <- Sz. apply St. }
    split; auto. split; auto. split; [congruence|]. split; auto. split; auto. intros t. rewrite Q', Q. tauto.
  - destruct IH as (g & R & C & A & Co). pose proof A as (St & Sz & Mn & Rg & Q).
    exists g. simpl. rewrite R. cbn [bind].
    rewrite (C108_refused p g k St Mn Rg ltac:(destruct Co as (t & T); exists t; apply Q; auto) ltac:(rewrite Sz; auto))
      by (intros t (T & K); apply (N t); split; [apply Q; auto|auto]).
    auto.
  - destruct IH as (g & R & C & A & Co). pose proof (calls_exact _ _ C) as X.
    destruct (more_answer p g n S k X A Co G Nf Nt Ne) as (g' & E & A' & Co').
    exists g'. simpl. rewrite R. cbn [bind]. rewrite E. cbn [bind fst]. split; auto. split; auto.
    eapply c_propagate; eauto. apply (good_legal 65535); auto. lia.
  - destruct IH as (g & R & C & A & Co0). pose proof A as (St & Sz & Mn & Rg & Q).
    assert (Ex : forall t, solution p g t /\ Forall (fun k => sat k t) ks <-> S t /\ Forall (fun k => sat k t) ks).
    { intros t. rewrite Q. tauto. }
    destruct (proj1 (C109_extend p g hint ks n' C (answer_anchored p n S g A Co0) Lk H0 H1
      ltac:(unfold reach; rewrite Sz; auto) ltac:(destruct Co as (t & T); exists t; apply Ex; auto))) as (g' & E & A').
    { eapply spread_ext; [|exact Sp]. intros t. symmetry. apply Ex. }
    exists g'. simpl. rewrite R. cbn [bind]. rewrite E. cbn [bind fst]. split; auto. split.
    { eapply c_extend; eauto. discriminate. }
    split; auto. eapply answer_ext; [|exact A']. auto.
  - destruct IH as (g & R & C & A & Co0). destruct IH' as (h & R' & C' & A' & Co0').
    pose proof A as (St & Sz & Mn & Rg & Q). pose proof A' as (St' & Sz' & Mn' & Rg' & Q').
    assert (Ex : forall t, solution p g t /\ solution p h t <-> S t /\ S' t) by (intros t; rewrite Q, Q'; tauto).
    destruct (proj1 (C109_merge p g h C C' Mn Mn' ltac:(destruct Co as (t & T); exists t; apply Ex; auto))) as (g' & r & E & Ac & B).
    { rewrite Sz, Sz'. eapply spread_ext; [|exact Sp]. intros t. symmetry. apply Ex. }
    exists g'. simpl. rewrite R, R'. cbn [bind]. rewrite E. cbn [bind fst]. split; auto. split.
    { eapply c_merge; [exact C|exact C'|exact E|]. intros ->. destruct Ac; discriminate. }
    split; auto. rewrite Sz, Sz' in B. eapply answer_ext; [|exact B]. auto.
  - destruct IH as (g & R & C & A & Co). pose proof (calls_exact _ _ C) as X.
    destruct (resize_answer p g n S n' X A Co L) as (g' & E & _ & _ & A').
    exists g'. simpl. rewrite R. cbn [bind]. split; auto. split; [eapply c_resize; eauto|]. split; auto.
    destruct Co as (t & T). exists t. exists t. auto.
  - destruct IH as (g & R & C & A & Co). pose proof (calls_exact _ _ C) as X.
    destruct (reset_answer p g X) as (g' & E & A'). exists g'. simpl. rewrite R. cbn [bind]. split; auto.
    split; [eapply c_reset; eauto|]. pose proof A as (_ & Sz & _). rewrite Sz in A'. split; auto. exists (fun _ => 0). auto.
Qed.
(** The graph reports, for each pair of instants, exactly the possible differences. *)
Theorem C110_timespan : forall p m n S i j, means m n S -> 0 <= i < n -> 0 <= j < n ->
  exists g iv, run p m = Ret g /\ g_timespan p g i j = Ret iv /\ proper_bounds iv /\
    forall v, In_ext v iv <-> exists t, S t /\ t j - t i = v.
Proof.
  intros p m n S i j H Ni Nj. destruct (C110_program p m n S H) as (g & R & _ & (St & Sz & Mn & Rg & Q) & _).
  rewrite <- Sz in Ni, Nj. destruct (Mn i j Ni Nj) as (iv & T & Mi). destruct (Rg i j Ni Nj) as (iv2 & T2 & P).
  rewrite T in T2. injection T2 as <-. exists g, iv. split; auto. split; auto. split; auto. intros v. split.
  - intros V. destruct (Mi v V) as (t & X & D). exists t. split; auto. apply Q; auto.
  - intros (t & X & <-). apply Q in X. destruct (X i j Ni Nj) as (iv3 & T3 & V). rewrite T in T3. injection T3 as <-. auto.
Qed.
(** Two programs with the same meaning give the same graph, whatever their calls. *)
Theorem C110_same : forall p m m' n S S', means m n S -> means m' n S' -> (forall t, S t <-> S' t) ->
  exists g g', run p m = Ret g /\ run p m' = Ret g' /\ same_bounds p g g'.
Proof.
  intros p m m' n S S' H H' E. destruct (C110_program p m n S H) as (g & R & _ & A & Co).
  destruct (C110_program p m' n S' H') as (g' & R' & _ & A' & _). exists g, g'. split; auto. split; auto.
  eapply answer_unique; [exact A| |exact Co]. eapply answer_ext; [|exact A']. intros t. symmetry. apply E.
Qed.
(** The answer does not depend on the profile. *)
Lemma answer_profile p q n S g : answer p n S g -> (exists t, S t) -> answer q n S g.
Proof.
  intros A Co. destruct (answer_closed p n S g A Co) as (M & Sz & Cl & Lw & H). apply closed_answer; auto.
Qed.
(** With or without overflow checks, the graphs report the same bounds. *)
Theorem C110_profiles : forall m n S, means m n S -> exists g g', run Debug m = Ret g /\ run Release m = Ret g' /\
  g_size g = n /\ g_size g' = n /\
  forall i j, 0 <= i < n -> 0 <= j < n -> g_timespan Debug g i j = g_timespan Release g' i j.
Proof.
  intros m n S H. destruct (C110_program Debug m n S H) as (g & R & _ & A & Co).
  destruct (C110_program Release m n S H) as (g' & R' & _ & A' & _). exists g, g'. split; auto. split; auto.
  pose proof A as (M & Sz & _). pose proof A' as (_ & Sz' & _). split; auto. split; auto.
  destruct (answer_unique Release n S g g' (answer_profile Debug Release n S g A Co) A' Co) as (_ & U).
  intros i j Ni Nj. rewrite <- Sz in Ni, Nj. rewrite <- U by auto. rewrite !timespan_ok by auto. auto.
Qed.

(** ** Examples *)

(** A program with all the calls; the bounds are such that the sum of two of them is no time value. *)
Definition e_merge : prog := Merge (Add New (mkK 0 1 false far far)) (Add (Resize New 1) (mkK 1 2 false (- far) (- far))).
Definition e_all : prog :=
  Resize (Add (Add (Add e_merge (mkK 0 2 false 1 oo)) (mkK 0 2 false 0 0)) (mkK 3 4 false far oo)) 2.
Ltac goodk := cbv [good wf_iv valid within far k_empty k_from k_to k_lo k_up lower upper oo]; lia.
Lemma e_spread : spread 3 (fun t => t 1 - t 0 = far /\ t 2 - t 1 = - far).
Proof.
  destruct (C109_merge_case Debug) as (_ & _ & _ & _ & _ & Sp & _). destruct (m1_answer Debug) as (_ & S1).
  destruct (m2_answer Debug) as (_ & S2). eapply spread_ext; [|exact Sp]. intros t. cbv beta. rewrite S1, S2. tauto.
Qed.
Lemma sat_eq i j v t : v <> oo -> v <> - oo -> (sat (mkK i j false v v) t <-> t j - t i = v).
Proof. intros A B. unfold sat, In_ext. cbn [k_from k_to k_lo k_up lower upper]. lia. Qed.
Lemma e_merge_means : exists S, means e_merge 3 S /\ forall t, S t <-> t 1 - t 0 = far /\ t 2 - t 1 = - far.
Proof.
  assert (Q : forall t, ((True /\ sat (mkK 0 1 false far far) t) /\
     (exists t', True /\ forall i, 0 <= i < 1 -> t i = t' i) /\ sat (mkK 1 2 false (- far) (- far)) t) <->
     t 1 - t 0 = far /\ t 2 - t 1 = - far).
  { intros t. rewrite !sat_eq by discriminate. split; [tauto|]. intros (A & B). split; [tauto|]. split; auto. exists t. auto. }
  eexists. split; [|exact Q].
  apply (m_merge (Add New (mkK 0 1 false far far)) (Add (Resize New 1) (mkK 1 2 false (- far) (- far))) 2 3
    (fun t => True /\ sat (mkK 0 1 false far far) t)
    (fun t => (exists t', True /\ forall i, 0 <= i < 1 -> t i = t' i) /\ sat (mkK 1 2 false (- far) (- far)) t)).
  - apply (m_more New 0 (fun _ => True) (mkK 0 1 false far far)); [constructor|goodk|cbn; lia..].
  - apply (m_more (Resize New 1) 1 (fun t => exists t', True /\ forall i, 0 <= i < 1 -> t i = t' i) (mkK 1 2 false (- far) (- far)));
      [apply (m_resize New 0 (fun _ => True)); [constructor|lia]|goodk|cbn; lia..].
  - exists (fun i => if i =? 1 then far else 0). apply Q. split; reflexivity.
  - eapply spread_ext; [|exact e_spread]. intros t. symmetry. apply Q.
Qed.
Example C110_case : exists S, means e_all 2 S /\ (forall t, S t <-> t 1 - t 0 = far) /\ forall p, run p e_all = Ret g_m1.
Proof.
  destruct e_merge_means as (S & H & Q).
  assert (H1 : means (Add e_merge (mkK 0 2 false 1 oo)) 3 S).
  { apply m_refused; auto; [goodk|]. intros t (T & K). apply Q in T. unfold sat, In_ext in K.
    cbn [k_from k_to k_lo k_up lower upper] in K. destruct K as ([K|K] & _); [discriminate|]. lia. }
  assert (E : forall t, S t /\ sat (mkK 0 2 false 0 0) t <-> t 1 - t 0 = far /\ t 2 - t 1 = - far).
  { intros t. rewrite Q. rewrite sat_eq by discriminate. lia. }
  assert (H2 : means (Add (Add e_merge (mkK 0 2 false 1 oo)) (mkK 0 2 false 0 0)) 3 (fun t => S t /\ sat (mkK 0 2 false 0 0) t)).
  { apply m_add; auto; [goodk| |].
    - exists (fun i => if i =? 1 then far else 0). apply E. split; reflexivity.
    - eapply spread_ext; [|exact e_spread]. intros t. symmetry. apply E. }
  assert (H3 : means (Add (Add (Add e_merge (mkK 0 2 false 1 oo)) (mkK 0 2 false 0 0)) (mkK 3 4 false far oo)) 5
    (fun t => (S t /\ sat (mkK 0 2 false 0 0) t) /\ sat (mkK 3 4 false far oo) t)).
  { apply (m_more _ 3 _ (mkK 3 4 false far oo)); auto; [goodk|cbn; lia..]. }
  eexists. split; [eapply m_resize; [exact H3|lia]|]. split; [|destruct p; vm_compute; reflexivity].
  intros t. split.
  - intros (t' & (T & _) & A). apply E in T. rewrite (A 0), (A 1) by lia. tauto.
  - intros T. exists (fun i => if i =? 0 then t 0 else if i =? 1 then t 1 else if i =? 2 then t 0 else if i =? 4 then far else 0).
    split; [split|].
    + apply E. change (t 1 - t 0 = far /\ t 0 - t 1 = - far). lia.
    + split; [right; cbv; discriminate|left; reflexivity].
    + intros i Ni. assert (i = 0 \/ i = 1) as [-> | ->] by lia; reflexivity.
Qed.
(** The same constraints given at once *)
Example C110_same_case : exists S S', means e_merge 3 S /\
  means (AddAll New None [mkK 1 2 false (- far) (- far); mkK 0 1 false far far]) 3 S' /\ (forall t, S t <-> S' t) /\
  forall p, run p e_merge = Ret g_m.
Proof.
  destruct e_merge_means as (S & H & Q).
  set (ks := [mkK 1 2 false (- far) (- far); mkK 0 1 false far far]).
  assert (E : forall t, True /\ Forall (fun k => sat k t) ks <-> t 1 - t 0 = far /\ t 2 - t 1 = - far).
  { intros t. unfold ks. rewrite !Forall_cons_iff, !sat_eq by discriminate. split; [tauto|]. intros (A & B). auto. }
  exists S, (fun t => True /\ Forall (fun k => sat k t) ks). split; auto. split.
  - apply (m_all New 0 (fun _ => True) None ks 3); [constructor| |discriminate|discriminate|lia| | | |].
    + unfold ks. repeat constructor; cbv [valid far k_from k_to k_lo k_up oo]; lia.
    + unfold ks. repeat constructor; cbn [k_from k_to]; lia.
    + right. unfold ks. apply Exists_cons_hd. right. reflexivity.
    + exists (fun i => if i =? 1 then far else 0). apply E. split; reflexivity.
    + eapply spread_ext; [|exact e_spread]. intros t. symmetry. apply E.
  - split; [intros t; rewrite Q, E; tauto|destruct p; vm_compute; reflexivity].
Qed.
