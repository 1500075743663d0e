(** [extend], [FromIterator] and [merge] are exact exactly when there is an exact answer (property
    C109): no margin is needed, only that the possible differences between the instants form
    intervals of time values. *)
From Verif Require Import Machine TimeValue Spec Tac TimeValueProofs Interval Iter TimeSet Relns
  SpecSets Graph MaxPlus FwBound GraphProofs GraphOps GraphFits GraphWarshall GraphGrow GraphSafe GraphMem
  GraphHist GraphTight SpecGraph GraphSound GraphMono GraphInv GraphIter GraphCalls Prop_Graph Prop_Propagation
  Prop_GraphQuery Prop_Seen Prop_Queries Prop_Fits.

(** ** Specification *)

(** The differences between [n] instants, for the dates described by [S], are intervals of time
    values. *)
Definition spread (n : Z) (S : (Z -> Z) -> Prop) : Prop :=
  forall i j, 0 <= i < n -> 0 <= j < n -> exists iv, proper_bounds iv /\
    forall v, In_ext v iv <-> exists t, S t /\ t j - t i = v.
(** [n] instants are those of the graph and of the constraints. *)
Definition reach (g : graph) (ks : list kons) (n : Z) : Prop :=
  g_size g <= n /\ Forall (fun k => k_from k < n /\ k_to k < n) ks /\
  (n = g_size g \/ Exists (fun k => n = k_from k + 1 \/ n = k_to k + 1) ks).
(** Each instant is at no distance of itself. *)
Definition anchored (p : profile) (g : graph) : Prop :=
  forall i, 0 <= i < g_size g -> g_timespan p g i i = Ret (mkI 0 0).
(** [g'] is the exact answer: its solutions are the dates described by [S], and it reports the
    tightest bounds. *)
Definition answer (p : profile) (n : Z) (S : (Z -> Z) -> Prop) (g' : graph) : Prop :=
  stored g' /\ g_size g' = n /\ minimal p g' /\ regular p g' /\ forall t, solution p g' t <-> S t.

(** ** Proofs *)

Lemma ksize_reach g ks n : reach g ks n -> ksize (g_size g) ks = n.
Proof.
  intros (A & B & C).
  assert (L : ksize (g_size g) ks <= n).
  { clear C. unfold ksize. revert A. generalize (g_size g) as m. induction ks as [|k ks IH]; intros m A; simpl; auto.
    inversion B as [|? ? B1 B2]; subst. apply IH; auto. lia. }
  destruct (ksize_ge ks (g_size g)) as (G1 & G2). destruct C as [C|C]; [lia|].
  apply Exists_exists in C. destruct C as (k & I & C). specialize (G2 k I). lia.
Qed.
Lemma spread_low n S i j : spread n S -> node n i -> node n j -> (exists t, S t) ->
  exists lo, - oo <= lo < oo /\ forall v, (lo = - oo \/ lo <= v) <-> exists t, S t /\ t j - t i <= v.
Proof.
  intros Sp Ni Nj (t0 & S0). destruct (Sp i j Ni Nj) as (iv & (P & _) & H). exists (lower iv). split; auto.
  assert (I0 : In_ext (t0 j - t0 i) iv) by (apply H; eauto). intros v. split.
  - intros L. assert (I : In_ext (Z.min v (t0 j - t0 i)) iv) by (unfold In_ext in *; lia).
    apply H in I. destruct I as (t & St & D). exists t. split; auto. lia.
  - intros (t & St & D). assert (I : In_ext (t j - t i) iv) by (apply H; eauto). unfold In_ext in I. lia.
Qed.
Lemma spread_ext n S S' : (forall t, S t <-> S' t) -> spread n S -> spread n S'.
Proof.
  intros E Sp i j Ni Nj. destruct (Sp i j Ni Nj) as (iv & P & H). exists iv. split; auto. intros v. rewrite H.
  split; intros (t & X & D); exists t; split; auto; apply E; auto.
Qed.
Lemma answer_spread p n S g : answer p n S g -> spread n S.
Proof.
  intros (St & Sz & Mn & Rg & H) i j Ni Nj. rewrite <- Sz in Ni, Nj.
  destruct (Mn i j Ni Nj) as (iv & T & Mi). destruct (Rg i j Ni Nj) as (iv2 & T2 & P).
  rewrite T in T2. injection T2 as <-. exists iv. split; auto. intros v. split.
  - intros V. destruct (Mi v V) as (t & X & D). exists t. split; auto. apply H; auto.
  - intros (t & X & <-). apply H in X. destruct (X i j Ni Nj) as (iv3 & T3 & V).
    rewrite T in T3. injection T3 as <-. auto.
Qed.
Lemma closed_answer p n S g : mem_ok g -> g_size g = n -> closed n (cell g) -> low n (cell g) ->
  (forall t, msat n (cell g) t <-> S t) -> answer p n S g.
Proof.
  intros M <- Cl Lw H. split; [apply M|]. split; auto. split; [apply closed_min_any; auto|]. split.
  - intros i j Ni Nj. eexists. split; [apply timespan_ok; auto|].
    pose proof (Lw i j Ni Nj). pose proof (Lw j i Nj Ni). unfold proper_bounds. cbn [lower upper]. lia.
  - intros t. rewrite sol_msat by auto. apply H.
Qed.
(** The computation of [extend] and [merge] *)
Lemma global_answer p g S : exact g -> (forall i, node (g_size g) i -> 0 <= cell g i i) ->
  (forall t, msat (g_size g) (cell g) t <-> S t) -> (exists t, S t) -> spread (g_size g) S ->
  exists g', g_global p g = Ret (g', Propagated) /\ answer p (g_size g) S g'.
Proof.
  intros (M & _ & V) Dg H (t0 & S0) Sp.
  destruct (global_sat p g t0) as (g' & E & Sh & Cl & Lw & Ms); auto.
  - intros i j Ni Nj. apply (V i j); auto.
  - apply H; auto.
  - intros i j Ni Nj. destruct (spread_low _ S i j Sp Ni Nj ltac:(eauto)) as (lo & B & L). exists lo. split; auto.
    intros v. rewrite L. split; intros (t & X & D); exists t; split; auto; apply H; auto.
  - exists g'. split; auto. apply closed_answer; auto; [eapply same_shape_mem; eauto|apply Sh|].
    intros t. rewrite Ms. apply H.
Qed.
Lemma anchored_diag p g : stored g -> anchored p g -> forall i, node (g_size g) i -> cell g i i = 0.
Proof.
  intros St A i Ni. specialize (A i Ni). rewrite timespan_ok in A by auto. injection A. lia.
Qed.
Lemma answer_regular p g S : stored g -> minimal p g -> vcells (g_size g) (cell g) ->
  (forall t, solution p g t <-> S t) -> (exists t, S t) -> spread (g_size g) S -> regular p g.
Proof.
  intros St Mn V H (t0 & S0) Sp i j Ni Nj. pose proof (proj1 (stored_mem g) St) as M.
  eexists. split; [apply timespan_ok; auto|]. unfold proper_bounds. cbn [lower upper]. assert (O : 0 < oo) by reflexivity.
  assert (G : forall i j, node (g_size g) i -> node (g_size g) j -> - oo <= cell g i j < oo).
  { clear i j Ni Nj. intros i j Ni Nj. specialize (V i j Ni Nj). unfold valid in V.
    destruct (Z.eq_dec (cell g i j) (- oo)) as [e|e]; [lia|].
    destruct (spread_low _ S i j Sp Ni Nj ltac:(eauto)) as (lo & B & L).
    assert (X : lo = - oo \/ lo <= cell g i j).
    { apply L. pose proof (any_bounds p g St i j t0 Ni Nj (proj2 (H t0) S0)) as I0.
      destruct (any_min p g St Mn i j (cell g i j) Ni Nj) as (t & Q & D).
      - unfold In_ext in *. cbn [lower upper] in *. lia.
      - exists t. split; [apply H; auto|lia]. }
    assert (Y : ~ (lo = - oo \/ lo <= cell g i j - 1)).
    { rewrite L. intros (t & Q & D). apply H in Q. pose proof (any_bounds p g St i j t Ni Nj Q) as I0.
      unfold In_ext in I0. cbn [lower upper] in I0. lia. }
    lia. }
  pose proof (G i j Ni Nj). pose proof (G j i Nj Ni). lia.
Qed.

(** ** C109 *)

(** [extend]: for any graph obtained by public calls, minimal or not, and any constraints with a
    common solution, the call gives the exact answer if and only if there is one. *)
Theorem C109_extend : forall p g hint ks n, calls p false g -> anchored p g -> Forall legal ks ->
  hint <> Some 0 -> hint <> Some 1 -> reach g ks n ->
  (exists t, solution p g t /\ Forall (fun k => sat k t) ks) ->
  (spread n (fun t => solution p g t /\ Forall (fun k => sat k t) ks) <->
   exists g', g_extend p g hint ks = Ret (g', Propagated) /\
     answer p n (fun t => solution p g t /\ Forall (fun k => sat k t) ks) g').
Proof.
  intros p g hint ks n H An Lk H0 H1 Re Co. pose proof (calls_exact _ _ H) as X. pose proof X as (M & _ & V).
  split; [|intros (g' & _ & A); eapply answer_spread; eauto]. intros Sp.
  destruct (inserted_ok p ks g M (exact_clean _ X) V Lk) as (g1 & E1 & M1 & C1 & S1 & V1 & O1 & MS).
  destruct (inserts_exact p ks g X Lk) as (g1' & E1' & X1). rewrite E1 in E1'. injection E1' as <-.
  rewrite (ksize_reach _ _ _ Re) in S1. subst n. rewrite extend_slow by (split; auto). rewrite E1. cbn [bind].
  destruct (global_answer p g1 (fun t => solution p g t /\ Forall (fun k => sat k t) ks)) as (g' & E & A); auto.
  - intros i Ni. assert (Y : ent (cell g1) i i 0).
    { apply O1; auto. left. unfold ent, extm. destruct ((i <? g_size g) && (i <? g_size g)) eqn:T.
      - rewrite (anchored_diag p g M An) by (unfold node in *; lia). split; [discriminate|lia].
      - rewrite Z.eqb_refl. split; [discriminate|lia]. }
    apply Y.
  - intros t. rewrite MS, sol_msat by auto. reflexivity.
  - exists g'. auto.
Qed.
(** A graph collected from constraints *)
Theorem C109_from_iter : forall p hint ks n, Forall legal ks -> hint <> Some 0 -> hint <> Some 1 ->
  reach g_default ks n -> (exists t, Forall (fun k => sat k t) ks) ->
  (spread n (fun t => Forall (fun k => sat k t) ks) <->
   exists g', g_from_iter p hint ks = Ret g' /\ answer p n (fun t => Forall (fun k => sat k t) ks) g').
Proof.
  intros p hint ks n Lk H0 H1 Re (t0 & S0). split; [|intros (g' & _ & A); eapply answer_spread; eauto]. intros Sp.
  assert (Em : forall t, solution p g_default t) by (intros t i j Ni; simpl in Ni; lia).
  destruct (proj1 (C109_extend p g_default hint ks n (c_new p false) ltac:(intros i Ni; simpl in Ni; lia) Lk H0 H1 Re
    ltac:(eauto))) as (g' & E & A1 & A2 & A3 & A4 & A5).
  - eapply spread_ext; [|exact Sp]. intros t. split; auto. tauto.
  - exists g'. unfold g_from_iter, g_extend_expect. rewrite E. cbn [bind fst snd]. split; auto.
    split; auto. split; auto. split; auto. split; auto. intros t. rewrite A5. split; auto. tauto.
Qed.
(** [merge] of two minimal graphs *)
Theorem C109_merge : forall p g h, calls p false g -> calls p false h -> minimal p g -> minimal p h ->
  (exists t, solution p g t /\ solution p h t) ->
  (spread (Z.max (g_size g) (g_size h)) (fun t => solution p g t /\ solution p h t) <->
   exists g' r, g_merge p g h = Ret (g', r) /\ accepted r /\
     answer p (Z.max (g_size g) (g_size h)) (fun t => solution p g t /\ solution p h t) g').
Proof.
  intros p g h H H' Mg Mh Co. pose proof (calls_exact _ _ H) as X. pose proof (calls_exact _ _ H') as X'.
  split; [|intros (g' & r & _ & _ & A); eapply answer_spread; eauto]. intros Sp. pose proof Co as (t0 & S0 & S0').
  destruct (merged_ok g h X X') as (Xm & Sz & MS). rewrite merge_unfold. rewrite <- Sz in *.
  assert (MS' : forall t, msat (g_size (merged g h)) (cell (merged g h)) t <-> solution p g t /\ solution p h t).
  { intros t. rewrite MS, !sol_msat by (apply X || apply X'). reflexivity. }
  pose proof (min_diag p g (proj1 X) Mg ltac:(eauto)) as Zg. pose proof (min_diag p h (proj1 X') Mh ltac:(eauto)) as Zh.
  destruct (snd _) eqn:Ch.
  - destruct (global_answer p (merged g h) (fun t => solution p g t /\ solution p h t)) as (g' & E & A); auto.
    + intros i Ni. rewrite Sz in Ni.
      assert (W : forall a b, exact a -> exact b -> g_size b <= g_size a -> zero_diag (g_size a) (cell a) -> node (g_size a) i ->
        0 <= cell (mkG (g_size a) (fst (zip_max (g_data a) (g_data b)))) i i).
      { intros a b Xa Xb L Za Na. rewrite zip_cells by (auto; apply Xa). rewrite (Za i Na). destruct (_ && _); lia. }
      unfold merged. destruct (g_size g <? g_size h) eqn:T; apply W; auto; try lia; unfold node in *; lia.
    + exists g', Propagated. split; auto. split; [right; auto|auto].
  - exists (merged g h), (if g_size g <? g_size h then Propagated else Unchanged). split; auto.
    split; [destruct (g_size g <? g_size h); [right|left]; auto|].
    assert (Mm : minimal p (merged g h)).
    { unfold merged. destruct (g_size g <? g_size h); rewrite (zip_max_unchanged _ _ Ch); [destruct h; auto|destruct g; auto]. }
    split; [apply Xm|]. split; auto. split; auto.
    assert (Q : forall t, solution p (merged g h) t <-> solution p g t /\ solution p h t).
    { intros t. rewrite sol_msat by apply Xm. apply MS'. }
    split; auto. apply (answer_regular p (merged g h) (fun t => solution p g t /\ solution p h t)); auto; apply Xm.
Qed.

(** There is only one answer. *)
Lemma answer_unique p n S g h : answer p n S g -> answer p n S h -> (exists t, S t) -> same_bounds p g h.
Proof.
  intros (Sg & Zg & Mg & Rg & Hg) (Sh & Zh & Mh & Rh & Hh) (t0 & S0). split; [congruence|].
  assert (Cg : closed (g_size g) (cell g)) by (apply (any_closed p); auto; exists t0; apply Hg; auto).
  assert (Ch : closed (g_size h) (cell h)) by (apply (any_closed p); auto; exists t0; apply Hh; auto).
  pose proof (ex_low p g Sg Rg) as Lg. pose proof (ex_low p h Sh Rh) as Lh. rewrite Zg, Zh in *.
  assert (E : forall i j, node n i -> node n j -> cell g i j = cell h i j).
  { intros i j Ni Nj. pose proof (closed_unique n (cell g) (cell h) Cg Ch) as U. specialize (Lg i j Ni Nj). specialize (Lh i j Ni Nj).
    assert (Q : forall t, msat n (cell g) t <-> msat n (cell h) t).
    { intros t. pose proof (sol_msat p g t Sg) as Q1. pose proof (sol_msat p h t Sh) as Q2. rewrite Zg in Q1. rewrite Zh in Q2.
      rewrite <- Q1, <- Q2, Hg, Hh. tauto. }
    specialize (U Q i j). unfold ent in U.
    pose proof (U (cell g i j) Ni Nj). pose proof (U (cell h i j) Ni Nj). lia. }
  intros i j Ni Nj. rewrite !timespan_ok by (rewrite ?Zg, ?Zh; auto). rewrite (E i j), (E j i) by auto. auto.
Qed.
(** The order and the repetition of the constraints do not matter. *)
Theorem C109_order : forall p g hint hint' ks ks' n, calls p false g -> anchored p g -> Forall legal ks ->
  hint <> Some 0 -> hint <> Some 1 -> hint' <> Some 0 -> hint' <> Some 1 ->
  (forall k, In k ks <-> In k ks') -> reach g ks n ->
  (exists t, solution p g t /\ Forall (fun k => sat k t) ks) ->
  spread n (fun t => solution p g t /\ Forall (fun k => sat k t) ks) ->
  exists g1 g2, g_extend p g hint ks = Ret (g1, Propagated) /\ g_extend p g hint' ks' = Ret (g2, Propagated) /\
    same_bounds p g1 g2.
Proof.
  intros p g hint hint' ks ks' n H An Lk H0 H1 H0' H1' P Re Co Sp.
  assert (F : forall Q : kons -> Prop, Forall Q ks <-> Forall Q ks').
  { intros Q. rewrite !Forall_forall. split; intros X k I; apply X, P, I. }
  assert (Re' : reach g ks' n).
  { destruct Re as (R1 & R2 & R3). split; auto. split; [apply F; auto|]. destruct R3 as [R3|R3]; auto. right.
    rewrite Exists_exists in *. destruct R3 as (k & I & R3). exists k. split; auto. apply P; auto. }
  destruct (proj1 (C109_extend p g hint ks n H An Lk H0 H1 Re Co) Sp) as (g1 & E1 & A1).
  destruct (proj1 (C109_extend p g hint' ks' n H An (proj1 (F _) Lk) H0' H1' Re' ltac:(destruct Co as (t & S & K); exists t;
    split; auto; apply F; auto))) as (g2 & E2 & A2).
  - eapply spread_ext; [|exact Sp]. intros t. cbv beta. rewrite (F (fun k => sat k t)). tauto.
  - exists g1, g2. split; auto. split; auto. eapply answer_unique; eauto.
    destruct A2 as (B1 & B2 & B3 & B4 & B5). split; auto. split; auto. split; auto. split; auto.
    intros t. rewrite B5, (F (fun k => sat k t)). tauto.
Qed.
(** [extend] and [propagate] agree: one call or one call for each constraint. *)
Theorem C109_steps : forall p g hint ks, calls p false g -> minimal p g -> regular p g ->
  Forall (good (g_size g) oo) ks -> hint <> Some 0 -> hint <> Some 1 ->
  (exists t, solution p g t /\ Forall (fun k => sat k t) ks) ->
  (forall l l', ks = l ++ l' -> representable_all p g l) ->
  exists g1 g2, one_by_one p g ks g1 /\ g_extend p g hint ks = Ret (g2, Propagated) /\ same_bounds p g1 g2.
Proof.
  intros p g hint ks H Mn Rg Gd H0 H1 Co Rp. pose proof (calls_exact _ _ H) as X. pose proof X as (M & _ & V).
  destruct (C108_sequence p ks g M Mn Rg Gd Co Rp) as (g1 & O & St & Sz & Mn1 & Rg1 & Q).
  assert (An : anchored p g).
  { intros i Ni. rewrite timespan_ok by auto. destruct Co as (t & S & _).
    rewrite (min_diag p g M Mn ltac:(eauto) i Ni). auto. }
  assert (Lk : Forall legal ks).
  { eapply Forall_impl; [|exact Gd]. intros k (_ & (A1 & A2 & A3 & A4 & A5) & B1 & B2 & _). cbn [lower upper] in *.
    unfold legal, valid. destruct M as (M1 & _). lia. }
  assert (Re : reach g ks (g_size g)).
  { split; [lia|]. split; auto. eapply Forall_impl; [|exact Gd]. intros k (_ & _ & B1 & B2 & _). lia. }
  destruct (proj1 (C109_extend p g hint ks (g_size g) H An Lk H0 H1 Re Co)) as (g2 & E2 & A2).
  - intros i j Ni Nj. destruct (Rp ks [] ltac:(rewrite app_nil_r; auto) i j Ni Nj) as (iv & P & R). exists iv. split; auto.
    intros v. rewrite R. split; intros (t & S); exists t; tauto.
  - exists g1, g2. split; auto. split; auto. eapply answer_unique; eauto. split; [exact St|]. auto.
Qed.

(** ** Examples *)

(** Bounds that the sum of two of them is no time value: it saturates, but it is not needed. *)
Definition lks : list kons := [mkK 0 1 false (- far) oo; mkK 1 2 false (- far) oo; mkK 0 2 false 0 oo].
Definition g_l : graph := mkG 3 [0; - oo; 0; - far; - oo; - oo; 0; - far; 0].
Ltac g_cells g := repeat match goal with
  | H : context [cell g ?i ?j] |- _ => let v := eval vm_compute in (cell g i j) in change (cell g i j) with v in *
  | |- context [cell g ?i ?j] => let v := eval vm_compute in (cell g i j) in change (cell g i j) with v in * end.
Lemma in3 i : node 3 i -> i = 0 \/ i = 1 \/ i = 2.
Proof. unfold node. lia. Qed.
Lemma in2 i : node 2 i -> i = 0 \/ i = 1.
Proof. unfold node. lia. Qed.
Lemma l_answer p : answer p 3 (fun t => Forall (fun k => sat k t) lks) g_l.
Proof.
  apply closed_answer.
  - split; simpl; lia.
  - reflexivity.
  - split.
    + intros i Ni. destruct (in3 i Ni) as [->|[-> | ->]]; reflexivity.
    + intros i k j a b Ni Nk Nj (A1 & A2) (B1 & B2). unfold ent.
      destruct (in3 i Ni) as [->|[-> | ->]]; destruct (in3 k Nk) as [->|[-> | ->]]; try (destruct A1; reflexivity);
      destruct (in3 j Nj) as [->|[-> | ->]]; try (destruct B1; reflexivity); clear A1 B1; g_cells g_l; (split; [discriminate|lia]).
  - intros i j Ni Nj. destruct (in3 i Ni) as [->|[-> | ->]]; destruct (in3 j Nj) as [->|[-> | ->]]; g_cells g_l; unfold oo; lia.
  - intros t. unfold lks. rewrite !Forall_cons_iff. unfold sat, In_ext. cbn [k_to k_from k_lo k_up lower upper].
    assert (F : - far <> - oo /\ 0 <> - oo) by (split; discriminate). split.
    + intros S.
      pose proof (S 0 1 (- far) ltac:(unfold node; lia) ltac:(unfold node; lia) ltac:(split; [discriminate|g_cells g_l; discriminate])).
      pose proof (S 1 2 (- far) ltac:(unfold node; lia) ltac:(unfold node; lia) ltac:(split; [discriminate|g_cells g_l; discriminate])).
      pose proof (S 0 2 0 ltac:(unfold node; lia) ltac:(unfold node; lia) ltac:(split; [discriminate|g_cells g_l; discriminate])).
      repeat split; auto; lia.
    + intros (([S1|S1] & _) & ([S2|S2] & _) & ([S3|S3] & _) & _); try lia. intros i j w Ni Nj (A & B).
      change far with 4611686018427387904 in *.
      destruct (in3 i Ni) as [->|[-> | ->]]; destruct (in3 j Nj) as [->|[-> | ->]]; try (destruct A; reflexivity); g_cells g_l; lia.
Qed.
Example C109_case : forall p, Forall legal lks /\ reach g_default lks 3 /\ (exists t, Forall (fun k => sat k t) lks) /\
  - far + - far < - oo /\ spread 3 (fun t => Forall (fun k => sat k t) lks) /\
  g_from_iter p None lks = Ret g_l /\ answer p 3 (fun t => Forall (fun k => sat k t) lks) g_l /\
  g_timespan p g_l 0 2 = Ret (mkI 0 oo).
Proof.
  intros p. pose proof (l_answer p) as A. split.
  { unfold lks. repeat constructor; cbv [valid far k_from k_to k_lo k_up oo]; lia. }
  split.
  { split; [simpl; lia|]. split; [unfold lks; repeat constructor; cbn [k_from k_to]; lia|]. right.
    apply Exists_exists. eexists. split; [right; left; reflexivity|]. right. reflexivity. }
  split.
  { exists (fun _ => 0). unfold lks. rewrite !Forall_cons_iff. unfold sat, In_ext. cbn [k_to k_from k_lo k_up lower upper].
    unfold far, oo. repeat split; auto; lia. }
  split; [reflexivity|]. split; [eapply answer_spread; eauto|].
  split; [destruct p; reflexivity|]. split; [exact A|destruct p; reflexivity].
Qed.
(** Without an exact answer: the difference between the first and the last instants is beyond the
    time values, and the call panics. *)
Example C109_not_case : forall p, let ks := [mkK 0 1 false far far; mkK 1 2 false far far] in
  Forall legal ks /\ (exists t, Forall (fun k => sat k t) ks) /\ ~ spread 3 (fun t => Forall (fun k => sat k t) ks) /\
  g_from_iter p None ks = Panic.
Proof.
  intros p ks. unfold ks. assert (F : far <> - oo /\ far <> oo) by (split; discriminate). split.
  { repeat constructor; cbv [valid far k_from k_to k_lo k_up oo]; lia. }
  assert (Q : exists t, Forall (fun k => sat k t) [mkK 0 1 false far far; mkK 1 2 false far far]).
  { exists (fun i => i * far). rewrite !Forall_cons_iff. unfold sat, In_ext. cbn [k_to k_from k_lo k_up lower upper].
    repeat split; auto; lia. }
  split; auto. split.
  - intros Sp. destruct (spread_low 3 _ 0 2 Sp ltac:(unfold node; lia) ltac:(unfold node; lia) Q) as (lo & B & L).
    assert (N : ~ (lo = - oo \/ lo <= oo)); [|lia]. rewrite L. intros (t & S & D).
    rewrite !Forall_cons_iff in S. unfold sat, In_ext in S. cbn [k_to k_from k_lo k_up lower upper] in S.
    assert (far + far = oo + 1) by reflexivity. lia.
  - destruct p; reflexivity.
Qed.
(** The merge of two graphs with such bounds *)
Definition g_m1 : graph := mkG 2 [0; - far; 0; far].
Definition g_m2 : graph := mkG 3 [0; - oo; 0; - oo; - oo; far; 0; - far; - oo].
Definition g_m : graph := mkG 3 [0; - far; 0; far; 0; far; 0; - far; 0].
Lemma m1_answer p : minimal p g_m1 /\ forall t, solution p g_m1 t <-> t 1 - t 0 = far.
Proof.
  assert (M : mem_ok g_m1) by (split; simpl; lia). split.
  - apply closed_min_any; auto. split.
    + intros i Ni. destruct (in2 i Ni) as [->| ->]; reflexivity.
    + intros i k j a b Ni Nk Nj (A1 & A2) (B1 & B2). unfold ent.
      destruct (in2 i Ni) as [->| ->]; destruct (in2 k Nk) as [->| ->]; destruct (in2 j Nj) as [->| ->];
      clear A1 B1; g_cells g_m1; (split; [discriminate|lia]).
  - intros t. rewrite sol_msat by auto. split.
    + intros S.
      pose proof (S 0 1 far ltac:(unfold node; simpl; lia) ltac:(unfold node; simpl; lia) ltac:(split; [discriminate|g_cells g_m1; discriminate])).
      pose proof (S 1 0 (- far) ltac:(unfold node; simpl; lia) ltac:(unfold node; simpl; lia) ltac:(split; [discriminate|g_cells g_m1; discriminate])). lia.
    + intros E i j w Ni Nj (A & B). change far with 4611686018427387904 in E.
      destruct (in2 i Ni) as [->| ->]; destruct (in2 j Nj) as [->| ->]; g_cells g_m1; lia.
Qed.
Lemma m2_answer p : minimal p g_m2 /\ forall t, solution p g_m2 t <-> t 2 - t 1 = - far.
Proof.
  assert (M : mem_ok g_m2) by (split; simpl; lia). split.
  - apply closed_min_any; auto. split.
    + intros i Ni. destruct (in3 i Ni) as [->|[-> | ->]]; reflexivity.
    + intros i k j a b Ni Nk Nj (A1 & A2) (B1 & B2). unfold ent.
      destruct (in3 i Ni) as [->|[-> | ->]]; destruct (in3 k Nk) as [->|[-> | ->]]; try (destruct A1; reflexivity);
      destruct (in3 j Nj) as [->|[-> | ->]]; try (destruct B1; reflexivity); clear A1 B1; g_cells g_m2; (split; [discriminate|lia]).
  - intros t. rewrite sol_msat by auto. split.
    + intros S.
      pose proof (S 2 1 far ltac:(unfold node; simpl; lia) ltac:(unfold node; simpl; lia) ltac:(split; [discriminate|g_cells g_m2; discriminate])).
      pose proof (S 1 2 (- far) ltac:(unfold node; simpl; lia) ltac:(unfold node; simpl; lia) ltac:(split; [discriminate|g_cells g_m2; discriminate])). lia.
    + intros E i j w Ni Nj (A & B). change far with 4611686018427387904 in E.
      destruct (in3 i Ni) as [->|[-> | ->]]; destruct (in3 j Nj) as [->|[-> | ->]]; try (destruct A; reflexivity); g_cells g_m2; lia.
Qed.
Example C109_merge_case : forall p, calls p false g_m1 /\ calls p false g_m2 /\ minimal p g_m1 /\ minimal p g_m2 /\
  (exists t, solution p g_m1 t /\ solution p g_m2 t) /\
  spread 3 (fun t => solution p g_m1 t /\ solution p g_m2 t) /\ g_merge p g_m1 g_m2 = Ret (g_m, Propagated).
Proof.
  intros p. destruct (m1_answer p) as (N1 & S1). destruct (m2_answer p) as (N2 & S2). split.
  { apply (c_extend p false g_default None [mkK 0 1 false far far] g_m1 Propagated); [constructor| |destruct p; reflexivity|discriminate].
    repeat constructor; cbv [valid far k_from k_to k_lo k_up oo]; lia. }
  split.
  { apply (c_extend p false g_default None [mkK 1 2 false (- far) (- far)] g_m2 Propagated); [constructor| |destruct p; reflexivity|discriminate].
    repeat constructor; cbv [valid far k_from k_to k_lo k_up oo]; lia. }
  split; auto. split; auto. split.
  { exists (fun i => if i =? 1 then far else 0). split; [apply S1|apply S2]; reflexivity. }
  split; [|destruct p; reflexivity]. apply (answer_spread p 3 _ g_m). apply closed_answer.
  - split; simpl; lia.
  - reflexivity.
  - split.
    + intros i Ni. destruct (in3 i Ni) as [->|[-> | ->]]; reflexivity.
    + intros i k j a b Ni Nk Nj (A1 & A2) (B1 & B2). unfold ent.
      destruct (in3 i Ni) as [->|[-> | ->]]; destruct (in3 k Nk) as [->|[-> | ->]];
      destruct (in3 j Nj) as [->|[-> | ->]]; clear A1 B1; g_cells g_m; (split; [discriminate|lia]).
  - intros i j Ni Nj. destruct (in3 i Ni) as [->|[-> | ->]]; destruct (in3 j Nj) as [->|[-> | ->]]; g_cells g_m; unfold oo; lia.
  - intros t. rewrite S1, S2. split.
    + intros S.
      pose proof (S 0 1 far ltac:(unfold node; lia) ltac:(unfold node; lia) ltac:(split; [discriminate|g_cells g_m; discriminate])).
      pose proof (S 1 0 (- far) ltac:(unfold node; lia) ltac:(unfold node; lia) ltac:(split; [discriminate|g_cells g_m; discriminate])).
      pose proof (S 2 1 far ltac:(unfold node; lia) ltac:(unfold node; lia) ltac:(split; [discriminate|g_cells g_m; discriminate])).
      pose proof (S 1 2 (- far) ltac:(unfold node; lia) ltac:(unfold node; lia) ltac:(split; [discriminate|g_cells g_m; discriminate])). lia.
    + intros (E1 & E2) i j w Ni Nj (A & B). change far with 4611686018427387904 in *.
      destruct (in3 i Ni) as [->|[-> | ->]]; destruct (in3 j Nj) as [->|[-> | ->]]; g_cells g_m; lia.
Qed.
(** Without any solution the sums matter: these constraints contradict each other, and [extend]
    accepts them. *)
Definition g_c : graph := mkG 5 [0; far + 1; 0; - far; - far; - oo; 0; oo; - oo; oo; - oo; oo; 0; - oo; - far; - oo;
  2 ^ 61 + 1; - oo; 3 * 2 ^ 61 + 1; - oo; 0; 3 * 2 ^ 61; - oo; 2 ^ 61; - oo].
Theorem C109_contradiction_refuted : exists ks, Forall (good 5 oo) ks /\ (forall t, ~ Forall (fun k => sat k t) ks) /\
  forall p, exists g, g_extend p g_default None ks = Ret (g, Propagated) /\ g_size g = 5 /\ forall t, ~ solution p g t.
Proof.
  set (ks := [mkK 2 0 false (- far) oo; mkK 0 1 false (- far) oo; mkK 1 3 false (- far) oo;
          mkK 3 4 false (3 * 2 ^ 61) oo; mkK 4 2 false (3 * 2 ^ 61 + 1) oo]).
  assert (Gd : Forall (good 5 oo) ks).
  { unfold ks. repeat (constructor; [cbv [good wf_iv valid within far k_empty k_from k_to k_lo k_up lower upper oo]; lia|]). constructor. }
  assert (No : forall t, ~ Forall (fun k => sat k t) ks).
  { intros t S. unfold ks in S. rewrite !Forall_cons_iff in S. unfold sat, In_ext in S. cbn [k_to k_from k_lo k_up lower upper] in S.
    destruct S as (([S1|S1] & _) & ([S2|S2] & _) & ([S3|S3] & _) & ([S4|S4] & _) & ([S5|S5] & _) & _); try discriminate.
    change far with 4611686018427387904 in *. change (3 * 2 ^ 61) with 6917529027641081856 in *. lia. }
  exists ks. split; auto. split; auto. intros p.
  assert (E : g_extend p g_default None ks = Ret (g_c, Propagated)) by (destruct p; vm_compute; reflexivity).
  exists g_c. split; [exact E|]. split; [reflexivity|]. intros t S.
  apply (C39_extend p g_default None ks g_c Propagated) in S; [| | |exact I|discriminate|exact E|right; reflexivity].
  - apply (No t). apply S.
  - constructor.
  - eapply Forall_impl; [|exact Gd]. intros k (_ & (A1 & A2 & A3 & A4 & A5) & B1 & B2 & _). cbn [lower upper] in *. unfold legal, valid. lia.
Qed.

Print Assumptions C109_extend.
Print Assumptions C109_from_iter.
Print Assumptions C109_merge.
Print Assumptions C109_order.
Print Assumptions C109_steps.
Print Assumptions C109_contradiction_refuted.
