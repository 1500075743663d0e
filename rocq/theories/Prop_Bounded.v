(** A condition on the given bounds under which no margin is needed (property C118): if the bounds
    of the constraints between [n] instants are within [B], and [(n - 1) * B] is a time value, then
    all the differences are intervals of time values, so that C108 to C117 apply; and the limit
    cannot be raised.  C40 asks [4 * (n + 1) * B] to be a time value. *)
From Verif Require Import Machine TimeValue Spec Tac TimeValueProofs Interval Iter TimeSet Relns
  SpecSets Graph MaxPlus FwBound GraphProofs GraphOps GraphFits GraphWarshall GraphGrow GraphSafe GraphMem
  GraphHist GraphTight SpecGraph GraphSound GraphMono GraphInv GraphIter GraphCalls Prop_Graph Prop_Propagation
  Prop_GraphQuery Prop_Seen Prop_Queries Prop_Fits Prop_Represent Prop_Program.

(** ** The matrix of a list of constraints *)

Definition edge (k : kons) (i j : Z) : Z :=
  Z.max (if (k_from k =? i) && (k_to k =? j) then k_lo k else - oo)
        (if (k_from k =? j) && (k_to k =? i) then - k_up k else - oo).
Fixpoint heavy (ks : list kons) (i j : Z) : Z :=
  match ks with [] => - oo | k :: l => Z.max (edge k i j) (heavy l i j) end.
Definition given (ks : list kons) : mat := fun i j => if i =? j then 0 else heavy ks i j.

Lemma edge_bnd n B k i j : good n B k -> - oo <= edge k i j /\ (edge k i j = - oo \/ - B <= edge k i j <= B).
Proof.
  intros (_ & (W1 & W2 & W3 & W4 & W5) & _ & _ & Bl & Bu). cbn [lower upper] in *. unfold valid, within in *. unfold edge.
  destruct ((k_from k =? i) && _); destruct ((k_from k =? j) && _); lia.
Qed.
Lemma heavy_bnd n B ks i j : Forall (good n B) ks -> - oo <= heavy ks i j /\ (heavy ks i j = - oo \/ - B <= heavy ks i j <= B).
Proof.
  induction 1 as [|k l G F IH]; cbn [heavy]; [lia|]. pose proof (edge_bnd n B k i j G). lia.
Qed.
Lemma heavy_le n B ks i j d : Forall (good n B) ks ->
  ((heavy ks i j = - oo \/ heavy ks i j <= d) <-> Forall (fun k => edge k i j = - oo \/ edge k i j <= d) ks).
Proof.
  induction 1 as [|k l G F IH]; cbn [heavy]; [split; auto|]. rewrite Forall_cons_iff, <- IH.
  pose proof (edge_bnd n B k i j G). pose proof (heavy_bnd n B l i j F). lia.
Qed.
Lemma edge_sat n B k t : good n B k ->
  (sat k t <-> forall i j, node n i -> node n j -> edge k i j = - oo \/ edge k i j <= t j - t i).
Proof.
  intros (_ & (W1 & W2 & W3 & W4 & W5) & Nf & Nt & _). cbn [lower upper] in *. unfold valid in *. unfold sat, In_ext. cbn [lower upper].
  split.
  - intros (S1 & S2) i j Ni Nj. unfold edge.
    destruct ((k_from k =? i) && (k_to k =? j)) eqn:E1; destruct ((k_from k =? j) && (k_to k =? i)) eqn:E2.
    + assert (k_from k = i /\ k_to k = j /\ k_from k = j) as (<- & <- & e) by lia. rewrite <- e in *. lia.
    + assert (k_from k = i /\ k_to k = j) as (<- & <-) by lia. lia.
    + assert (k_from k = j /\ k_to k = i) as (<- & <-) by lia. lia.
    + lia.
  - intros H. pose proof (H _ _ Nf Nt) as A. pose proof (H _ _ Nt Nf) as B'. unfold edge in A, B'.
    rewrite !Z.eqb_refl in A, B'. cbn [andb] in A, B'.
    destruct ((k_from k =? k_to k) && _) eqn:E; lia.
Qed.
Lemma given_msat n B ks t0 t : Forall (good n B) ks -> Forall (fun k => sat k t0) ks ->
  (msat n (given ks) t <-> Forall (fun k => sat k t) ks).
Proof.
  intros G S0. split.
  - intros H. apply Forall_forall. intros k Ik. pose proof (proj1 (Forall_forall _ _) G k Ik) as Gk.
    pose proof (proj1 (Forall_forall _ _) S0 k Ik) as Sk. destruct (Z.eq_dec (k_from k) (k_to k)) as [e|e].
    { unfold sat in *. rewrite e in *. replace (t (k_to k) - t (k_to k)) with (t0 (k_to k) - t0 (k_to k)) by lia. exact Sk. }
    apply (edge_sat n B k t Gk). intros i j Ni Nj. destruct (Z.eq_dec i j) as [<-|Ne].
    { left. unfold edge. replace ((k_from k =? i) && (k_to k =? i)) with false by lia. reflexivity. }
    assert (X : heavy ks i j = - oo \/ heavy ks i j <= t j - t i).
    { destruct (Z.eq_dec (heavy ks i j) (- oo)) as [h|h]; auto. right. apply (H i j); auto. unfold ent, given.
      replace (i =? j) with false by lia. split; auto. lia. }
    apply (heavy_le n B ks i j) in X; auto. apply (proj1 (Forall_forall _ _) X k Ik).
  - intros S i j w Ni Nj (F & L). unfold given in *. destruct (i =? j) eqn:E.
    { assert (i = j) as <- by lia. lia. }
    assert (X : heavy ks i j = - oo \/ heavy ks i j <= t j - t i); [|lia].
    apply (heavy_le n B); auto. apply Forall_forall. intros k Ik.
    apply (edge_sat n B k t (proj1 (Forall_forall _ _) G k Ik)); auto. apply (proj1 (Forall_forall _ _) S k Ik).
Qed.

(** ** The differences are intervals of time values *)

Lemma closure_bnd n M t0 B : 0 <= n -> zero_diag n M -> msat n M t0 -> 0 <= B -> (n - 1) * B < oo ->
  (forall i j, node n i -> node n j -> M i j = - oo \/ - B <= M i j <= B) ->
  forall i j, node n i -> node n j -> exists lo, - oo <= lo < oo /\ (lo = - oo \/ Z.abs lo <= (n - 1) * B) /\
    forall v, (lo = - oo \/ lo <= v) <-> exists t, msat n M t /\ t j - t i <= v.
Proof.
  intros N0 Z0 S0 B0 R Bd. destruct (twice_turns n M t0 Z0 S0 (Z.to_nat n) ltac:(lia)) as (L & I & Ev). rewrite Z2Nat.id in I by auto.
  pose proof (twice_diag n M t0 Z0 S0 n L I) as ZL.
  assert (T : tight n (medge n (twice M)) L).
  { apply (fw_tight n (twice M)); auto.
    - intros i j w (Ni & Nj & F & ->). split; auto. split; auto. split; auto. lia.
    - intros i j c Ni Nj (F & X). exists [], (twice M i j). split; auto. constructor. left. unfold medge. auto. }
  pose proof T as (Cl & _). assert (O : 0 < oo) by reflexivity.
  assert (TB : forall i j, node n i -> node n j -> L i j <> - oo -> - ((n - 1) * (2 * B)) <= L i j <= (n - 1) * (2 * B)).
  { apply (tight_bound n (medge n (twice M)) L (2 * B) T); [lia|]. intros i j w (Ni & Nj & F & ->).
    destruct (twice_fin M i j) as (A & A'). apply A in F. rewrite (A' F). destruct (Bd i j Ni Nj); lia. }
  assert (MS : forall t, msat n L t <-> msat n (twice M) t).
  { intros t. rewrite (tight_msat n _ L t T). split.
    - intros H i j w Ni Nj (F & X). specialize (H i j (twice M i j)). unfold medge in H. specialize (H ltac:(auto)). lia.
    - intros H i j w (Ni & Nj & F & ->). apply H; auto. split; auto. lia. }
  intros i j Ni Nj.
  assert (D : forall v, (L i j = - oo \/ L i j <= 2 * v) -> exists t, msat n M t /\ t j - t i <= v).
  { intros v V. destruct (closed_minimal n L i j (if L j i =? - oo then 2 * v else Z.min (2 * v) (- L j i)) Cl Ni Nj) as (t & S & E).
    - intros w (X & Y). destruct (L j i =? - oo) eqn:Q; [lia|].
      assert (L i j + L j i <= 0); [|lia]. apply (ent_diag n L i); auto. apply (proj2 Cl i j i); auto; split; lia.
    - intros w (X & Y). replace (L j i =? - oo) with false by lia. lia.
    - exists (fun x => t x / 2). split; [apply half_msat, MS, S|].
      assert (t j <= t i + v * 2) by (destruct (L j i =? - oo); lia).
      pose proof (Z.div_le_mono (t j) (t i + v * 2) 2 ltac:(lia) ltac:(lia)) as Q. rewrite Z.div_add in Q by lia. lia. }
  destruct (Z.eq_dec (L i j) (- oo)) as [e|e].
  - exists (- oo). split; [lia|]. split; [auto|]. intros v. split; auto.
  - destruct (Ev i j e) as (c & Hc). pose proof (TB i j Ni Nj e) as Tb. exists c. split; [nia|]. split; [right; nia|]. intros v. split.
    + intros V. apply D. lia.
    + intros (t & S & V). right. apply twice_msat, MS in S. specialize (S i j (L i j) Ni Nj ltac:(split; auto; lia)). cbv beta in S. lia.
Qed.
Lemma closed_spread n E : closed n E -> low n E -> spread n (msat n E).
Proof.
  intros Cl Lw i j Ni Nj. exists (mkI (E i j) (- E j i)). pose proof (Lw i j Ni Nj). pose proof (Lw j i Nj Ni).
  split; [unfold proper_bounds; cbn [lower upper]; lia|]. intros v. unfold In_ext. cbn [lower upper]. split.
  - intros (V1 & V2). apply (closed_minimal n E i j v Cl Ni Nj); intros w (X & Y); lia.
  - intros (t & S & <-). split.
    + destruct (Z.eq_dec (E i j) (- oo)) as [e|e]; auto. right. apply (S i j); auto. split; auto. lia.
    + destruct (Z.eq_dec (E j i) (- oo)) as [e|e]; [lia|]. right. specialize (S j i (E j i) Nj Ni ltac:(split; auto; lia)). lia.
Qed.
Lemma given_bnd n B ks : 0 <= B -> Forall (good n B) ks ->
  forall i j, node n i -> node n j -> given ks i j = - oo \/ - B <= given ks i j <= B.
Proof. intros B0 G i j Ni Nj. unfold given. destruct (i =? j); [lia|]. apply (heavy_bnd n B ks i j G). Qed.
(** The condition *)
Theorem C118_spread : forall n B ks, 0 <= n -> 0 <= B -> (n - 1) * B < oo -> Forall (good n B) ks ->
  (exists t, Forall (fun k => sat k t) ks) -> spread n (fun t => Forall (fun k => sat k t) ks).
Proof.
  intros n B ks N0 B0 R G (t0 & S0). pose proof (given_msat n B ks t0) as Q.
  assert (Z0 : zero_diag n (given ks)) by (intros i Ni; unfold given; rewrite Z.eqb_refl; reflexivity).
  assert (M0 : msat n (given ks) t0) by (apply Q; auto).
  destruct (exact_closure n (given ks) t0 N0 Z0 M0) as (E & Cl & Lw & MS & _).
  - intros i j Ni Nj. destruct (closure_bnd n (given ks) t0 B N0 Z0 M0 B0 R (given_bnd n B ks B0 G) i j Ni Nj) as (lo & A & _ & V).
    exists lo. auto.
  - eapply spread_ext; [|apply (closed_spread n E Cl Lw)]. intros t. cbv beta. rewrite MS. apply Q; auto.
Qed.

(** The reported bounds are then within (n - 1) * B. *)
Lemma any_reach p n S g i j : answer p n S g -> (exists t, S t) -> node n i -> node n j ->
  forall v, (cell g i j = - oo \/ cell g i j <= v) <-> exists t, S t /\ t j - t i <= v.
Proof.
  intros (St & Sz & Mn & _ & Q) (t0 & T0) Ni Nj v. rewrite <- Sz in Ni, Nj. apply Q in T0.
  destruct (any_bounds p g St i j t0 Ni Nj T0) as (B1 & B2). cbn [lower upper] in B1, B2. split.
  - intros H. destruct (any_min p g St Mn i j (if cell g i j =? - oo then Z.min (t0 j - t0 i) v else cell g i j) Ni Nj) as (t & T & V).
    + split; cbn [lower upper]; destruct (cell g i j =? - oo) eqn:E; lia.
    + exists t. split; [apply Q; exact T|]. destruct (cell g i j =? - oo) eqn:E; lia.
  - intros (t & T & V). apply Q in T. destruct (any_bounds p g St i j t Ni Nj T) as (W & _). cbn [lower upper] in W. lia.
Qed.
Theorem C118_reported : forall p n B ks g, 0 <= B -> (n - 1) * B < oo -> Forall (good n B) ks ->
  (exists t, Forall (fun k => sat k t) ks) -> answer p n (fun t => Forall (fun k => sat k t) ks) g -> seen p ((n - 1) * B) g.
Proof.
  intros p n B ks g B0 R G Co A. pose proof Co as (t0 & S0). pose proof (given_msat n B ks t0) as Q.
  destruct (answer_closed p n _ g A Co) as (M & Sz & _ & Lw & _). assert (N0 : 0 <= n) by (rewrite <- Sz; apply M).
  assert (Z0 : zero_diag n (given ks)) by (intros i Ni; unfold given; rewrite Z.eqb_refl; reflexivity).
  assert (M0 : msat n (given ks) t0) by (apply Q; auto).
  assert (X : forall i j, node n i -> node n j -> cell g i j = - oo \/ Z.abs (cell g i j) <= (n - 1) * B).
  { intros i j Ni Nj. pose proof (Lw i j Ni Nj) as L.
    destruct (closure_bnd n (given ks) t0 B N0 Z0 M0 B0 R (given_bnd n B ks B0 G) i j Ni Nj) as (lo & A1 & A2 & V).
    assert (E : forall v, (lo = - oo \/ lo <= v) <-> (cell g i j = - oo \/ cell g i j <= v)).
    { intros v. rewrite (any_reach p n _ g i j A Co Ni Nj v), V. split; intros (t & T & D); exists t; (split; [|exact D]); apply Q; auto. }
    pose proof (E lo) as E1. pose proof (E (lo - 1)) as E2. pose proof (E (cell g i j)) as E3. pose proof (E (cell g i j - 1)) as E4.
    clear - L A1 A2 E1 E2 E3 E4. lia. }
  intros i j Ni Nj. rewrite Sz in Ni, Nj. eexists. split; [apply timespan_ok; auto; rewrite Sz; auto|]. cbn [lower upper].
  pose proof (X i j Ni Nj). pose proof (X j i Nj Ni). lia.
Qed.

(** ** Programs *)

(** The constraints that are kept when each one of [ks] is refused if it contradicts those kept before *)
Inductive greedy : list kons -> list kons -> list kons -> Prop :=
| g_end acc : greedy acc [] acc
| g_keep acc k ks r : (exists t, Forall (fun k => sat k t) (k :: acc)) -> greedy (k :: acc) ks r -> greedy acc (k :: ks) r
| g_drop acc k ks r : (forall t, ~ Forall (fun k => sat k t) (k :: acc)) -> greedy acc ks r -> greedy acc (k :: ks) r.

Lemma contradicts_dec D k : contradicts D k \/ ~ contradicts D k.
Proof.
  assert (X : forall i j v (P : Prop), P \/ ~ P -> (exists c, ent D i j c /\ v < c /\ P) \/ ~ exists c, ent D i j c /\ v < c /\ P).
  { intros i j v P [Y|Y]; [|right; intros (c & _ & _ & Z); auto].
    destruct (Z.eq_dec (D i j) (- oo)) as [e|e]; [right; intros (c & (F & _) & _); auto|].
    destruct (Z_lt_le_dec v (D i j)) as [l|l]; [left; exists (D i j); split; [split; auto; lia|auto]|right].
    intros (c & (_ & C) & L & _). lia. }
  assert (N : forall x y : Z, x <> y \/ ~ x <> y) by (intros x y; destruct (Z.eq_dec x y); auto).
  unfold contradicts.
  destruct (X (k_from k) (k_to k) (k_up k) (k_up k <> oo) (N _ _)) as [A|A]; [auto|].
  destruct (X (k_to k) (k_from k) (- k_lo k) (k_lo k <> - oo) (N _ _)) as [B|B]; [auto|]. right. tauto.
Qed.
Lemma means_decides m n S k : means m n S -> good n oo k -> (exists t, S t /\ sat k t) \/ forall t, ~ (S t /\ sat k t).
Proof.
  intros H G. destruct (C110_program Debug m n S H) as (g & _ & _ & (St & Sz & Mn & Rg & Q) & (t0 & T0)). rewrite <- Sz in G.
  assert (Co : exists t, solution Debug g t) by (exists t0; apply Q; exact T0).
  destruct (contradicts_dec (cell g) k) as [c|c].
  - right. intros t (T & K). apply Q, sol_msat in T; [|apply stored_mem; exact St]. pose proof G as (_ & _ & Nf & Nt & _).
    eapply (contradicts_sound (g_size g) (cell g) k t); eauto.
  - left. apply (not_contradicts Debug g k St Mn Co G) in c. destruct c as (t & T & K). exists t. split; auto. apply Q. exact T.
Qed.
Lemma good_any n B k : good n B k -> good n oo k.
Proof.
  intros (A1 & A2 & A3 & A4 & _). pose proof A2 as (W1 & W2 & W3 & _). cbn [lower upper] in *. unfold valid in *.
  split; [exact A1|]. split; [exact A2|]. split; [exact A3|]. split; [exact A4|]. unfold within. lia.
Qed.
Lemma adds_means n B ks : 0 <= n -> 0 <= B -> (n - 1) * B < oo -> Forall (good n B) ks ->
  forall m S acc, means m n S -> (forall t, S t <-> Forall (fun k => sat k t) acc) -> Forall (good n B) acc ->
  exists kept S', means (fold_left Add ks m) n S' /\ greedy acc ks kept /\ forall t, S' t <-> Forall (fun k => sat k t) kept.
Proof.
  intros N0 B0 R. induction 1 as [|k ks G F IH]; intros m S acc H Q A.
  - exists acc, S. split; [exact H|]. split; [constructor|exact Q].
  - pose proof (good_any n B k G) as Go. cbn [fold_left].
    assert (Q' : forall t, S t /\ sat k t <-> Forall (fun k => sat k t) (k :: acc)).
    { intros t. rewrite Forall_cons_iff, Q. tauto. }
    destruct (means_decides m n S k H Go) as [Co|No].
    + destruct (IH (Add m k) (fun t => S t /\ sat k t) (k :: acc)) as (kept & S' & H' & Gr & Q2); auto.
      * apply m_add; auto. eapply spread_ext; [intros t; symmetry; apply Q'|]. apply (C118_spread n B); auto.
        destruct Co as (t & T). exists t. apply Q'. exact T.
      * exists kept, S'. split; [exact H'|]. split; [|exact Q2]. apply g_keep; auto. destruct Co as (t & T). exists t. apply Q'. exact T.
    + destruct (IH (Add m k) S acc) as (kept & S' & H' & Gr & Q2); auto.
      * apply m_refused; auto.
      * exists kept, S'. split; [exact H'|]. split; [|exact Q2]. apply g_drop; auto. intros t T. apply (No t), Q'. exact T.
Qed.
(** Any constraints within the bound, contradictory or not, one after the other *)
Theorem C118_program : forall p n B ks, 0 <= n <= 65535 -> 0 <= B -> (n - 1) * B < oo -> Forall (good n B) ks ->
  exists g kept, run p (fold_left Add ks (Resize New n)) = Ret g /\ greedy [] ks kept /\
    answer p n (fun t => Forall (fun k => sat k t) kept) g.
Proof.
  intros p n B ks N B0 R G.
  destruct (adds_means n B ks ltac:(lia) B0 R G (Resize New n) (fun t => exists t', True /\ forall i, 0 <= i < n -> t i = t' i) []) as (kept & S' & H & Gr & Q).
  - eapply m_resize; [apply m_new|exact N].
  - intros t. split; auto. intros _. exists t. auto.
  - constructor.
  - destruct (C110_program p _ n S' H) as (g & Rn & _ & A & _). exists g, kept. split; [exact Rn|]. split; [exact Gr|].
    eapply answer_ext; [exact Q|exact A].
Qed.
(** All of them at once, when they have a common solution *)
Theorem C118_from_iter : forall p hint n B ks, 0 <= n <= 65535 -> 0 <= B -> (n - 1) * B < oo -> Forall (good n B) ks ->
  hint <> Some 0 -> hint <> Some 1 -> n = 0 \/ Exists (fun k => n = k_from k + 1 \/ n = k_to k + 1) ks ->
  (exists t, Forall (fun k => sat k t) ks) ->
  exists g, g_from_iter p hint ks = Ret g /\ answer p n (fun t => Forall (fun k => sat k t) ks) g.
Proof.
  intros p hint n B ks N B0 R G H0 H1 X Co. apply C109_from_iter; auto.
  - eapply Forall_impl; [|exact G]. intros k Gk. apply (good_legal n); [lia|]. apply (good_any n B k Gk).
  - split; [simpl; lia|]. split; [|exact X]. eapply Forall_impl; [|exact G]. intros k (_ & _ & Nf & Nt & _). lia.
  - apply (C118_spread n B); auto. lia.
Qed.

(** ** Examples *)

(** The limit is reached: eight instants, each after the one before by a seventh of infinity. *)
Definition seventh : Z := 1317624576693539401.
Definition steps (b : Z) : list kons := map (fun i => mkK i (i + 1) false b b) [0; 1; 2; 3; 4; 5; 6].
Lemma steps_good b : 0 <= b < oo -> Forall (good 8 b) (steps b).
Proof.
  intros Hb. unfold steps. cbn [map]. assert (O : oo = 9223372036854775807) by reflexivity.
  repeat (constructor; [unfold good, wf_iv, valid, within; cbn [k_empty k_from k_to k_lo k_up lower upper]; repeat split; lia|]). constructor.
Qed.
Lemma steps_sat b : 0 <= b < oo -> Forall (fun k => sat k (fun i => i * b)) (steps b).
Proof.
  intros Hb. unfold steps. cbn [map]. repeat (constructor; [unfold sat, In_ext; cbn [k_from k_to k_lo k_up lower upper]; lia|]). constructor.
Qed.
(** Just below, all is exact, whereas [room] of C40 does not hold. *)
Example C118_case : (8 - 1) * (seventh - 1) < oo /\ Forall (good 8 (seventh - 1)) (steps (seventh - 1)) /\
  (exists t, Forall (fun k => sat k t) (steps (seventh - 1))) /\ ~ room 8 (seventh - 1) /\
  Exists (fun k => 8 = k_from k + 1 \/ 8 = k_to k + 1) (steps (seventh - 1)).
Proof.
  assert (Hb : 0 <= seventh - 1 < oo) by (unfold seventh, oo; lia).
  split; [reflexivity|]. split; [apply steps_good; exact Hb|]. split; [eexists; apply steps_sat; exact Hb|].
  split; [intros (_ & _ & X); discriminate X|]. unfold steps. cbn [map]. do 6 apply Exists_cons_tl. apply Exists_cons_hd. right. reflexivity.
Qed.
(** At the limit, no graph is right. *)
Theorem C118_limit_refuted : exists n B ks, (n - 1) * B = oo /\ 0 <= B /\ Forall (good n B) ks /\ (exists t, Forall (fun k => sat k t) ks) /\
  ~ spread n (fun t => Forall (fun k => sat k t) ks) /\ forall p g, ~ answer p n (fun t => Forall (fun k => sat k t) ks) g.
Proof.
  exists 8, seventh, (steps seventh). assert (Hb : 0 <= seventh < oo) by (unfold seventh, oo; lia).
  assert (N : ~ spread 8 (fun t => Forall (fun k => sat k t) (steps seventh))).
  { intros Sp. destruct (Sp 0 7 ltac:(lia) ltac:(lia)) as (iv & ((P1 & P2) & (P3 & P4)) & V).
    assert (D : forall v, In_ext v iv -> v = oo).
    { intros v I. apply V in I. destruct I as (t & T & <-). unfold steps in T. cbn [map] in T. rewrite !Forall_cons_iff in T.
      destruct T as (T1 & T2 & T3 & T4 & T5 & T6 & T7 & _).
      apply sat_eq in T1, T2, T3, T4, T5, T6, T7; try discriminate.
      change (0 + 1) with 1 in *. change (1 + 1) with 2 in *. change (2 + 1) with 3 in *. change (3 + 1) with 4 in *.
      change (4 + 1) with 5 in *. change (5 + 1) with 6 in *. change (6 + 1) with 7 in *.
      change oo with (7 * seventh). clear - T1 T2 T3 T4 T5 T6 T7. lia. }
    assert (I : In_ext oo iv).
    { apply V. eexists. split; [apply steps_sat; exact Hb|]. reflexivity. }
    destruct I as ([I|I] & J).
    - assert (X : In_ext (oo - 1) iv) by (split; [left; exact I|destruct J as [J|J]; [left; exact J|right; lia]]). apply D in X. lia.
    - assert (X : In_ext (lower iv) iv) by (split; [right; lia|destruct J as [J|J]; [left; exact J|right; lia]]). apply D in X. lia. }
  split; [reflexivity|]. split; [lia|]. split; [apply steps_good; exact Hb|]. split; [eexists; apply steps_sat; exact Hb|].
  split; [exact N|]. intros p g A. apply N. eapply answer_spread. exact A.
Qed.
