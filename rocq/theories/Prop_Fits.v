(** [propagate] is exact exactly when there is an exact answer (property C108): no margin is
    needed, only that the possible differences between the instants form intervals of time
    values. *)
From Verif Require Import Machine TimeValue Spec Tac TimeValueProofs Interval Iter TimeSet Relns
  Transl SpecSets SetProofs CollectProofs Prop_Interval SetOpsProofs Prop_TimeSet Prop_Transl SchedSets
  Graph MaxPlus FwBound GraphProofs GraphOps GraphFits GraphGrow GraphSafe GraphMem GraphHist GraphTight
  SpecGraph GraphSound GraphMono GraphInv GraphIter Prop_Graph
  Prop_Propagation Prop_GraphQuery Prop_GraphRow Prop_Local Prop_Seen Prop_Queries.

(** ** Specification *)

(** The reported bounds are time values, infinite on the right side only. *)
Definition proper_bounds (iv : interval) : Prop := - oo <= lower iv < oo /\ - oo < upper iv <= oo.
Definition regular (p : profile) (g : graph) : Prop := forall i j, 0 <= i < g_size g -> 0 <= j < g_size g ->
  exists iv, g_timespan p g i j = Ret iv /\ proper_bounds iv.
(** The differences of the solutions of [g] that satisfy [k] are intervals of time values. *)
Definition representable (p : profile) (g : graph) (k : kons) : Prop :=
  forall i j, 0 <= i < g_size g -> 0 <= j < g_size g -> exists iv, proper_bounds iv /\
    forall v, In_ext v iv <-> exists t, solution p g t /\ sat k t /\ t j - t i = v.

(** ** Proofs *)

(** The least difference between two instants that only an edge of the constraint relates *)
Lemma attain n D i j w (P : Prop) w2 t0 a b : closed n D -> node n i -> node n j -> node n a -> node n b ->
  msat n D t0 -> w <= t0 j - t0 i -> (P -> w2 <= t0 i - t0 j) -> (P -> w + w2 <= 0) ->
  D a i <> - oo -> D j b <> - oo -> D a b = - oo ->
  exists t, msat n D t /\ w <= t j - t i /\ (P -> w2 <= t i - t j) /\ t b - t a = D a i + w + D j b.
Proof.
  intros Cl Ni Nj Na Nb S W W2 W3 Fi Fj E. pose proof (proj1 Cl) as Z0. pose proof (tri n D) as TR.
  assert (O : 0 < oo) by reflexivity.
  assert (Eaj : D a j = - oo).
  { destruct (Z.eq_dec (D a j) (- oo)) as [|e]; auto. destruct (TR a j b Cl Na Nj Nb e Fj). congruence. }
  assert (Cji : D j i <> - oo -> D j i + w <= 0).
  { intros F. specialize (S j i (D j i) Nj Ni ltac:(split; auto; lia)). lia. }
  set (s := D a i + w + D j b). set (M := Z.max (t0 a) (t0 b - s)).
  set (T := fun x => Z.max (t0 x - M) (Z.max (if D a x =? - oo then t0 x - M else D a x)
     (if D j x =? - oo then t0 x - M else D a i + w + D j x))).
  exists T. split; [|split; [|split]].
  - intros x y c Nx Ny (F & L). pose proof (S x y c Nx Ny ltac:(split; auto)) as Sx.
    pose proof (TR a x y Cl Na Nx Ny) as T1. pose proof (TR j x y Cl Nj Nx Ny) as T2. unfold T.
    clear - F L Sx T1 T2.
    destruct (Z.eqb_spec (D a x) (- oo)) as [e1|e1]; [clear T1|destruct (T1 e1 F) as (U1 & U2); clear T1];
    (destruct (Z.eqb_spec (D j x) (- oo)) as [e2|e2]; [clear T2|destruct (T2 e2 F) as (V1 & V2); clear T2]);
    destruct (Z.eqb_spec (D a y) (- oo)) as [e3|e3]; try congruence;
    destruct (Z.eqb_spec (D j y) (- oo)) as [e4|e4]; try congruence; lia.
  - unfold T. rewrite Eaj, Z.eqb_refl, (Z0 j) by auto. replace (0 =? - oo) with false by reflexivity.
    destruct (Z.eqb_spec (D a i) (- oo)) as [e1|e1]; [congruence|].
    destruct (Z.eqb_spec (D j i) (- oo)) as [e2|e2]; [|specialize (Cji e2)]; lia.
  - intros HP. specialize (W2 HP). specialize (W3 HP).
    unfold T. rewrite Eaj, Z.eqb_refl, (Z0 j) by auto. replace (0 =? - oo) with false by reflexivity.
    destruct (Z.eqb_spec (D a i) (- oo)) as [e1|e1]; [congruence|].
    destruct (Z.eqb_spec (D j i) (- oo)) as [e2|e2]; lia.
  - unfold T. rewrite E, Z.eqb_refl, (Z0 a) by auto. replace (0 =? - oo) with false by reflexivity.
    destruct (Z.eqb_spec (D j b) (- oo)) as [e1|e1]; [congruence|]. fold s.
    destruct (Z.eqb_spec (D j a) (- oo)) as [e2|e2].
    + subst M. lia.
    + destruct (TR j a i Cl Nj Na Ni e2 Fi) as (X & Y). specialize (Cji X). subst M. lia.
Qed.

Section Exact.
Variables (p : profile) (g : graph) (k : kons).
Hypotheses (St : stored g) (Mn : minimal p g) (Rg : regular p g) (Gd : good (g_size g) oo k).
Variable t0 : Z -> Z.
Hypotheses (S0 : solution p g t0).
Let n := g_size g.
Let D := cell g.
Let f := k_from k.
Let u := k_to k.
Let M : mem_ok g := proj1 (stored_mem g) St.

Lemma ex_closed : closed n D.
Proof. apply (any_closed p); eauto. Qed.
Lemma ex_low : low n D.
Proof.
  intros i j Ni Nj. destruct (Rg i j Ni Nj) as (iv & E & (L & _)). rewrite timespan_ok in E by auto.
  injection E as <-. exact L.
Qed.
Lemma ex_f : node n f.
Proof. destruct Gd as (_ & _ & X & _). exact X. Qed.
Lemma ex_u : node n u.
Proof. destruct Gd as (_ & _ & _ & X & _). exact X. Qed.

Hypotheses (K0 : sat k t0) (Rp : representable p g k).
Lemma ex_bound a b c : node n a -> node n b -> (forall t, solution p g t -> sat k t -> c <= t b - t a) ->
  c < oo /\ ((exists t, solution p g t /\ sat k t /\ t b - t a = c) -> - oo < c).
Proof.
  intros Na Nb H. destruct (Rp a b Na Nb) as (iv & ((P1 & P2) & P3 & P4) & R).
  assert (V0 : In_ext (t0 b - t0 a) iv) by (apply R; eauto).
  assert (Fl : lower iv <> - oo).
  { intros e. destruct V0 as (_ & V). assert (Q : In_ext (Z.min (t0 b - t0 a) (c - 1)) iv) by (split; lia).
    apply R in Q. destruct Q as (t & S & K & E). specialize (H t S K). lia. }
  assert (Ll : c <= lower iv).
  { assert (Q : In_ext (lower iv) iv) by (unfold In_ext in *; lia). apply R in Q.
    destruct Q as (t & S & K & E). rewrite <- E. auto. }
  split; [lia|]. intros Q. apply R in Q. unfold In_ext in Q. lia.
Qed.

Lemma ex_entry t i j : solution p g t -> node n i -> node n j -> D i j <> - oo -> D i j <= t j - t i.
Proof. intros S Ni Nj F. apply sol_msat in S; auto. apply (S i j (D i j) Ni Nj). split; [exact F|apply Z.le_refl]. Qed.
Lemma ex_lo t : sat k t -> k_lo k <> - oo -> k_lo k <= t u - t f.
Proof. intros (K & _) F. simpl in K. unfold u, f. lia. Qed.
Lemma ex_up t : sat k t -> k_up k <> oo -> - k_up k <= t f - t u.
Proof. intros (_ & K) F. simpl in K. unfold u, f. lia. Qed.
Lemma ex_wf : - oo <= k_lo k < oo /\ - oo < k_up k <= oo /\ k_lo k <= k_up k.
Proof. destruct Gd as (_ & (A1 & A2 & A3 & A4 & A5) & _). simpl in *. unfold valid in *. lia. Qed.

Lemma ex_first : D f u < k_lo k -> fits n D f u (k_lo k).
Proof.
  intros Lw a b Na Nb Fi Fj. pose proof ex_closed as Cl. pose proof (ex_low f u ex_f ex_u). pose proof ex_wf.
  assert (Q : forall t, solution p g t -> sat k t -> D a f + k_lo k + D u b <= t b - t a).
  { intros t S K. pose proof (ex_entry t a f S Na ex_f Fi). pose proof (ex_entry t u b S ex_u Nb Fj).
    pose proof (ex_lo t K). lia. }
  destruct (ex_bound a b _ Na Nb Q) as (X & Y). split; auto. intros E. apply Y.
  destruct (attain n D f u (k_lo k) (k_up k <> oo) (- k_up k) t0 a b) as (t & T1 & T2 & T3 & T4); auto.
  - apply ex_f. - apply ex_u. - apply (sol_msat p); auto. - apply ex_lo; auto. lia.
  - apply ex_up; auto. - lia.
  - exists t. split; [apply sol_msat; auto|]. split; auto. unfold sat, In_ext. simpl. fold f u. lia.
Qed.
(** Entries of the matrix with the lower bound of [k] are kept by the solutions. *)
Lemma ex_half t a b : solution p g t -> sat k t -> node n a -> node n b -> half D k a b <> - oo ->
  half D k a b <= t b - t a.
Proof.
  intros S K Na Nb. unfold half. fold f u. pose proof (ex_low f u ex_f ex_u).
  destruct (D f u <? k_lo k) eqn:T; [|apply ex_entry; auto]. unfold star.
  pose proof (ex_entry t a b S Na Nb). pose proof (ex_entry t a f S Na ex_f). pose proof (ex_entry t u b S ex_u Nb).
  pose proof (ex_lo t K). pose proof (ex_low a b Na Nb) as La.
  destruct (D a f =? - oo) eqn:T1; [auto|]. destruct (D u b =? - oo) eqn:T2; cbn [orb]; auto.
  intros F. destruct (Z.eq_dec (D a b) (- oo)) as [e|e]; lia.
Qed.
Lemma ex_second : D u f < - k_up k -> fits n (half D k) u f (- k_up k).
Proof.
  intros Lw a b Na Nb Fi Fj. pose proof ex_closed as Cl. pose proof (ex_low u f ex_u ex_f) as Luf. pose proof ex_wf as Wf.
  pose proof (proj1 Cl) as Z0. assert (O : 0 < oo) by reflexivity.
  assert (Q : forall t, solution p g t -> sat k t -> half D k a u + - k_up k + half D k f b <= t b - t a).
  { intros t S K. pose proof (ex_half t a u S K Na ex_u Fi). pose proof (ex_half t f b S K ex_f Nb Fj).
    pose proof (ex_up t K). lia. }
  destruct (ex_bound a b _ Na Nb Q) as (X & Y). split; auto. intros E. apply Y.
  (* only the second edge leads from [a] to [b] *)
  assert (R : D a b = - oo /\ D a u <> - oo /\ D f b <> - oo /\ half D k a u = D a u /\ half D k f b = D f b).
  { pose proof (tri n D a f b Cl Na ex_f Nb) as T1. pose proof (tri n D a u b Cl Na ex_u Nb) as T2.
    unfold half in Fi, Fj, E |- *. fold f u in Fi, Fj, E |- *. destruct (D f u <? k_lo k) eqn:T; [|tauto].
    pose proof (ex_first ltac:(lia) a b Na Nb) as F.
    assert (Zu : D u u = 0) by (apply Z0, ex_u). assert (Zf : D f f = 0) by (apply Z0, ex_f).
    unfold star in Fi, Fj, E |- *. rewrite Zu in Fi |- *. rewrite Zf in Fj |- *.
    change (0 =? - oo) with false in *. rewrite orb_false_r in Fi |- *. cbn [orb] in *. pose proof (ex_low a b Na Nb).
    destruct (Z.eqb_spec (D a f) (- oo)) as [e1|e1]; destruct (Z.eqb_spec (D u b) (- oo)) as [e2|e2]; cbn [orb] in *.
    - tauto.
    - destruct (T2 Fi e2). congruence.
    - destruct (T1 e1 Fj). congruence.
    - destruct (F e1 e2). lia. }
  destruct R as (E' & Fi' & Fj' & -> & ->).
  destruct (attain n D u f (- k_up k) (k_lo k <> - oo) (k_lo k) t0 a b) as (t & T1 & T2 & T3 & T4); auto.
  - apply ex_u. - apply ex_f. - apply (sol_msat p); auto. - apply ex_up; auto. lia.
  - apply ex_lo; auto. - lia.
  - exists t. split; [apply sol_msat; auto|]. split; auto. unfold sat, In_ext. simpl. fold f u. lia.
Qed.
End Exact.

Lemma not_contradicts p g k : stored g -> minimal p g -> (exists t, solution p g t) -> good (g_size g) oo k ->
  (~ contradicts (cell g) k <-> exists t, solution p g t /\ sat k t).
Proof.
  intros St Mn Co Gd. pose proof (proj1 (stored_mem g) St) as M. pose proof (any_closed p g St Mn Co) as Cl.
  pose proof Gd as (_ & (A1 & A2 & A3 & A4 & A5) & Nf & Nt & _). cbn [lower upper] in *.
  set (f := k_from k) in *. set (u := k_to k) in *. assert (O : 0 < oo) by reflexivity. split.
  - Ltac pick := repeat match goal with
      | |- context [?x =? ?y] => destruct (Z.eqb_spec x y)
      | N : ?P -> ?Q -> _, H1 : ?P, H2 : ?Q |- _ => specialize (N H1 H2)
      | N : ?x <> ?y -> _, H : ?x = ?y |- _ => clear N
      | N : _ -> ?x <> ?y -> _, H : ?x = ?y |- _ => clear N
      | |- _ /\ _ => split
      | H : ?x = ?y |- ?x = ?y \/ _ => left; exact H
      | H : ?x <> ?y |- ?x = ?y \/ _ => right end; lia.
    intros NC. set (a := cell g f u) in *. set (b := cell g u f) in *.
    assert (N1 : a <> - oo -> k_up k <> oo -> a <= k_up k).
    { intros F1 F2. destruct (Z_le_gt_dec a (k_up k)) as [|l]; auto. destruct NC. left. exists a. fold f u. fold a.
      split; [split; [exact F1|apply Z.le_refl]|]. lia. }
    assert (N2 : b <> - oo -> k_lo k <> - oo -> b <= - k_lo k).
    { intros F1 F2. destruct (Z_le_gt_dec b (- k_lo k)) as [|l]; auto. destruct NC. right. exists b. fold f u. fold b.
      split; [split; [exact F1|apply Z.le_refl]|]. lia. }
    assert (N3 : a <> - oo -> b <> - oo -> a <= - b).
    { intros F1 F2. destruct (tri _ _ f u f Cl Nf Nt Nf F1 F2) as (_ & Q). rewrite (proj1 Cl f Nf) in Q. fold a b in Q. lia. }
    destruct (any_min p g St Mn f u
      (if k_lo k =? - oo then if a =? - oo then Z.min (if b =? - oo then 0 else - b) (if k_up k =? oo then 0 else k_up k)
        else a else if a =? - oo then k_lo k else Z.max a (k_lo k)) Nf Nt) as (t & S & E).
    { unfold In_ext. cbn [lower upper]. fold a b. clear - N1 N2 N3 A2 O.
      pick. }
    exists t. split; auto. unfold sat, In_ext. cbn [lower upper]. fold f u. rewrite E. clear - N1 N2 N3 A2 O.
    pick.
  - intros (t & S & K) Cn. apply sol_msat in S; auto. eapply (contradicts_sound (g_size g) (cell g) k t); eauto.
Qed.

(** ** C108 *)

(** [propagate] refuses exactly the constraints that no solution satisfies, whatever the bounds;
    the graph is then unchanged. *)
Theorem C108_refused : forall p g k, stored g -> minimal p g -> regular p g -> (exists t, solution p g t) ->
  good (g_size g) oo k -> (forall t, ~ (solution p g t /\ sat k t)) -> g_propagate p g k = Ret (g, Recovered).
Proof.
  intros p g k St Mn Rg Co Gd H. pose proof (proj1 (stored_mem g) St) as M. pose proof Co as (t0 & S0).
  pose proof Gd as (Ek & W & Nf & Nt & _).
  assert (NC : ~ ~ contradicts (cell g) k).
  { intros N. apply (not_contradicts p g k) in N; auto. destruct N as (t & N). apply (H t N). }
  destruct (propagate_fits p g k) as (g' & r & E & _ & X & _); auto.
  - apply (ex_low p); auto.
  - apply (any_closed p); auto.
  - tauto.
  - rewrite E. destruct X as [(-> & -> & I)|[(-> & -> & _)|(_ & _ & N)]]; [|auto|tauto].
    exfalso. apply NC. intros Cn. apply sol_msat in S0; auto.
    eapply (contradicts_sound (g_size g) (cell g) k t0); eauto.
    eapply pr_msat in S0; [apply S0|]. apply implied_propagated; auto.
Qed.
(** It answers [Unchanged] exactly for the constraints that all solutions satisfy. *)
Theorem C108_unchanged : forall p g k, stored g -> minimal p g -> regular p g -> (exists t, solution p g t) ->
  good (g_size g) oo k -> (forall t, solution p g t -> sat k t) -> g_propagate p g k = Ret (g, Unchanged).
Proof.
  intros p g k St Mn Rg Co Gd H. pose proof (proj1 (stored_mem g) St) as M. pose proof Co as (t0 & S0).
  pose proof Gd as (Ek & W & Nf & Nt & _). pose proof (any_closed p g St Mn Co) as Cl.
  assert (I : implied_by (cell g) k).
  { eapply closed_implied; eauto. intros t S. apply H. apply sol_msat; auto. }
  assert (NC : ~ contradicts (cell g) k) by (apply (not_contradicts p g k); auto; exists t0; auto).
  destruct (propagate_fits p g k) as (g' & r & E & _ & X & _); auto.
  - apply (ex_low p); auto.
  - destruct W as (A1 & A2 & A3 & A4 & A5). cbn [lower upper] in *. intros _. destruct I as (I1 & I2).
    pose proof (ex_low p g St Rg _ _ Nf Nt). pose proof (ex_low p g St Rg _ _ Nt Nf). unfold ent in *.
    split; intros L; exfalso; lia.
  - rewrite E. destruct X as [(-> & -> & _)|[(_ & _ & N)|(_ & N & _)]]; [auto|tauto|tauto].
Qed.
(** For the other constraints, [propagate] gives a minimal graph with exactly the solutions that
    satisfy the constraint if and only if their differences are intervals of time values. *)
Theorem C108_exact : forall p g k, stored g -> minimal p g -> regular p g -> good (g_size g) oo k ->
  (exists t, solution p g t /\ sat k t) ->
  (representable p g k <->
   exists g' r, g_propagate p g k = Ret (g', r) /\ accepted r /\ stored g' /\ g_size g' = g_size g /\
     minimal p g' /\ regular p g' /\ forall t, solution p g' t <-> solution p g t /\ sat k t).
Proof.
  intros p g k St Mn Rg Gd (t0 & S0 & K0). pose proof (proj1 (stored_mem g) St) as M.
  pose proof Gd as (Ek & W & Nf & Nt & _). assert (Co : exists t, solution p g t) by eauto.
  pose proof (any_closed p g St Mn Co) as Cl. split.
  - intros Rp. destruct (propagate_fits p g k) as (g' & r & E & Sh & X & Y); auto.
    + apply (ex_low p); auto.
    + intros _. split; [apply (ex_first p g k St Mn Rg Gd t0); auto|apply (ex_second p g k St Mn Rg Gd t0); auto].
    + assert (A : accepted r).
      { destruct X as [(-> & _)|[(_ & _ & N)|(-> & _)]]; [left; auto| |right; auto]. exfalso.
        apply sol_msat in S0; auto. eapply (contradicts_sound (g_size g) (cell g) k t0); eauto. }
      assert (Sz : g_size g' = g_size g) by apply Sh. assert (M' : mem_ok g') by (eapply same_shape_mem; eauto).
      destruct Y as (Cl' & Lw & Ms & _); [destruct A; congruence|]. exists g', r. split; auto. split; auto.
      split; [apply M'|]. split; auto. split; [apply closed_min_any; auto; rewrite Sz; auto|]. split.
      * intros i j Ni Nj. eexists. split; [apply timespan_ok; auto|]. rewrite Sz in *.
        pose proof (Lw i j Ni Nj). pose proof (Lw j i Nj Ni). unfold proper_bounds. cbn [lower upper]. lia.
      * intros t. rewrite !sol_msat by auto. rewrite Sz. apply Ms.
  - intros (g' & r & E & A & St' & Sz & Mn' & Rg' & H) i j Ni Nj. rewrite <- Sz in Ni, Nj.
    destruct (Mn' i j Ni Nj) as (iv & T & Mi). destruct (Rg' i j Ni Nj) as (iv2 & T2 & P).
    rewrite T in T2. injection T2 as <-. exists iv. split; auto. intros v. split.
    + intros V. destruct (Mi v V) as (t & S & D). exists t. apply H in S. tauto.
    + intros (t & S & K & <-). destruct (proj2 (H t) (conj S K) i j Ni Nj) as (iv3 & T3 & V).
      rewrite T in T3. injection T3 as <-. auto.
Qed.

(** Several constraints, one after the other: [propagate] accepts them all and gives a minimal
    graph with exactly the right solutions, provided that after each of them the differences are
    intervals of time values. *)
Definition representable_all (p : profile) (g : graph) (ks : list kons) : Prop :=
  forall i j, 0 <= i < g_size g -> 0 <= j < g_size g -> exists iv, proper_bounds iv /\
    forall v, In_ext v iv <-> exists t, solution p g t /\ Forall (fun k => sat k t) ks /\ t j - t i = v.
Theorem C108_sequence : forall p ks g, stored g -> minimal p g -> regular p g -> Forall (good (g_size g) oo) ks ->
  (exists t, solution p g t /\ Forall (fun k => sat k t) ks) ->
  (forall l l', ks = l ++ l' -> representable_all p g l) ->
  exists g', one_by_one p g ks g' /\ stored g' /\ g_size g' = g_size g /\ minimal p g' /\ regular p g' /\
    forall t, solution p g' t <-> solution p g t /\ Forall (fun k => sat k t) ks.
Proof.
  intros p ks. induction ks as [|k ks IH]; intros g St Mn Rg Gd (t0 & S0 & K0) Rp.
  - exists g. split; [constructor|]. repeat split; auto; try apply St; try tauto.
  - inversion Gd as [|? ? G1 G2 Q1]; subst. inversion K0 as [|? ? K1 K2 Q2]; subst.
    destruct (proj1 (C108_exact p g k St Mn Rg G1 ltac:(eauto))) as (g1 & r & E & A & St1 & Sz & Mn1 & Rg1 & H).
    { intros i j Ni Nj. destruct (Rp [k] ks eq_refl i j Ni Nj) as (iv & P & R). exists iv. split; auto.
      intros v. rewrite R. split; intros (t & S & F & D); exists t; split; auto; split; auto.
      inversion F; auto. }
    destruct (IH g1) as (g2 & O & St2 & Sz2 & Mn2 & Rg2 & H2); auto.
    + rewrite Sz. auto.
    + exists t0. split; auto. apply H. auto.
    + intros l l' e i j Ni Nj. rewrite Sz in Ni, Nj.
      destruct (Rp (k :: l) l' ltac:(rewrite e; auto) i j Ni Nj) as (iv & P & R). exists iv. split; auto.
      intros v. rewrite R. split; intros (t & S & F & D); exists t.
      * inversion F; subst. split; [apply H; auto|]. auto.
      * apply H in S. destruct S as (S & K). auto.
    + exists g2. split; [econstructor; eauto|]. split; auto. split; [congruence|]. split; auto. split; auto.
      intros t. rewrite H2, H, Forall_cons_iff. tauto.
Qed.

(** ** Examples *)

(** Bounds whose sum of three is no time value, but the exact differences are *)
Definition far : Z := 2 ^ 62.
Definition g_far : graph := mkG 3 [0; - far; 0; far; - oo; - oo; 0; - oo; - oo].
Definition g_far' : graph := mkG 3 [0; - far; 0; far; 0; far; 0; - far; 0].
Definition k_far : kons := mkK 1 2 false (- far) (- far).
Ltac far_cells := repeat match goal with
  | H : context [cell g_far ?i ?j] |- _ => let v := eval vm_compute in (cell g_far i j) in change (cell g_far i j) with v in *
  | |- context [cell g_far ?i ?j] => let v := eval vm_compute in (cell g_far i j) in change (cell g_far i j) with v in * end.
Lemma far_closed : closed 3 (cell g_far).
Proof.
  assert (I3 : forall i, node 3 i -> i = 0 \/ i = 1 \/ i = 2) by (unfold node; lia). split.
  - intros i Ni. destruct (I3 i Ni) as [->|[-> | ->]]; reflexivity.
  - intros i k j a b Ni Nk Nj (A1 & A2) (B1 & B2). unfold ent.
    destruct (I3 i Ni) as [->|[-> | ->]]; destruct (I3 k Nk) as [->|[-> | ->]]; try (destruct A1; reflexivity);
    destruct (I3 j Nj) as [->|[-> | ->]]; try (destruct B1; reflexivity); clear A1 B1; far_cells; (split; [discriminate|lia]).
Qed.
Example C108_case : forall p, stored g_far /\ minimal p g_far /\ regular p g_far /\ good 3 oo k_far /\
  oo < 3 * far /\ representable p g_far k_far /\ g_propagate p g_far k_far = Ret (g_far', Propagated) /\
  minimal p g_far' /\ g_timespan p g_far' 0 2 = Ret (mkI 0 0).
Proof.
  intros p. assert (St : stored g_far) by (unfold stored; simpl; lia). pose proof (proj1 (stored_mem _) St) as M.
  assert (I3 : forall i, node 3 i -> i = 0 \/ i = 1 \/ i = 2) by (unfold node; lia).
  assert (Mn : minimal p g_far) by (apply closed_min_any; auto; apply far_closed).
  assert (Rg : regular p g_far).
  { intros i j Ni Nj. eexists. split; [apply timespan_ok; auto|]. simpl in Ni, Nj. unfold proper_bounds. cbn [lower upper].
    destruct (I3 i Ni) as [->|[-> | ->]]; destruct (I3 j Nj) as [->|[-> | ->]]; far_cells; unfold oo; lia. }
  assert (Gd : good 3 oo k_far).
  { cbv [good wf_iv valid within k_far far k_empty k_from k_to k_lo k_up lower upper oo]. lia. }
  assert (St' : stored g_far') by (unfold stored; simpl; lia). pose proof (proj1 (stored_mem _) St') as M'.
  assert (So : forall t, solution p g_far t <-> t 1 - t 0 = far).
  { intros t. rewrite sol_msat by auto. split.
    - intros S. pose proof (S 0 1 far ltac:(unfold node; simpl; lia) ltac:(unfold node; simpl; lia) ltac:(split; [discriminate|far_cells; discriminate])).
      pose proof (S 1 0 (- far) ltac:(unfold node; simpl; lia) ltac:(unfold node; simpl; lia) ltac:(split; [discriminate|far_cells; discriminate])). lia.
    - intros E i j w Ni Nj (A & B). simpl in Ni, Nj. change far with 4611686018427387904 in E.
      destruct (I3 i Ni) as [->|[-> | ->]]; destruct (I3 j Nj) as [->|[-> | ->]]; try (destruct A; reflexivity); far_cells; lia. }
  assert (Ms : forall t, sat k_far t <-> t 2 - t 1 = - far).
  { intros t. unfold sat, In_ext. cbn [k_to k_from k_lo k_up k_far lower upper]. assert (F : - far <> - oo /\ - far <> oo) by (split; discriminate). lia. }
  assert (S2 : exists t, solution p g_far t /\ sat k_far t).
  { exists (fun i => if i =? 1 then far else 0). split; [apply So|apply Ms]; reflexivity. }
  assert (Rp : representable p g_far k_far).
  { intros i j Ni Nj. simpl in Ni, Nj.
    set (T := fun i => if i =? 1 then far else 0).
    exists (mkI (T j - T i) (T j - T i)). split.
    { subst T. unfold proper_bounds. cbn [lower upper]. destruct (I3 i Ni) as [->|[-> | ->]]; destruct (I3 j Nj) as [->|[-> | ->]]; vm_compute; repeat split; discriminate. }
    assert (V : forall t, solution p g_far t -> sat k_far t -> t j - t i = T j - T i).
    { intros t S K. apply So in S. apply Ms in K. subst T.
      destruct (I3 i Ni) as [->|[-> | ->]]; destruct (I3 j Nj) as [->|[-> | ->]]; cbv [Z.eqb Pos.eqb]; lia. }
    assert (S1 : solution p g_far T) by (apply So; reflexivity). assert (K1 : sat k_far T) by (apply Ms; reflexivity).
    assert (Fi : T j - T i <> - oo /\ T j - T i <> oo).
    { subst T. destruct (I3 i Ni) as [->|[-> | ->]]; destruct (I3 j Nj) as [->|[-> | ->]]; vm_compute; split; discriminate. }
    intros v. unfold In_ext. cbn [lower upper]. split.
    + intros X. exists T. split; auto. split; auto. lia.
    + intros (t & S & K & <-). rewrite (V t S K). lia. }
  split; auto. split; auto. split; auto. split; auto. split; [reflexivity|]. split; auto.
  assert (E : g_propagate p g_far k_far = Ret (g_far', Propagated)) by (destruct p; vm_compute; reflexivity).
  split; auto. split; [|vm_compute; reflexivity].
  destruct (proj1 (C108_exact p g_far k_far St Mn Rg Gd S2) Rp) as (g' & r & E' & _ & _ & _ & Mn' & _).
  rewrite E in E'. injection E' as <- <-. auto.
Qed.

(** The differences of [C105_third_refuted] are no intervals of time values. *)
Example C108_not_case : forall p, stored gt4 /\ minimal p gt4 /\ regular p gt4 /\ good 4 oo kt /\
  (exists t, solution p gt4 t /\ sat kt t) /\ ~ representable p gt4 kt.
Proof.
  intros p. assert (St : stored gt4) by (unfold stored; simpl; lia). pose proof (proj1 (stored_mem _) St) as M.
  assert (I4 : forall i, node 4 i -> i = 0 \/ i = 1 \/ i = 2 \/ i = 3) by (unfold node; lia).
  assert (Mn : minimal p gt4) by (apply closed_min_any; auto; apply gt4_closed).
  assert (Rg : regular p gt4).
  { intros i j Ni Nj. eexists. split; [apply timespan_ok; auto|]. simpl in Ni, Nj. unfold proper_bounds. cbn [lower upper].
    destruct (I4 i Ni) as [->|[->|[-> | ->]]]; destruct (I4 j Nj) as [->|[->|[-> | ->]]]; cells; unfold oo; lia. }
  assert (Gd : good 4 oo kt).
  { change kt with (mkK 1 2 false 3074457345618258603 oo).
    cbv [good wf_iv valid within k_empty k_from k_to k_lo k_up lower upper oo]. lia. }
  assert (S : exists t, solution p gt4 t /\ sat kt t).
  { exists (fun i => i * third). split; [|unfold sat, In_ext; cbn; lia].
    apply sol_msat; auto. intros i j w Ni Nj.
    destruct (I4 i Ni) as [->|[->|[-> | ->]]]; destruct (I4 j Nj) as [->|[->|[-> | ->]]];
      try (intros (Q & _); exfalso; apply Q; reflexivity); intros (_ & A); cells; change third with 3074457345618258603; lia. }
  split; auto. split; auto. split; auto. split; auto. split; auto. intros Rp.
  destruct (proj1 (C108_exact p gt4 kt St Mn Rg Gd S) Rp) as (g' & r & E & _ & _ & _ & _ & Rg' & _).
  assert (E' : g_propagate p gt4 kt = Ret (gt4', Propagated)) by (destruct p; vm_compute; reflexivity).
  rewrite E in E'. injection E' as -> ->. destruct (Rg' 0 3) as (iv & T & (_ & P) & _); try (simpl; lia).
  assert (T' : g_timespan p gt4' 0 3 = Ret (mkI oo oo)) by (destruct p; vm_compute; reflexivity).
  rewrite T' in T. injection T as <-. simpl in P. lia.
Qed.
(** Refused and implied constraints, with bounds next to the ends of the time values *)
Example C108_edges_case : forall p,
  g_propagate p g_far (mkK 0 1 false (far + 1) oo) = Ret (g_far, Recovered) /\
  g_propagate p g_far (mkK 0 1 false (- (oo - 1)) (oo - 1)) = Ret (g_far, Unchanged) /\
  good 3 oo (mkK 0 1 false (far + 1) oo) /\ good 3 oo (mkK 0 1 false (- (oo - 1)) (oo - 1)) /\
  (forall t, ~ (solution p g_far t /\ sat (mkK 0 1 false (far + 1) oo) t)) /\
  (forall t, solution p g_far t -> sat (mkK 0 1 false (- (oo - 1)) (oo - 1)) t).
Proof.
  intros p. assert (St : stored g_far) by (unfold stored; simpl; lia). pose proof (proj1 (stored_mem _) St) as M.
  assert (So : forall t, solution p g_far t -> t 1 - t 0 = far).
  { intros t S. apply sol_msat in S; auto.
    pose proof (S 0 1 far ltac:(unfold node; simpl; lia) ltac:(unfold node; simpl; lia) ltac:(split; [discriminate|far_cells; discriminate])).
    pose proof (S 1 0 (- far) ltac:(unfold node; simpl; lia) ltac:(unfold node; simpl; lia) ltac:(split; [discriminate|far_cells; discriminate])). lia. }
  split; [destruct p; vm_compute; reflexivity|]. split; [destruct p; vm_compute; reflexivity|].
  change far with 4611686018427387904 in *.
  split; [cbv [good wf_iv valid within k_empty k_from k_to k_lo k_up lower upper oo]; lia|].
  split; [cbv [good wf_iv valid within k_empty k_from k_to k_lo k_up lower upper oo]; lia|]. split.
  - intros t (S & K). apply So in S. unfold sat, In_ext in K. cbn [k_to k_from k_lo k_up lower upper] in K. unfold oo in K. lia.
  - intros t S. apply So in S. unfold sat, In_ext. cbn [k_to k_from k_lo k_up lower upper]. unfold oo. lia.
Qed.
Example C108_sequence_case : forall p, Forall (good 3 oo) [k_far] /\
  (exists t, solution p g_far t /\ Forall (fun k => sat k t) [k_far]) /\
  (forall l l', [k_far] = l ++ l' -> representable_all p g_far l) /\ one_by_one p g_far [k_far] g_far'.
Proof.
  intros p. destruct (C108_case p) as (St & Mn & Rg & Gd & _ & Rp & E & Mn' & _).
  pose proof (proj1 (stored_mem _) St) as M. split; [auto|]. split.
  { exists (fun i => if i =? 1 then far else 0). split.
    - apply sol_msat; auto. intros i j w Ni Nj (A & B). simpl in Ni, Nj.
      assert (I3 : forall i, node 3 i -> i = 0 \/ i = 1 \/ i = 2) by (unfold node; lia).
      change far with 4611686018427387904.
      destruct (I3 i Ni) as [->|[-> | ->]]; destruct (I3 j Nj) as [->|[-> | ->]]; try (destruct A; reflexivity);
        far_cells; cbv [Z.eqb Pos.eqb]; lia.
    - constructor; [|constructor]. split; right; vm_compute; discriminate. }
  split.
  - intros l l' e i j Ni Nj. destruct l as [|k0 l].
    + destruct (Mn i j Ni Nj) as (iv & T & H). destruct (Rg i j Ni Nj) as (iv2 & T2 & P).
      rewrite T in T2. injection T2 as <-. exists iv. split; auto. intros v. split.
      * intros V. destruct (H v V) as (t & S & D). exists t. auto.
      * intros (t & S & _ & <-). destruct (S i j Ni Nj) as (iv3 & T3 & V). rewrite T in T3. injection T3 as <-. auto.
    + injection e as <- e. assert (l = []) by (destruct l; [auto|discriminate]). subst l.
      destruct (Rp i j Ni Nj) as (iv & P & R). exists iv. split; auto. intros v. rewrite R.
      split; intros (t & S & K & D); exists t; split; auto; split; auto. inversion K; auto.
  - econstructor; [exact E|right; auto|constructor].
Qed.

Print Assumptions C108_refused.
Print Assumptions C108_unchanged.
Print Assumptions C108_exact.
Print Assumptions C108_sequence.
