(** C39-C46, C49-C51: propagation over the histories of calls. *)
From Coq Require Import Permutation.
From Verif Require Import Machine TimeValue Interval Spec SpecSets Tac TimeValueProofs Graph
  MaxPlus FwBound GraphProofs GraphOps GraphGrow GraphSafe GraphMem GraphHist GraphTight SpecGraph
  GraphInv GraphSound GraphCalls Prop_Graph.

(** ** Helpers *)

Lemma inv_bnd : forall N B ks g, room N B -> inv N B ks g ->
  all_bnd (g_size g) ((g_size g - 1) * B) (cell g).
Proof.
  intros N B ks g R I. apply (tight_all_bnd _ (kedges ks)); [apply I|apply R|].
  eapply inv_ebnd; eauto. apply R.
Qed.
Lemma inv_finite : forall N B ks g, room N B -> inv N B ks g ->
  vcells (g_size g) (cell g) /\ below_oo (g_size g) (cell g).
Proof.
  intros N B ks g R I. pose proof (inv_bnd _ _ _ _ R I) as H.
  destruct (room_lin N B (g_size g) R) as (HB & L).
  { split; [apply (i_mem _ _ _ _ I)|apply (i_size _ _ _ _ I)]. }
  split; intros i j Ni Nj; specialize (H i j Ni Nj); unfold valid, bnd, node, oo in *; nia.
Qed.
Lemma inv_sat : forall p N B ks g t, inv N B ks g ->
  (solution p g t <-> Forall (fun k => sat k t) ks).
Proof.
  intros p N B ks g t I. rewrite sol_msat by apply I.
  rewrite (tight_msat _ (kedges ks)) by apply I. apply kedges_sat.
Qed.
Lemma inv_consistent : forall p N B ks g, inv N B ks g -> exists t, solution p g t.
Proof.
  intros p N B ks g I. destruct (closed_consistent (g_size g) (cell g)) as (t & S).
  - apply (i_tight _ _ _ _ I).
  - exists t. apply sol_msat; [apply I|auto].
Qed.
Lemma inv_same : forall p N B ks g N' B' ks' g', room N B -> room N' B' ->
  inv N B ks g -> inv N' B' ks' g' -> g_size g = g_size g' ->
  (forall t, Forall (fun k => sat k t) ks <-> Forall (fun k => sat k t) ks') ->
  same_bounds p g g'.
Proof.
  intros p N B ks g N' B' ks' g' R R' I I' S H.
  apply same_bounds_cells; [apply I|apply I'|auto|].
  destruct (inv_finite _ _ _ _ R I) as (V & _). destruct (inv_finite _ _ _ _ R' I') as (V' & _).
  intros i j Ni Nj. apply ent_eq.
  - intros w. apply closed_unique with (n := g_size g); auto.
    + apply (i_tight _ _ _ _ I).
    + rewrite S. apply (i_tight _ _ _ _ I').
    + intros t. rewrite <- (sol_msat Debug) by apply I. rewrite S, <- (sol_msat Debug) by apply I'.
      rewrite (inv_sat Debug N B ks) by auto. rewrite (inv_sat Debug N' B' ks') by auto. auto.
  - specialize (V i j Ni Nj). unfold valid in V. lia.
  - rewrite S in Ni, Nj. specialize (V' i j Ni Nj). unfold valid in V'. lia.
Qed.

(** A concrete history with all the kinds of growth: two instants attached by [propagate],
    one more by [extend]. *)
Definition h3a : graph := mkG 2 [0; - 10; 0; 5].
Definition h3 : graph := mkG 3 [0; - 10; 0; 5; - 18; - 8; 0; 7; 12].
Definition k01 : kons := mkK 0 1 false 5 10.
Definition k12 : kons := mkK 1 2 false 7 8.
Lemma h3a_history : forall N B, 3 <= N -> 10 <= B -> history Debug N B [k01] h3a.
Proof.
  intros N B HN HB. eapply h_attach with (g := g_default) (r := Propagated).
  - eapply h_new with (n := 0); [lia|reflexivity].
  - unfold good, wf_iv, within, k01; simpl. unfold oo. lia.
  - unfold inside; simpl. lia.
  - simpl. lia.
  - constructor.
  - constructor.
  - vm_compute. reflexivity.
  - right. reflexivity.
Qed.
Lemma h3_history : forall N B, 3 <= N -> 10 <= B -> history Debug N B [k12; k01] h3.
Proof.
  intros N B HN HB. apply h_extend with (ks := [k01]) (ks' := [k12]) (hint := None) (g := h3a) (r := Propagated).
  - apply h3a_history; auto.
  - constructor; [|constructor]. unfold good, wf_iv, within, k12; simpl. unfold oo. lia.
  - exact I.
  - discriminate.
  - vm_compute. reflexivity.
  - right. reflexivity.
Qed.
Lemma room3 : room 3 10.
Proof. unfold room, oo. lia. Qed.

(** ** C39 on the bounded histories *)

Theorem C39_history : forall p N B ks g k g' r, room N B -> history p N B ks g ->
  good N B k -> inside g k -> g_propagate p g k = Ret (g', r) -> accepted r ->
  forall t, solution p g' t <-> solution p g t /\ sat k t.
Proof.
  intros p N B ks g k g' r R H G In E A t. pose proof (history_inv _ _ _ _ _ R H) as I.
  destruct (propagate_inv p N B ks g k R I G In) as (g2 & r2 & E2 & S & _ & X).
  rewrite E in E2. injection E2 as <- <-. destruct X as (I' & X); [destruct A; congruence|].
  rewrite !sol_msat, sat_ksat by (apply I || apply I'). rewrite S. apply X.
Qed.
Example C39_history_case : exists g', history Debug 3 10 [k12; k01] h3 /\
  good 3 10 (mkK 0 1 false 6 10) /\ inside h3 (mkK 0 1 false 6 10) /\
  g_propagate Debug h3 (mkK 0 1 false 6 10) = Ret (g', Propagated).
Proof.
  eexists. split; [apply h3_history; lia|].
  split; [unfold good, wf_iv, within; simpl; unfold oo; lia|]. split; [unfold inside; simpl; lia|].
  vm_compute. reflexivity.
Qed.

(** ** C40 minimality *)

(** After any history of accepted constraints, the interval reported for each pair of
    instants is exactly the set of the differences that all the constraints together allow.

    Full statement: for constraints of any magnitude, and with [propagate] used to add an
    instant to a constrained one (refuted below). *)
Theorem C40_minimal_partial : forall p N B ks g, room N B -> history p N B ks g ->
  forall i j, 0 <= i < g_size g -> 0 <= j < g_size g ->
  exists iv, g_timespan p g i j = Ret iv /\ lower iv <= upper iv /\
    forall v, In_ext v iv <-> exists t, Forall (fun k => sat k t) ks /\ t j - t i = v.
Proof.
  intros p N B ks g R H i j Hi Hj. pose proof (history_inv _ _ _ _ _ R H) as I.
  destruct (inv_finite _ _ _ _ R I) as (V & _).
  destruct (closed_min p g) with (i := i) (j := j) as (iv & E & Q); auto;
    [apply I|apply (i_tight _ _ _ _ I)|].
  exists iv. split; auto.
  assert (X : forall v, In_ext v iv <-> exists t, Forall (fun k => sat k t) ks /\ t j - t i = v).
  { intros v. split.
    - intros Hv. destruct (Q v Hv) as (t & S & D). exists t. split; auto. eapply inv_sat; eauto.
    - intros (t & S & <-). apply (inv_sat p N B ks g t I) in S.
      destruct (S i j Hi Hj) as (iv' & E' & W). congruence. }
  split; auto. destruct (inv_consistent p N B ks g I) as (t & S).
  destruct (S i j Hi Hj) as (iv' & E' & W). rewrite E in E'. injection E' as <-.
  rewrite timespan_ok in E by (auto; apply I). injection E as <-.
  pose proof (V i j Hi Hj). pose proof (V j i Hj Hi). unfold In_ext, valid in *. simpl in *. lia.
Qed.
(** ... and the solutions of the graph are those of the constraints *)
(** Partial: same limits as C40_minimal_partial. *)
Theorem C40_solutions_partial : forall p N B ks g t, room N B -> history p N B ks g ->
  (solution p g t <-> Forall (fun k => sat k t) ks) /\ minimal p g /\ exists t, solution p g t.
Proof.
  intros p N B ks g t R H. pose proof (history_inv _ _ _ _ _ R H) as I.
  split; [eapply inv_sat; eauto|]. split; [|eapply inv_consistent; eauto].
  apply closed_min; [apply I|eapply inv_finite; eauto|apply (i_tight _ _ _ _ I)].
Qed.
Example C40_case : history Debug 3 10 [k12; k01] h3 /\ room 3 10 /\
  g_timespan Debug h3 0 2 = Ret (mkI 12 18).
Proof. split; [apply h3_history; lia|]. split; [exact room3|]. vm_compute. reflexivity. Qed.

(** [propagate] of a constraint between an old instant and a new one is not propagated:
    5 <= t1-t0 <= 10 and 7 <= t2-t1 <= 8 is not known to give 12 <= t2-t0 <= 18. *)
Definition gq : graph := mkG 3 [0; - 10; 0; 5; - oo; - 8; 0; 7; - oo].
Lemma gq_calls : calls Debug false gq.
Proof.
  eapply c_propagate with (g := h3a) (k := k12) (r := Propagated); [|unfold legal, valid, oo; simpl; lia|vm_compute; reflexivity].
  eapply c_propagate with (g := g_default) (k := k01) (r := Propagated);
    [apply c_new|unfold legal, valid, oo; simpl; lia|vm_compute; reflexivity].
Qed.
Lemma gq_sol : forall t, solution Debug gq t <-> sat k01 t /\ sat k12 t.
Proof.
  intros t. assert (M : mem_ok gq) by (split; simpl; lia). split.
  - intros S. split.
    + destruct (S 0 1) as (iv & E & W); simpl; try lia. vm_compute in E. injection E as <-. exact W.
    + destruct (S 1 2) as (iv & E & W); simpl; try lia. vm_compute in E. injection E as <-. exact W.
  - intros ((A1 & A2) & (B1 & B2)). simpl in *. rewrite sol_msat, <- tsat_msat by auto.
    intros i j (Ni & Li) (Nj & Lj). simpl in Li, Lj.
    assert (i = 0 \/ i = 1 \/ i = 2) as [->|[->| ->]] by lia;
    (assert (j = 0 \/ j = 1 \/ j = 2) as [->|[->| ->]] by lia);
    match goal with |- ?c = _ \/ _ => let v := eval vm_compute in c in change c with v end;
    unfold oo in *; lia.
Qed.
(** The call was one of a sequence of accepted ones from an empty graph. *)
Theorem C40_growth_refuted : exists p g, one_by_one p g_default [k01; k12] g /\ ~ minimal p g /\
  exists v iv, g_timespan p g 0 2 = Ret iv /\ In_ext v iv /\
  forall t, sat k01 t -> sat k12 t -> t 2 - t 0 <> v.
Proof.
  exists Debug, gq.
  assert (Q : exists v iv, g_timespan Debug gq 0 2 = Ret iv /\ In_ext v iv /\ forall t, sat k01 t -> sat k12 t -> t 2 - t 0 <> v).
  { exists 11, (mkI (- oo) oo). split; [vm_compute; reflexivity|]. split; [unfold In_ext; auto|].
    intros t (A1 & A2) (B1 & B2). simpl in *. unfold oo in *. lia. }
  split.
  { eapply obo_cons with (g1 := h3a) (r := Propagated); [vm_compute; reflexivity|right; auto|].
    eapply obo_cons with (g1 := gq) (r := Propagated); [vm_compute; reflexivity|right; auto|].
    constructor. }
  split; auto. intros Mi. destruct Q as (v & iv & E & W & F).
  destruct (Mi 0 2) as (iv' & E' & X); [simpl; lia|simpl; lia|].
  rewrite E in E'. injection E' as <-. destruct (X v W) as (t & S & D).
  apply gq_sol in S. apply (F t); tauto.
Qed.

(** ** C41 inconsistency *)

(** [propagate] refuses a constraint iff no solution of the graph satisfies it; then the
    graph is unchanged.  (For any graph, see also C41_recovered.)

    Full statement: for constraints of any magnitude, and graphs grown by [propagate]
    (refuted below). *)
Theorem C41_exact_partial : forall p N B ks g k, room N B -> history p N B ks g ->
  good N B k -> inside g k ->
  exists g' r, g_propagate p g k = Ret (g', r) /\ r <> Fatal /\
    (r = Recovered <-> forall t, ~ (solution p g t /\ sat k t)) /\ (r = Recovered -> g' = g).
Proof.
  intros p N B ks g k R H G In. pose proof (history_inv _ _ _ _ _ R H) as I.
  destruct (propagate_inv p N B ks g k R I G In) as (g' & r & E & S & C & X).
  exists g', r. split; auto.
  split; [destruct C as [(-> & _)|[(-> & _)|(-> & _)]]; discriminate|].
  pose proof (good_valid N B k (proj2 (proj1 (proj2 R))) G) as (K1 & K2 & _).
  destruct In as (I1 & I2).
  split; [split|].
  - intros -> t (St & Sk). destruct C as [(Q & _)|[(_ & _ & Q)|(Q & _)]]; try discriminate.
    rewrite sol_msat in St by apply I.
    eapply (contradicts_sound (g_size g) (cell g) k t); eauto; unfold node; lia.
  - intros F. assert (D : {r = Recovered} + {r <> Recovered}) by decide equality.
    destruct D as [D|D]; auto.
    destruct (X D) as (I' & Q). destruct (inv_consistent p N B (k :: ks) g' I') as (t & St).
    destruct (F t). rewrite sol_msat in * by (apply I || apply I'). rewrite S in St.
    apply Q in St. auto.
  - intros ->. destruct C as [(Q & _)|[(_ & Q & _)|(Q & _)]]; try discriminate. auto.
Qed.
(** An empty constraint is always refused. *)
Theorem C41_empty : forall p g i j c, cx_is_empty c = true ->
  g_propagate p g (k_cx i j c) = Ret (g, Recovered).
Proof. intros p g i j c E. unfold g_propagate, k_cx. cbn [k_empty]. rewrite E. reflexivity. Qed.
Example C41_case : history Debug 3 10 [k12; k01] h3 /\ room 3 10 /\
  good 3 10 (mkK 0 2 false 0 9) /\ inside h3 (mkK 0 2 false 0 9) /\
  g_propagate Debug h3 (mkK 0 2 false 0 9) = Ret (h3, Recovered).
Proof.
  split; [apply h3_history; lia|]. split; [exact room3|].
  split; [unfold good, wf_iv, within; simpl; unfold oo; lia|]. split; [unfold inside; simpl; lia|].
  vm_compute. reflexivity.
Qed.
(** The graph [gq] built by [propagate] only accepts 0 <= t2-t0 <= 1, and from there on has
    no solution. *)
Theorem C41_growth_refuted : exists p g k g', one_by_one p g_default [k01; k12] g /\
  legal k /\ inside g k /\ g_propagate p g k = Ret (g', Propagated) /\
  (forall t, ~ (solution p g t /\ sat k t)) /\ forall t, ~ solution p g' t.
Proof.
  exists Debug, gq, (mkK 0 2 false 0 1), (mkG 3 [0; 6; 11; 5; - 1; 4; 0; 7; 0]).
  split.
  { eapply obo_cons with (g1 := h3a) (r := Propagated); [vm_compute; reflexivity|right; auto|].
    eapply obo_cons with (g1 := gq) (r := Propagated); [vm_compute; reflexivity|right; auto|].
    constructor. }
  split; [unfold legal, valid, oo; simpl; lia|]. split; [unfold inside; simpl; lia|].
  split; [vm_compute; reflexivity|]. split.
  - intros t (S & (C1 & C2)). apply gq_sol in S. destruct S as ((A1 & A2) & (B1 & B2)).
    unfold oo in *. simpl in *. lia.
  - intros t S. destruct (S 1 1) as (iv & E & W); simpl; try lia. vm_compute in E. injection E as <-.
    destruct W as (W1 & W2). unfold oo in *. simpl in *. lia.
Qed.

(** ** C42 Unchanged and Propagated *)

(** Full statement: for constraints of any magnitude, and graphs grown by [propagate]
    (refuted below). *)
Theorem C42_exact_partial : forall p N B ks g k g' r, room N B -> history p N B ks g ->
  good N B k -> inside g k -> g_propagate p g k = Ret (g', r) ->
  (r = Unchanged <-> forall t, solution p g t -> sat k t) /\ (r = Unchanged -> g' = g) /\
  (r = Propagated <-> (exists t, solution p g t /\ sat k t) /\ exists t, solution p g t /\ ~ sat k t).
Proof.
  intros p N B ks g k g' r R H G In E. pose proof (history_inv _ _ _ _ _ R H) as I.
  destruct (propagate_inv p N B ks g k R I G In) as (g2 & r2 & E2 & S & C & X).
  rewrite E in E2. injection E2 as <- <-.
  destruct (C41_exact_partial p N B ks g k R H G In) as (g3 & r3 & E3 & _ & Rec & _).
  rewrite E in E3. injection E3 as <- <-.
  pose proof (good_valid N B k (proj2 (proj1 (proj2 R))) G) as Kv. pose proof Kv as (K1 & K2 & _).
  pose proof In as (I1 & I2).
  assert (Nf : node (g_size g) (k_from k)) by (unfold node; lia).
  assert (Nu : node (g_size g) (k_to k)) by (unfold node; lia).
  assert (Imp : implied_by (cell g) k <-> forall t, solution p g t -> sat k t).
  { split.
    - intros Im t St. rewrite sol_msat in St by apply I.
      eapply pr_msat in St; [|apply (implied_propagated (g_size g) (cell g) k); auto]. apply St.
    - intros F. eapply closed_implied; eauto; [apply (i_tight _ _ _ _ I)|].
      intros t St. apply F. apply sol_msat; auto. apply I. }
  destruct (inv_consistent p N B ks g I) as (t0 & S0).
  split; [split|split].
  - intros ->. destruct C as [(_ & _ & Q)|[(Q & _)|(Q & _)]]; try discriminate. apply Imp. auto.
  - intros F. destruct C as [(-> & _)|[(-> & _)|(-> & Q)]]; auto.
    + exfalso. apply (proj1 Rec eq_refl t0). auto.
    + exfalso. apply Q, Imp. auto.
  - intros ->. destruct C as [(_ & Q & _)|[(Q & _)|(Q & _)]]; try discriminate. auto.
  - split.
    + intros ->. destruct C as [(Q & _)|[(Q & _)|(_ & Q)]]; try discriminate.
      destruct X as (I' & X); [discriminate|]. split.
      * destruct (inv_consistent p N B (k :: ks) g' I') as (t & St). exists t.
        rewrite sol_msat in * by (apply I || apply I'). rewrite S in St. apply X in St. auto.
      * (* a solution of the graph out of one of the two bounds of [k] *)
        destruct (inv_finite _ _ _ _ R I) as (V & _).
        assert (M : minimal p g).
        { apply closed_min; auto; [apply I|apply (i_tight _ _ _ _ I)]. }
        destruct (M (k_from k) (k_to k)) as (iv & Ei & Mi); auto.
        rewrite timespan_ok in Ei by (auto; apply I). injection Ei as <-.
        pose proof (V _ _ Nf Nu) as V1. pose proof (V _ _ Nu Nf) as V2.
        pose proof (S0 (k_from k) (k_to k)) as (iv & Ei & (W1 & W2)); auto.
        rewrite timespan_ok in Ei by (auto; apply I). injection Ei as <-. simpl in W1, W2.
        unfold valid in *. pose proof Kv as (_ & _ & L1 & L2). unfold valid in *.
        unfold implied_by, ent in Q.
        set (d := t0 (k_to k) - t0 (k_from k)) in *.
        assert (Ex : exists v, In_ext v (mkI (cell g (k_from k) (k_to k)) (- cell g (k_to k) (k_from k))) /\
          ~ In_ext v (mkI (k_lo k) (k_up k))).
        { unfold In_ext; simpl.
          destruct (Z.eq_dec (k_lo k) (- oo)) as [e1|e1].
          - assert (k_up k <> oo) by tauto.
            destruct (Z.eq_dec (cell g (k_to k) (k_from k)) (- oo)) as [e2|e2].
            + exists (Z.max d (k_up k + 1)). lia.
            + exists (- cell g (k_to k) (k_from k)). lia.
          - destruct (Z.eq_dec (cell g (k_from k) (k_to k)) (- oo)) as [e2|e2].
            + exists (Z.min d (k_lo k - 1)). lia.
            + destruct (Z_le_gt_dec (k_lo k) (cell g (k_from k) (k_to k))) as [l|l].
              * assert (k_up k <> oo) by tauto.
                destruct (Z.eq_dec (cell g (k_to k) (k_from k)) (- oo)) as [e3|e3].
                -- exists (Z.max d (k_up k + 1)). lia.
                -- exists (- cell g (k_to k) (k_from k)). lia.
              * exists (cell g (k_from k) (k_to k)). lia. }
        destruct Ex as (v & P1 & P2). destruct (Mi v P1) as (t & St & D).
        exists t. split; auto. unfold sat. rewrite D. auto.
    + intros ((t & St & Sk) & (t' & St' & Sk')).
      destruct C as [(-> & _ & Q)|[(-> & _)|(-> & _)]]; auto.
      * exfalso. apply Sk'. apply (proj1 Imp Q). auto.
      * exfalso. apply (proj1 Rec eq_refl t). auto.
Qed.
Example C42_case : history Debug 3 10 [k12; k01] h3 /\ room 3 10 /\
  good 3 10 (mkK 0 2 false 10 oo) /\ inside h3 (mkK 0 2 false 10 oo) /\
  g_propagate Debug h3 (mkK 0 2 false 10 oo) = Ret (h3, Unchanged).
Proof.
  split; [apply h3_history; lia|]. split; [exact room3|].
  split; [unfold good, wf_iv, within; simpl; unfold oo; lia|]. split; [unfold inside; simpl; lia|].
  vm_compute. reflexivity.
Qed.
Theorem C42_growth_refuted : exists p g k g', one_by_one p g_default [k01; k12] g /\
  legal k /\ inside g k /\ g_propagate p g k = Ret (g', Propagated) /\
  forall t, solution p g t -> sat k t.
Proof.
  exists Debug, gq, (mkK 0 2 false 0 20), (mkG 3 [0; - 10; 0; 5; - 20; - 8; 0; 7; 0]).
  split.
  { eapply obo_cons with (g1 := h3a) (r := Propagated); [vm_compute; reflexivity|right; auto|].
    eapply obo_cons with (g1 := gq) (r := Propagated); [vm_compute; reflexivity|right; auto|].
    constructor. }
  split; [unfold legal, valid, oo; simpl; lia|]. split; [unfold inside; simpl; lia|].
  split; [vm_compute; reflexivity|].
  intros t S. apply gq_sol in S. destruct S as ((A1 & A2) & (B1 & B2)).
  unfold sat, In_ext, oo in *. simpl in *. lia.
Qed.

(** ** C43 order of the constraints *)

(** Full statement: for constraints of any magnitude, and graphs grown by [propagate]
    (refuted below). *)

(** Two histories that end with the same instants, and whose constraints together have the
    same meaning, end with the same bounds, whatever the calls. *)
(** Partial: the limits of [room] and [history]. *)
Theorem C43_histories_partial : forall p N B ks g N' B' ks' g',
  room N B -> room N' B' -> history p N B ks g -> history p N' B' ks' g' ->
  g_size g = g_size g' ->
  (forall t, Forall (fun k => sat k t) ks <-> Forall (fun k => sat k t) ks') ->
  same_bounds p g g'.
Proof.
  intros p N B ks g N' B' ks' g' R R' H H' S Q.
  apply (inv_same p N B ks g N' B' ks' g'); auto; eapply history_inv; eauto.
Qed.
(** In particular the same constraints in any order, any number of times *)
(** Partial: the limits of [room] and [history]. *)
Theorem C43_sets_partial : forall p N B ks g ks' g',
  room N B -> history p N B ks g -> history p N B ks' g' ->
  g_size g = g_size g' -> (forall k, In k ks <-> In k ks') -> same_bounds p g g'.
Proof.
  intros p N B ks g ks' g' R H H' S Q. apply (C43_histories_partial p N B ks g N B ks' g'); auto.
  intros t. rewrite !Forall_forall. split; intros F k Ik; apply F, Q, Ik.
Qed.

Lemma obo_inv : forall p N B g0 l g g' ks, room N B -> one_by_one p g l g' ->
  inv N B ks g -> g_size g = g_size g0 -> Forall (good N B) l -> Forall (inside g0) l ->
  inv N B (rev l ++ ks) g' /\ g_size g' = g_size g0.
Proof.
  intros p N B g0 l g g' ks R H. revert ks.
  induction H as [g|g k r g1 l g' E A H IH]; intros ks I S G In; simpl; auto.
  inversion G; inversion In; subst.
  assert (In1 : inside g k) by (unfold inside in *; lia).
  destruct (propagate_inv p N B ks g k R I) as (g2 & r2 & E2 & S2 & _ & X); auto.
  rewrite E in E2. injection E2 as <- <-. destruct X as (I1 & _); [destruct A; congruence|].
  rewrite <- app_assoc. apply IH; auto. congruence.
Qed.
Lemma obo_run : forall p N B g0 l g ks t, room N B ->
  inv N B ks g -> g_size g = g_size g0 -> Forall (good N B) l -> Forall (inside g0) l ->
  solution p g t -> Forall (fun k => sat k t) l -> exists g', one_by_one p g l g'.
Proof.
  intros p N B g0 l. induction l as [|k l IH]; intros g ks t R I S G In St Sl.
  { eexists. constructor. }
  inversion G; inversion In; inversion Sl; subst.
  assert (In1 : inside g k) by (unfold inside in *; lia).
  destruct (propagate_inv p N B ks g k R I) as (g1 & r & E & S1 & C & X); auto.
  assert (St' : msat (g_size g) (cell g) t) by (apply (sol_msat p); auto; apply I).
  assert (K : 0 <= k_from k /\ 0 <= k_to k) by (unfold good in *; lia).
  assert (D : r <> Recovered).
  { intros ->. destruct C as [(Q & _)|[(_ & _ & Q)|(Q & _)]]; try discriminate.
    apply (contradicts_sound (g_size g) (cell g) k t); auto; unfold inside, node in *; lia. }
  destruct (X D) as (I1 & Q).
  destruct (IH g1 (k :: ks) t) as (g' & H'); auto; [congruence| |].
  - apply sol_msat; [apply I1|]. rewrite S1. apply Q. auto.
  - exists g'. econstructor; eauto.
    destruct C as [(-> & _)|[(-> & _)|(-> & _)]]; unfold accepted; auto. congruence.
Qed.
(** One by one, in any order: if one order is accepted, so are all the other ones, with the
    same resulting bounds. *)
(** Partial: the limits of [room] and [history], constraints about known instants. *)
Theorem C43_permutation_partial : forall p N B ks g l l' g1, room N B ->
  history p N B ks g -> Forall (good N B) l -> Forall (inside g) l -> Permutation l l' ->
  one_by_one p g l g1 -> exists g2, one_by_one p g l' g2 /\ same_bounds p g1 g2.
Proof.
  intros p N B ks g l l' g1 R H G In P O. pose proof (history_inv _ _ _ _ _ R H) as I.
  destruct (obo_inv p N B g l g g1 ks R O I) as (I1 & S1); auto.
  assert (PF : forall Q, Forall Q l -> Forall Q l').
  { intros Q. rewrite !Forall_forall. intros F k Ik. apply F.
    apply Permutation_in with (l := l'); auto. apply Permutation_sym. auto. }
  destruct (inv_consistent p N B _ g1 I1) as (t & St). apply (inv_sat p N B _ g1 t I1) in St.
  apply Forall_app in St. destruct St as (Sl & Sk).
  assert (Sl' : Forall (fun k => sat k t) l).
  { rewrite Forall_forall in *. intros k Ik. apply Sl. apply in_rev in Ik. auto. }
  destruct (obo_run p N B g l' g ks t) as (g2 & O2); auto; [eapply inv_sat; eauto|].
  exists g2. split; auto.
  destruct (obo_inv p N B g l' g g2 ks R O2 I) as (I2 & S2); auto.
  apply (inv_same p N B (rev l ++ ks) g1 N B (rev l' ++ ks) g2); auto; [congruence|].
  intros t'. rewrite !Forall_app, !Forall_forall. split; intros (F1 & F2); (split; [|auto]); intros k Ik;
  apply F1; apply in_rev in Ik; apply in_rev; rewrite rev_involutive.
  - apply Permutation_in with (l := l'); auto. apply Permutation_sym. auto.
  - apply Permutation_in with (l := l); auto.
Qed.
Definition g3 : graph := mkG 3 [0; - oo; 0; - oo; - oo; - oo; 0; - oo; - oo].
Lemma g3_history : forall N B, 3 <= N -> history Debug N B [] g3.
Proof. intros. eapply h_new with (n := 3); [lia|vm_compute; reflexivity]. Qed.
Example C43_case : history Debug 3 10 [] g3 /\ room 3 10 /\
  Forall (good 3 10) [k01; k12] /\ Forall (inside g3) [k01; k12] /\
  one_by_one Debug g3 [k01; k12] h3 /\ one_by_one Debug g3 [k12; k01] h3.
Proof.
  split; [apply g3_history; lia|]. split; [exact room3|].
  split; [repeat constructor; simpl; unfold oo; try lia|].
  split; [repeat constructor; simpl; lia|]. split.
  - eapply obo_cons with (g1 := mkG 3 [0; - 10; 0; 5; - oo; - oo; 0; - oo; - oo]) (r := Propagated);
      [vm_compute; reflexivity|right; auto|].
    eapply obo_cons with (r := Propagated); [vm_compute; reflexivity|right; auto|]. constructor.
  - eapply obo_cons with (g1 := mkG 3 [0; - oo; 0; - oo; - oo; - 8; 0; 7; - oo]) (r := Propagated);
      [vm_compute; reflexivity|right; auto|].
    eapply obo_cons with (r := Propagated); [vm_compute; reflexivity|right; auto|]. constructor.
Qed.
(** On a graph grown by [propagate], the order matters. *)
Theorem C43_growth_refuted : exists p g g', one_by_one p g_default [k01; k12] g /\
  one_by_one p g_default [k12; k01] g' /\ g_size g = g_size g' /\ ~ same_bounds p g g'.
Proof.
  exists Debug, gq, h3. split; [|split; [|split]].
  - eapply obo_cons with (g1 := h3a) (r := Propagated); [vm_compute; reflexivity|right; auto|].
    eapply obo_cons with (g1 := gq) (r := Propagated); [vm_compute; reflexivity|right; auto|].
    constructor.
  - eapply obo_cons with (g1 := mkG 3 [0; - oo; 0; - oo; - oo; - 8; 0; 7; - oo]) (r := Propagated);
      [vm_compute; reflexivity|right; auto|].
    eapply obo_cons with (r := Propagated); [vm_compute; reflexivity|right; auto|]. constructor.
  - reflexivity.
  - intros (_ & Q). specialize (Q 0 2). vm_compute in Q. 
    assert (X : Ret {| lower := -9223372036854775807; upper := 9223372036854775807 |} =
      Ret {| lower := 12; upper := 18 |}) by (apply Q; split; congruence).
    discriminate X.
Qed.

(** ** C44 in one shot *)

(** Full statement: for constraints of any magnitude (the refusals are right for all, see
    C44_fatal and C44_merge_fatal; the solutions too, see C39_extend and C39_merge), and when
    a hint of one item makes it a [propagate] with a new instant. *)
Theorem C44_extend_partial : forall p N B ks g hint l, room N B -> history p N B ks g ->
  Forall (good N B) l -> honest hint l -> (hint = Some 1 -> Forall (inside g) l) ->
  exists g' r, g_extend p g hint l = Ret (g', r) /\
    (accepted r <-> exists t, solution p g t /\ Forall (fun k => sat k t) l) /\
    (~ accepted r -> r = Fatal \/ (hint = Some 1 /\ r = Recovered /\ g' = g)) /\
    (accepted r -> minimal p g' /\ forall g1 g2,
       g_resize p g (g_size g') = Ret g1 -> one_by_one p g1 l g2 -> same_bounds p g' g2).
Proof.
  intros p N B ks g hint l R H G Hn H1. pose proof (history_inv _ _ _ _ _ R H) as I.
  destruct (extend_any p N B ks g hint l R I G Hn H1) as (g' & r & E & C).
  exists g', r. split; auto.
  assert (NS : (forall t, ~ (msat (g_size g) (cell g) t /\ Forall (fun k => ksat k t) l)) ->
    ~ exists t, solution p g t /\ Forall (fun k => sat k t) l).
  { intros F (t & St & Sl). rewrite sol_msat in St by apply I. apply (F t); auto. }
  destruct C as [(A & S & I' & Q)|[(Hh & -> & -> & F)|(-> & _ & F)]].
  - split; [split; auto|split; [tauto|]].
    + intros _. destruct (inv_consistent p N B _ g' I') as (t & St). exists t.
      rewrite sol_msat in * by (apply I || apply I'). apply Q in St. auto.
    + intros _. split.
      { apply closed_min; [apply I'|eapply inv_finite; eauto|apply (i_tight _ _ _ _ I')]. }
      intros g1 g2 E1 O. pose proof (ksize_ge l (g_size g)) as (L1 & L2).
      destruct (grow_inv p N B ks g (g_size g')) as (g1' & E1' & S1 & I1 & _); auto.
      { apply R. } { split; [lia|apply (i_size _ _ _ _ I')]. }
      rewrite E1 in E1'. injection E1' as <-.
      destruct (obo_inv p N B g1 l g1 g2 ks R O I1) as (I2 & S2); auto.
      { apply Forall_forall. intros k Ik. destruct (L2 k Ik). unfold inside. lia. }
      apply (inv_same p N B (l ++ ks) g' N B (rev l ++ ks) g2); auto; [congruence|].
      intros t. rewrite !Forall_app, !Forall_forall.
      split; intros (F1 & F2); (split; [|auto]); intros k Ik; apply F1; apply in_rev in Ik; auto.
  - split; [|split; auto].
    + split; [intros [?|?]; discriminate|]. intros X. destruct (NS F X).
    + intros [?|?]; discriminate.
  - split; [|split; auto].
    + split; [intros [?|?]; discriminate|]. intros X. destruct (NS F X).
    + intros [?|?]; discriminate.
Qed.
(** Partial: the limits of [room] and [history]. *)
Theorem C44_merge_partial : forall p N B ks g ks' h, room N B -> history p N B ks g ->
  history p N B ks' h ->
  exists g' r, g_merge p g h = Ret (g', r) /\
    (accepted r <-> exists t, solution p g t /\ solution p h t) /\ (~ accepted r -> r = Fatal) /\
    (accepted r -> minimal p g' /\ g_size g' = Z.max (g_size g) (g_size h) /\
       forall N' B' g2, room N' B' -> history p N' B' (ks ++ ks') g2 ->
         g_size g2 = g_size g' -> same_bounds p g' g2).
Proof.
  intros p N B ks g ks' h R H H'. pose proof (history_inv _ _ _ _ _ R H) as I.
  pose proof (history_inv _ _ _ _ _ R H') as Ih.
  destruct (merge_inv p N B ks g ks' h R I Ih) as (g' & r & E & C).
  exists g', r. split; auto.
  destruct C as [(A & S & I' & Q & _)|(-> & _ & F)].
  - split; [split; auto|split; [tauto|]].
    + intros _. destruct (inv_consistent p N B _ g' I') as (t & St). exists t.
      rewrite sol_msat in * by (apply I || apply I' || apply Ih).
      rewrite sol_msat by apply Ih. apply Q in St. auto.
    + intros _. split.
      { apply closed_min; [apply I'|eapply inv_finite; eauto|apply (i_tight _ _ _ _ I')]. }
      split; auto. intros N' B' g2 R2 H2 S2.
      apply (inv_same p N B (ks ++ ks') g' N' B' (ks ++ ks') g2); auto; [|tauto].
      eapply history_inv; eauto.
  - split; [|split; auto].
    + split; [intros [?|?]; discriminate|]. intros (t & S1 & S2).
      rewrite sol_msat in S1 by apply I. rewrite sol_msat in S2 by apply Ih. destruct (F t); auto.
    + intros [?|?]; discriminate.
Qed.
Example C44_case :
  Forall (good 3 10) [k12] /\ honest (Some 2) [k12] /\
  g_extend Debug h3a (Some 2) [k12] = Ret (h3, Propagated) /\
  g_resize Debug h3a 3 = Ret (mkG 3 [0; - 10; 0; 5; - oo; - oo; 0; - oo; - oo]) /\
  one_by_one Debug (mkG 3 [0; - 10; 0; 5; - oo; - oo; 0; - oo; - oo]) [k12] h3 /\
  exists g', g_extend Debug h3a None [k12; mkK 0 2 false 0 9] = Ret (g', Fatal).
Proof.
  split; [repeat constructor; simpl; unfold oo; try lia|]. split; [simpl; lia|].
  split; [vm_compute; reflexivity|]. split; [vm_compute; reflexivity|]. split.
  - eapply obo_cons with (r := Propagated); [vm_compute; reflexivity|right; auto|]. constructor.
  - eexists. vm_compute. reflexivity.
Qed.
(** [extend] with an empty window (as [5..3]) panics, adding opposite infinities;
    [propagate] refuses it. *)
Theorem C44_empty_refuted : exists k, k = k_cx 0 1 (CRange 5 3) /\ (forall t, ~ sat k t) /\
  g_extend Debug g3 None [k] = Panic /\ g_propagate Debug g3 k = Ret (g3, Recovered).
Proof.
  exists (mkK 0 1 true oo (- oo)). split; [vm_compute; reflexivity|].
  split; [|split; vm_compute; reflexivity].
  intros t (A & A'). unfold oo in *. simpl in A, A'. lia.
Qed.

(** ** C45 growing on demand *)

(** [propagate] with a new instant, when no constraint mentions the two instants so far:
    the same bounds as if the graph had been large enough before.

    Full statement: also when one of the instants has constraints (refuted below), and for
    a new instant with itself (refuted by C39_new_instant_refuted). *)
Theorem C45_fresh_partial : forall p N B ks g k, room N B -> history p N B ks g ->
  good N B k -> ~ inside g k -> k_from k <> k_to k -> fresh ks (k_from k) -> fresh ks (k_to k) ->
  exists g', g_propagate p g k = Ret (g', Propagated) /\
    g_size g' = Z.max (k_from k) (k_to k) + 1 /\ minimal p g' /\
    exists g1 g2 r, g_resize p g (g_size g') = Ret g1 /\ g_propagate p g1 k = Ret (g2, r) /\
      accepted r /\ same_bounds p g' g2.
Proof.
  intros p N B ks g k R H G In Nft Ff Fu. pose proof (history_inv _ _ _ _ _ R H) as I.
  assert (HN : N <= 65535) by apply R.
  destruct (attach_inv p N B ks g k) as (g' & E & S & I'); auto; [apply R|].
  exists g'. split; auto. split; auto. split.
  { apply closed_min; [apply I'|eapply inv_finite; eauto|apply (i_tight _ _ _ _ I')]. }
  destruct (grow_inv p N B ks g (g_size g')) as (g1 & E1 & S1 & I1 & _); auto.
  { split; [unfold inside in In; lia|apply (i_size _ _ _ _ I')]. }
  assert (In1 : inside g1 k) by (unfold inside; lia).
  destruct (inv_consistent p N B (k :: ks) g' I') as (t & St).
  apply (inv_sat p N B _ g' t I') in St. inversion St as [|? ? Sk Sks]; subst.
  destruct (obo_run p N B g1 [k] g1 ks t) as (g2 & O); auto.
  { eapply inv_sat; eauto. }
  destruct (obo_inv p N B g1 [k] g1 g2 ks R O I1) as (I2 & S2); auto.
  inversion O as [|? ? r gx ? ? E2 A O']; subst. inversion O'; subst.
  exists g1, g2, r. split; auto. split; auto. split; auto.
  apply (inv_same p N B (k :: ks) g' N B (k :: ks) g2); auto; [congruence|tauto].
Qed.
Example C45_case : exists g', history Debug 3 10 [] g_default /\ room 3 10 /\
  good 3 10 k12 /\ ~ inside g_default k12 /\ fresh [] 1 /\ fresh [] 2 /\
  g_propagate Debug g_default k12 = Ret (g', Propagated).
Proof.
  eexists. split; [eapply h_new with (n := 0); [lia|reflexivity]|]. split; [exact room3|].
  split; [unfold good, wf_iv, within; simpl; unfold oo; lia|]. split; [unfold inside; simpl; lia|].
  split; [constructor|]. split; [constructor|]. vm_compute. reflexivity.
Qed.
Theorem C45_refuted : exists p g k g' g1 g2, one_by_one p g_default [k01] g /\ legal k /\
  k_from k <> k_to k /\ g_propagate p g k = Ret (g', Propagated) /\
  g_resize p g (g_size g') = Ret g1 /\ g_propagate p g1 k = Ret (g2, Propagated) /\
  g_size g' = g_size g2 /\ ~ same_bounds p g' g2.
Proof.
  exists Debug, h3a, k12, gq, (mkG 3 [0; - 10; 0; 5; - oo; - oo; 0; - oo; - oo]), h3.
  split.
  { eapply obo_cons with (g1 := h3a) (r := Propagated); [vm_compute; reflexivity|right; auto|].
    constructor. }
  split; [unfold legal, valid, oo; simpl; lia|]. split; [simpl; lia|].
  split; [vm_compute; reflexivity|]. split; [vm_compute; reflexivity|].
  split; [vm_compute; reflexivity|]. split; [reflexivity|].
  intros (_ & Q). specialize (Q 0 2). vm_compute in Q.
  assert (X : Ret {| lower := -9223372036854775807; upper := 9223372036854775807 |} =
    Ret {| lower := 12; upper := 18 |}) by (apply Q; split; congruence).
  discriminate X.
Qed.

(** ** C46 after a fatal inconsistency *)

Lemma rows_fatal : forall p k is g g', g_gp_rows p g k is = Ret (g', false) -> g_size g' = 0.
Proof.
  intros p k. induction is as [|i is IH]; intros g g' E; simpl in E; [discriminate|].
  destruct (g_gp_row p g k i) as [g1| | |]; try discriminate. cbn [bind] in E.
  destruct (g_lower p g1 i i) as [d| | |]; try discriminate. cbn [bind] in E.
  destruct (is_strictly_positive d); [injection E as <-; auto|]. eauto.
Qed.
Lemma turns_fatal : forall p ks g g', g_gp_turns p g ks = Ret (g', Fatal) -> g_size g' = 0.
Proof.
  intros p. induction ks as [|k ks IH]; intros g g' E; simpl in E; [discriminate|].
  destruct (g_gp_rows p g k _) as [(g1 & ok)| | |] eqn:Q; try discriminate. cbn [bind] in E.
  destruct ok; eauto. injection E as <-. eapply rows_fatal; eauto.
Qed.
Lemma propagate_not_fatal : forall p g k g', g_propagate p g k <> Ret (g', Fatal).
Proof.
  intros p g k g' E. unfold g_propagate in E. cbv zeta in E.
  repeat (match type of E with
    | (if ?b then _ else _) = _ => destruct b; try discriminate
    | (_ <- ?o ;; _) = _ => destruct o; try discriminate; cbn [bind] in E end).
Qed.
(** For all graphs and constraints: after a fatal inconsistency there is no instant left. *)
Theorem C46_emptied : forall p g g',
  (forall hint ks, g_extend p g hint ks = Ret (g', Fatal) -> g_size g' = 0) /\
  (forall h, g_merge p g h = Ret (g', Fatal) -> g_size g' = 0) /\
  (forall k, g_propagate p g k <> Ret (g', Fatal)).
Proof.
  intros p g g'. split; [|split; [|intros; apply propagate_not_fatal]].
  - intros hint ks E. destruct (slow_dec hint) as [->|[->|S]]; [discriminate| |].
    + simpl in E. destruct ks; [discriminate|]. destruct (propagate_not_fatal _ _ _ _ E).
    + rewrite extend_slow in E by auto.
      destruct (ofold _ _ _) as [g1| | |]; try discriminate. eapply turns_fatal, E.
  - intros h E. rewrite merge_unfold in E. destruct (snd _); [eapply turns_fatal, E|].
    injection E as _ E. destruct (_ <? _); discriminate E.
Qed.
(** The constraints given before reappear when instants are added again, unless [reset] is
    called after. *)
Theorem C46_stale_refuted : exists p g ks g' g1, g_with_size p 2 = Ret g /\ Forall legal ks /\
  g_extend p g None ks = Ret (g', Fatal) /\ g_resize p g' 2 = Ret g1 /\
  g_timespan p g1 0 1 <> Ret (mkI (- oo) oo) /\ forall t, ~ solution p g1 t.
Proof.
  exists Debug, (mkG 2 [0; - oo; 0; - oo]), [mkK 0 1 false 5 9; mkK 1 0 false 5 9].
  exists (mkG 0 [0; 5; 10; 5]), (mkG 2 [0; 5; 0; 5]).
  split; [vm_compute; reflexivity|]. split.
  { repeat constructor; simpl; unfold oo; lia. }
  split; [vm_compute; reflexivity|]. split; [vm_compute; reflexivity|]. split.
  { vm_compute. discriminate. }
  intros t S. destruct (S 0 1) as (iv & E & (W1 & W2)); simpl; try lia. vm_compute in E.
  injection E as <-. unfold oo in *. simpl in *. lia.
Qed.
(** Partial: [reset] has to be called; without it the stale bounds come back (C46_stale_refuted). *)
Theorem C46_reset_partial : forall p g g' n g1, calls p true g ->
  (exists hint ks, Forall legal ks /\ g_extend p g hint ks = Ret (g', Fatal)) ->
  0 <= n <= 65535 -> g_resize p g' n = Ret g1 ->
  exists g2, g_reset p g1 = Ret g2 /\ g_size g2 = n /\
    forall i j, 0 <= i < n -> 0 <= j < n -> unconstrained_between p g2 i j.
Proof.
  intros p g g' n g1 H (hint & ks & L & E) Hn E1.
  assert (H' : calls p true g') by (eapply c_extend; eauto).
  assert (H1 : calls p true g1) by (eapply c_resize; eauto).
  assert (M1 : stored g1) by (apply stored_mem; eapply calls_mem; eauto).
  destruct (C38_reset p g1 M1) as (g2 & E2 & S2 & U). exists g2. split; auto.
  pose proof (calls_mem _ _ _ H') as M'.
  destruct (resize_ok p g' n) as (gx & Ex & Sx & _); auto; [apply M'|].
  rewrite E1 in Ex. injection Ex as <-. rewrite Sx in *. auto.
Qed.

(** ** C49 qualitative queries *)

(** Full statement: on graphs grown by [propagate] too. *)
Theorem C49_instant_cmp_partial : forall p N B ks g i j, room N B -> history p N B ks g ->
  0 <= i < g_size g -> 0 <= j < g_size g ->
  exists c, g_instant_cmp p g i j = Ret c /\
    (c = Some Lt <-> forall t, solution p g t -> t i < t j) /\
    (c = Some Gt <-> forall t, solution p g t -> t i > t j) /\
    (c = Some Eq <-> forall t, solution p g t -> t i = t j).
Proof.
  intros p N B ks g i j R H Hi Hj. pose proof (history_inv _ _ _ _ _ R H) as I.
  assert (M : mem_ok g) by apply I.
  destruct (C40_solutions_partial p N B ks g (fun _ => 0) R H) as (_ & Mi & (t0 & S0)).
  destruct (inv_finite _ _ _ _ R I) as (V & _).
  unfold g_instant_cmp. replace ((g_size g <=? i) || (g_size g <=? j)) with false by lia.
  rewrite !g_lower_ok by auto. cbn [bind].
  destruct (Mi i j Hi Hj) as (iv & Ei & Q). rewrite timespan_ok in Ei by auto. injection Ei as <-.
  pose proof (V i j Hi Hj) as V1. pose proof (V j i Hj Hi) as V2. unfold valid in V1, V2.
  set (a := cell g i j) in *. set (b := cell g j i) in *.
  assert (T : forall t, solution p g t -> In_ext (t j - t i) (mkI a (- b))).
  { intros t S. destruct (S i j Hi Hj) as (iv & E & W). rewrite timespan_ok in E by auto.
    injection E as <-. exact W. }
  assert (P0 := T t0 S0).
  assert (A : (forall t, solution p g t -> t i < t j) <-> 0 < a).
  { split.
    - intros F. destruct (Z_lt_le_dec 0 a) as [|l]; auto. exfalso.
      destruct (Q (if a =? - oo then Z.min 0 (t0 j - t0 i) else a)) as (t & S & D).
      { unfold In_ext in *; simpl in *. destruct (a =? - oo) eqn:e; lia. }
      specialize (F t S). destruct (a =? - oo) eqn:e; lia.
    - intros L t S. destruct (T t S) as (W & _). unfold oo in *. simpl in W. lia. }
  assert (A' : (forall t, solution p g t -> t i > t j) <-> 0 < b).
  { split.
    - intros F. destruct (Z_lt_le_dec 0 b) as [|l]; auto. exfalso.
      destruct (Q (if b =? - oo then Z.max 0 (t0 j - t0 i) else - b)) as (t & S & D).
      { unfold In_ext in *; simpl in *. destruct (b =? - oo) eqn:e; lia. }
      specialize (F t S). destruct (b =? - oo) eqn:e; lia.
    - intros L t S. destruct (T t S) as (_ & W). unfold oo in *. simpl in W. lia. }
  assert (A'' : (forall t, solution p g t -> t i = t j) <-> a = 0 /\ b = 0).
  { split.
    - intros F. pose proof (F t0 S0) as F0.
      destruct (Z.eq_dec a 0) as [e|e]; [destruct (Z.eq_dec b 0) as [e'|e']; auto|]; exfalso.
      + destruct (Q 1) as (t & S & D); [unfold In_ext in *; simpl in *; lia|].
        specialize (F t S). lia.
      + destruct (Q (- 1)) as (t & S & D); [unfold In_ext in *; simpl in *; lia|].
        specialize (F t S). lia.
    - intros (e & e') t S. destruct (T t S) as (W & W'). unfold oo in *. simpl in W, W'. lia. }
  unfold is_strictly_positive.
  destruct (0 <? a) eqn:T1.
  { exists (Some Lt). rewrite A, A', A''. split; auto.
    assert (b <= 0) by (unfold In_ext, oo in *; simpl in *; lia).
    split; [|split]; split; try discriminate; intros; auto; lia. }
  cbn [bind]. destruct (0 <? b) eqn:T2.
  { exists (Some Gt). rewrite A, A', A''. split; auto. split; [|split]; split; try discriminate; intros; auto; lia. }
  destruct ((a =? 0) && (b =? 0)) eqn:T3.
  { exists (Some Eq). rewrite A, A', A''. split; auto. split; [|split]; split; try discriminate; intros; auto; lia. }
  exists None. rewrite A, A', A''. split; auto. split; [|split]; split; try discriminate; intros; lia.
Qed.
(** Partial: the limits of [room] and [history]. *)
Theorem C49_distinct_partial : forall p N B ks g i j, room N B -> history p N B ks g ->
  0 <= i < g_size g -> 0 <= j < g_size g ->
  exists b, g_are_distinct p g i j = Ret b /\
    (b = true <-> forall t, solution p g t -> t i <> t j).
Proof.
  intros p N B ks g i j R H Hi Hj. pose proof (history_inv _ _ _ _ _ R H) as I.
  assert (M : mem_ok g) by apply I.
  destruct (C40_solutions_partial p N B ks g (fun _ => 0) R H) as (_ & Mi & _).
  destruct (inv_finite _ _ _ _ R I) as (V & _).
  unfold g_are_distinct, g_constraint, k_of_graph.
  replace ((g_size g <=? i) || (g_size g <=? j)) with false by lia.
  rewrite !g_lower_ok by auto. cbn [bind]. eexists. split; [reflexivity|].
  destruct (Mi i j Hi Hj) as (iv & Ei & Q). rewrite timespan_ok in Ei by auto. injection Ei as <-.
  pose proof (V i j Hi Hj) as V1. pose proof (V j i Hj Hi) as V2. unfold valid in V1, V2.
  set (a := cell g i j) in *. set (b := cell g j i) in *.
  assert (T : forall t, solution p g t -> In_ext (t j - t i) (mkI a (- b))).
  { intros t S. destruct (S i j Hi Hj) as (iv & E & W). rewrite timespan_ok in E by auto.
    injection E as <-. exact W. }
  assert (D : (forall t, solution p g t -> t i <> t j) <-> (0 < a \/ 0 < b)).
  { split.
    - intros F. destruct (Z_lt_le_dec 0 a); auto. destruct (Z_lt_le_dec 0 b); auto. exfalso.
      destruct (Q 0) as (t & S & D); [unfold In_ext; simpl; lia|]. apply (F t S). lia.
    - intros L t S. destruct (T t S) as (W & W'). unfold oo in *. simpl in *. lia. }
  rewrite D. unfold k_is_all, tv_neg, is_past_infinite, is_future_infinite, is_strictly_positive,
    is_strictly_negative. cbn [k_lo k_up].
  destruct (_ && _) eqn:X; [|cbn [k_lo k_up]; lia].
  change INF with oo in X. split; [discriminate|]. unfold oo in *. lia.
Qed.
(** [constraint] tells the same as [timespan] (any graph, any pair) *)
Theorem C49_constraint : forall p g i j, stored g -> 0 <= i -> 0 <= j ->
  exists iv, g_timespan p g i j = Ret iv /\
    ((g_constraint p g i j = Ret None /\ lower iv = - oo /\ upper iv = oo) \/
     (exists k, g_constraint p g i j = Ret (Some k) /\ k_from k = i /\ k_to k = j /\
        k_empty k = false /\ k_lo k = lower iv /\ k_up k = upper iv /\
        ~ (lower iv = - oo /\ upper iv = oo))).
Proof.
  intros p g i j M Hi Hj. destruct (Z_lt_le_dec (Z.max i j) (g_size g)) as [L|L].
  - assert (Ni : node (g_size g) i) by (unfold node; lia).
    assert (Nj : node (g_size g) j) by (unfold node; lia).
    eexists. split; [apply timespan_ok; auto|]. cbn [lower upper].
    unfold g_constraint, k_of_graph.
    replace ((g_size g <=? i) || (g_size g <=? j)) with false by lia.
    rewrite !g_lower_ok by auto. cbn [bind].
    unfold k_is_all, tv_neg, is_past_infinite, is_future_infinite. cbn [k_lo k_up].
    change INF with oo. destruct (_ && _) eqn:X; [left; split; auto; lia|right].
    eexists. split; [reflexivity|]. cbn [k_from k_to k_empty k_lo k_up]. lia.
  - exists (mkI (- oo) oo). split; [apply C38_outside; auto|]. left. split; auto.
    unfold g_constraint. replace ((g_size g <=? i) || (g_size g <=? j)) with true by lia. auto.
Qed.
Example C49_case : g_instant_cmp Debug h3 2 0 = Ret (Some Gt) /\ g_are_distinct Debug h3 2 0 = Ret true /\
  g_constraint Debug h3 2 0 = Ret (Some (mkK 2 0 false (- 18) (- 12))) /\
  g_instant_cmp Debug h3 1 1 = Ret (Some Eq).
Proof. vm_compute. auto. Qed.
(** On a graph grown by [propagate], the queries miss what the constraints imply. *)
Theorem C49_growth_refuted : exists p g, one_by_one p g_default [k01; k12] g /\
  g_instant_cmp p g 0 2 = Ret None /\ g_are_distinct p g 0 2 = Ret false /\
  forall t, solution p g t -> t 0 < t 2.
Proof.
  exists Debug, gq. split.
  { eapply obo_cons with (g1 := h3a) (r := Propagated); [vm_compute; reflexivity|right; auto|].
    eapply obo_cons with (g1 := gq) (r := Propagated); [vm_compute; reflexivity|right; auto|].
    constructor. }
  split; [vm_compute; reflexivity|]. split; [vm_compute; reflexivity|].
  intros t S. apply gq_sol in S. destruct S as ((A1 & A2) & (B1 & B2)). unfold oo in *. simpl in *. lia.
Qed.

(** ** C50 removing instants *)

(** [resize] to fewer instants keeps exactly the restrictions of the solutions.

    Full statement: on graphs grown by [propagate] too (refuted below). *)
Theorem C50_resize_partial : forall p N B ks g m, room N B -> history p N B ks g ->
  0 <= m <= g_size g ->
  exists g', g_resize p g m = Ret g' /\ g_size g' = m /\ minimal p g' /\
    (forall i j, 0 <= i < m -> 0 <= j < m -> g_timespan p g' i j = g_timespan p g i j) /\
    (forall t, solution p g' t <->
       exists t', solution p g t' /\ forall i, 0 <= i < m -> t' i = t i).
Proof.
  intros p N B ks g m R H Hm. pose proof (history_inv _ _ _ _ _ R H) as I.
  assert (M : mem_ok g) by apply I. pose proof M as ((S0 & S1) & _).
  destruct (inv_finite _ _ _ _ R I) as (V & _).
  destruct (resize_ok p g m S0 ltac:(lia)) as (g' & E & S & M' & _ & _ & _ & C).
  assert (C' : forall a b, node m a -> node m b -> cell g' a b = cell g a b).
  { intros a b Na Nb. apply C; auto. unfold node in *. lia. }
  assert (NN : forall a, node m a -> node (g_size g) a) by (unfold node; lia).
  assert (Cl : closed (g_size g) (cell g)) by apply (i_tight _ _ _ _ I).
  assert (Cl' : closed m (cell g')).
  { destruct Cl as (Zd & Tr). split.
    - intros i Ni. rewrite C' by auto. auto.
    - intros i k j a b Ni Nk Nj. unfold ent. rewrite !C' by auto. apply Tr; auto. }
  exists g'. split; auto. split; auto. split; [|split].
  - apply closed_min; auto; rewrite S; auto. intros i j Ni Nj. rewrite C' by auto. auto.
  - intros i j Hi Hj. rewrite !timespan_ok by (auto; rewrite ?S; unfold node; lia).
    rewrite !C' by auto. auto.
  - intros t. rewrite sol_msat, S by auto. split.
    + intros St. destruct (closed_extends (g_size g) (cell g) (nodes m) t Cl) as (t' & Eq & St').
      * apply Forall_forall. intros i Ii. apply nodes_in in Ii. auto.
      * intros i j w Ii Ij En. apply nodes_in in Ii, Ij. apply St; auto.
        unfold ent in *. rewrite C' by auto. auto.
      * exists t'. split; [apply sol_msat; auto|]. intros i Hi. apply Eq, nodes_in. auto.
    + intros (t' & St' & Eq) i j w Ni Nj En. rewrite sol_msat in St' by auto.
      rewrite <- !Eq by auto. apply St'; auto. unfold ent in *. rewrite <- C' by auto. auto.
Qed.
Example C50_case : history Debug 3 10 [k12; k01] h3 /\ room 3 10 /\
  g_resize Debug h3 2 = Ret h3a.
Proof. split; [apply h3_history; lia|]. split; [exact room3|]. vm_compute. reflexivity. Qed.
(** [shrink_to_fit] removes trailing instants without constraint, as many as possible. *)
(** Partial: the limits of [room] and [history]. *)
Theorem C50_shrink_partial : forall p N B ks g, room N B -> history p N B ks g ->
  exists g', g_shrink_to_fit p g = Ret g' /\ 0 <= g_size g' <= g_size g /\
    (forall i j, 0 <= i < g_size g' -> 0 <= j < g_size g' ->
       g_timespan p g' i j = g_timespan p g i j) /\
    (forall i j, g_size g' <= i < g_size g -> 0 <= j < g_size g -> i <> j ->
       g_timespan p g i j = Ret (mkI (- oo) oo)) /\
    (g_size g' = 0 \/ exists j, 0 <= j < g_size g' - 1 /\
       g_timespan p g (g_size g' - 1) j <> Ret (mkI (- oo) oo)) /\
    (forall t, solution p g' t <-> solution p g t).
Proof.
  intros p N B ks g R H. pose proof (history_inv _ _ _ _ _ R H) as I.
  assert (M : mem_ok g) by apply I.
  destruct (shrink_inv p N B ks g I) as (g' & E & S & D & U & T & M' & _ & _).
  assert (Cg : forall a b, cell g' a b = cell g a b) by (intros; unfold cell; rewrite D; auto).
  pose proof (shrink_extends N B ks g (g_size g') I ltac:(lia) U) as X.
  exists g'. split; auto. split; auto. split; [|split; [|split]].
  - intros i j Hi Hj. rewrite !timespan_ok by (auto; unfold node; lia). rewrite !Cg. auto.
  - intros i j Hi Hj Nij. rewrite timespan_ok by (auto; unfold node; lia).
    rewrite (X i j), (X j i) by (unfold node; lia).
    replace ((i <? g_size g') && (j <? g_size g')) with false by lia.
    replace ((j <? g_size g') && (i <? g_size g')) with false by lia.
    replace (i =? j) with false by lia. replace (j =? i) with false by lia. auto.
  - destruct T as [T|(j & Hj & T)]; auto. right. exists j. split; auto.
    rewrite timespan_ok by (auto; unfold node; lia). intros Q. injection Q as Q1 Q2. destruct T; lia.
  - intros t. rewrite !sol_msat by auto. rewrite (extends_msat _ _ _ _ t X) by lia.
    unfold msat, ent. split; intros St i j w Ni Nj W; apply St; auto; rewrite ?Cg in *; auto.
Qed.
Example C50_shrink_case : history Debug 4 10 [k01] (mkG 4 (g_data h3a ++ [- oo; - oo; 0; - oo; - oo; - oo; - oo; - oo; 0; - oo; - oo; - oo])) /\
  exists g', g_shrink_to_fit Debug (mkG 4 (g_data h3a ++ [- oo; - oo; 0; - oo; - oo; - oo; - oo; - oo; 0; - oo; - oo; - oo])) = Ret g' /\ g_size g' = 2.
Proof.
  split.
  - apply h_grow with (g := h3a) (m := 4); [apply h3a_history; lia|simpl; lia|vm_compute; reflexivity].
  - eexists. split; vm_compute; reflexivity.
Qed.
Definition gp : graph :=
  mkG 4 [0; - oo; 0; - oo; - 10; 7; 0; - 8; 5; - oo; 0; - 8; 0; 7; 0; - oo].
(** On a graph grown by [propagate], removing instants may remove constraints between the
    other ones: here 0 -> 2 -> 3 -> 1 implies a constraint between 0 and 1. *)
Theorem C50_growth_refuted : exists p g g' t,
  one_by_one p g_default [mkK 0 2 false 5 10; mkK 2 3 false 7 8; mkK 1 3 false 0 0] g /\
  g_resize p g 2 = Ret g' /\ solution p g' t /\
  ~ exists t', solution p g t' /\ forall i, 0 <= i < 2 -> t' i = t i.
Proof.
  exists Debug, gp, (mkG 2 [0; - oo; 0; - oo]), (fun _ => 0). split.
  { eapply obo_cons with (g1 := mkG 3 [0; - oo; 0; - oo; - 10; - oo; 0; - oo; 5]) (r := Propagated); [vm_compute; reflexivity|right; auto|].
    eapply obo_cons with (g1 := mkG 4 [0; - oo; 0; - oo; - 10; - oo; 0; - oo; 5; - oo; - oo; - 8; 0; 7; - oo; - oo]) (r := Propagated); [vm_compute; reflexivity|right; auto|].
    eapply obo_cons with (g1 := gp) (r := Propagated); [vm_compute; reflexivity|right; auto|].
    constructor. }
  split; [vm_compute; reflexivity|]. split.
  - apply sol_msat; [split; simpl; lia|].
    intros i j w Ni Nj (E & W). unfold node in *. simpl in Ni, Nj.
    assert (Ci : i = 0 \/ i = 1) by lia. assert (Cj : j = 0 \/ j = 1) by lia.
    destruct Ci, Cj; subst; revert E W;
      match goal with |- context [cell ?g ?i ?j] =>
        let v := eval vm_compute in (cell g i j) in change (cell g i j) with v end;
      unfold oo; lia.
  - intros (t & S & Q).
    destruct (S 0 2) as (iv & E & (A1 & A2)); simpl; try lia. vm_compute in E. injection E as <-.
    destruct (S 2 3) as (iv & E & (B1 & B2)); simpl; try lia. vm_compute in E. injection E as <-.
    destruct (S 1 3) as (iv & E & (C1 & C2)); simpl; try lia. vm_compute in E. injection E as <-.
    pose proof (Q 0 ltac:(lia)). pose proof (Q 1 ltac:(lia)). unfold oo in *. simpl in *. lia.
Qed.

(** ** C51 bounded problems *)

(** All the calls return (neither panic nor undefined behaviour), and the finite bounds
    reported by a graph of [n] instants are at most [(n-1) * B].

    [room]: 4 * (N + 1) * B is below +oo. *)
Theorem C51_no_panic : forall p N B ks g, room N B -> history p N B ks g ->
  (forall k, good N B k -> exists g' r, g_propagate p g k = Ret (g', r) /\ r <> Fatal) /\
  (forall hint l, Forall (good N B) l -> exists x, g_extend p g hint l = Ret x) /\
  (forall ks' h, history p N B ks' h -> exists x, g_merge p g h = Ret x).
Proof.
  intros p N B ks g R H. pose proof (history_inv _ _ _ _ _ R H) as I.
  assert (HN : N <= 65535) by apply R.
  assert (P : forall k, good N B k -> exists g' r, g_propagate p g k = Ret (g', r) /\ r <> Fatal).
  { intros k G. pose proof (good_valid N B k HN G) as Kv.
    destruct (Z_lt_le_dec (Z.max (k_from k) (k_to k)) (g_size g)).
    - destruct (propagate_inv p N B ks g k R I G) as (g' & r & E & _ & C & _); [unfold inside; lia|].
      exists g', r. split; auto. destruct C as [(-> & _)|[(-> & _)|(-> & _)]]; discriminate.
    - destruct (propagate_new p g k) as (g' & E & _); auto; try apply I; [apply G|].
      exists g', Propagated. split; auto. discriminate. }
  split; auto. split.
  - intros hint l G. destruct (slow_dec hint) as [->|[->|S]]; [simpl; eauto| |].
    + destruct l as [|k l]; [simpl; eauto|]. inversion G; subst.
      destruct (P k) as (g' & r & E & _); auto. simpl. eauto.
    + destruct (extend_inv p N B ks g hint l R I G) as (g' & r & E & _); eauto;
      intros ->; destruct S; congruence.
  - intros ks' h Hh. pose proof (history_inv _ _ _ _ _ R Hh) as Ih.
    destruct (merge_inv p N B ks g ks' h R I Ih) as (g' & r & E & _). eauto.
Qed.
Theorem C51_bounds : forall p N B ks g, room N B -> history p N B ks g ->
  forall i j, 0 <= i < g_size g -> 0 <= j < g_size g ->
  exists iv, g_timespan p g i j = Ret iv /\
    (lower iv = - oo \/ Z.abs (lower iv) <= (g_size g - 1) * B) /\
    (upper iv = oo \/ Z.abs (upper iv) <= (g_size g - 1) * B).
Proof.
  intros p N B ks g R H i j Hi Hj. pose proof (history_inv _ _ _ _ _ R H) as I.
  pose proof (inv_bnd _ _ _ _ R I) as W. eexists. split; [apply timespan_ok; auto; apply I|].
  pose proof (W i j Hi Hj). pose proof (W j i Hj Hi). unfold bnd in *. simpl. lia.
Qed.
Example C51_case : room 1000 (24 * 3600 * 366 * 1000) /\
  room 60000 (24 * 3600 * 366 * 1000000) /\ room 3 10 /\
  history Debug 3 10 [k12; k01] h3.
Proof. split; [unfold room, oo; lia|]. split; [unfold room, oo; lia|]. split; [exact room3|]. apply h3_history; lia. Qed.
