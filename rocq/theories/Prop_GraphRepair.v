(** Completing a graph grown by [propagate] (property C77). *)
From Verif Require Import Machine TimeValue Spec Tac Interval SpecSets Graph MaxPlus FwBound GraphProofs SpecGraph GraphOps GraphGrow GraphSafe GraphMem GraphHist
  GraphTight GraphInv  Prop_Graph Prop_Propagation.

(** The constraints of [l], each one about some instant which is not in the graph yet, are given one after the other
    to [propagate]: the graph grows. *)
Inductive grown (p : profile) : graph -> list kons -> graph -> Prop :=
| gr_nil g : grown p g [] g
| gr_cons g k g1 l g' : ~ inside g k -> k_from k <> k_to k -> g_propagate p g k = Ret (g1, Propagated) ->
    grown p g1 l g' -> grown p g (k :: l) g'.

Lemma set_id : forall p g i j, mem_ok g -> node (g_size g) i -> node (g_size g) j -> g_set p g i j (cell g i j) = Ret g.
Proof.
  intros p g i j M Hi Hj. unfold g_set. rewrite (g_idx_ok p (g_size g)); auto; [|apply M]. cbn [bind].
  unfold vset. pose proof (cell_nth g i j M Hi Hj) as E.
  assert (L : (Z.to_nat (cidx i j) < length (g_data g))%nat) by (apply nth_error_Some; congruence).
  pose proof (cidx_bound _ _ _ Hi Hj) as B. replace (cidx i j <? _) with true by lia. cbn [bind].
  destruct g as (n & d). cbn [g_size g_data] in *. f_equal. f_equal.
  set (c := cell _ i j) in *. clearbody c. set (k := Z.to_nat (cidx i j)) in *. clearbody k. clear - E.
  revert d E. induction k as [|k IH]; intros [|x d] E; cbn in *; try congruence. f_equal. auto.
Qed.
Lemma raise_low : forall p g i j v, mem_ok g -> node (g_size g) i -> node (g_size g) j -> cell g i j = - oo -> valid v ->
  g_raise p g i j v = g_set p g i j v.
Proof.
  intros p g i j v M Hi Hj E V. unfold g_raise. rewrite g_lower_ok by auto. cbn [bind].
  destruct (cell g i j <? v) eqn:T; auto. assert (v = cell g i j) by (unfold valid in V; lia). subst v. now rewrite set_id.
Qed.
(** Growing is writing the constraint, as [extend] does. *)
Lemma grow_insert : forall p g k, mem_ok g -> clean g -> kvalid k -> k_empty k = false -> ~ inside g k -> k_from k <> k_to k ->
  g_propagate p g k = omap (fun g' => (g', Propagated)) (g_insert p g k).
Proof.
  intros p g k M Cl (Hf & Ht & Vl & Vu) Ek O D. unfold g_propagate, g_insert. rewrite Ek. cbv zeta.
  assert (S0 : 0 <= g_size g) by apply M.
  set (f := k_from k) in *. set (u := k_to k) in *.
  assert (G : g_size g <= Z.max f u) by (unfold inside in O; fold f u in O; lia).
  replace (g_size g <=? Z.max f u) with true by lia. rewrite u32_succ by lia. cbn [bind].
  destruct (grow_ok p g (Z.max f u + 1) M Cl) as (g1 & E & S1 & M1 & C1 & X); [lia|]. rewrite E. cbn [bind].
  assert (Nf : node (g_size g1) f) by (unfold node; lia). assert (Nu : node (g_size g1) u) by (unfold node; lia).
  assert (Cf : cell g1 f u = - oo).
  { rewrite X by (rewrite <- S1; auto). replace ((f <? g_size g) && (u <? g_size g)) with false by lia.
    replace (f =? u) with false by lia. reflexivity. }
  assert (Cu : cell g1 u f = - oo).
  { rewrite X by (rewrite <- S1; auto). replace ((u <? g_size g) && (f <? g_size g)) with false by lia.
    replace (u =? f) with false by lia. reflexivity. }
  rewrite raise_low by auto. destruct (g_set_ok p g1 f u (k_lo k) M1 Nf Nu) as (g2 & E2 & S2 & R2). rewrite E2. cbn [bind].
  assert (M2 : mem_ok g2) by (eapply same_shape_mem; eauto). assert (Z2 : g_size g2 = g_size g1) by apply S2.
  unfold tv_neg. rewrite raise_low; try (rewrite Z2; auto); auto.
  - rewrite R2 by lia. replace ((u =? f) && (f =? u)) with false by lia. auto.
  - unfold valid in *. lia.
Qed.

Lemma ofold_app : forall A B (f : A -> B -> outcome A) l l' a, ofold f a (l ++ l') = (x <- ofold f a l ;; ofold f x l').
Proof.
  induction l as [|b l IH]; intros l' a; cbn; auto. destruct (f a b); cbn; auto.
Qed.
Lemma insert_one : forall p g k, mem_ok g -> clean g -> vcells (g_size g) (cell g) -> kvalid k ->
  exists g1, g_insert p g k = Ret g1 /\ mem_ok g1 /\ clean g1 /\ vcells (g_size g1) (cell g1) /\
    g_size g1 = Z.max (g_size g) (Z.max (k_from k) (k_to k) + 1).
Proof.
  intros p g k M Cl V K. destruct (inserted_ok p [k] g M Cl V) as (g1 & E & M1 & C1 & S & V1 & _); [auto|].
  cbn in E. destruct (g_insert p g k) as [g2| | |]; cbn in E; try discriminate. inv E. exists g1.
  split; [auto|]. split; [auto|]. split; [auto|]. split; [auto|]. rewrite S. unfold ksize. cbn. lia.
Qed.
Lemma grown_inserts : forall p l g g1, mem_ok g -> clean g -> vcells (g_size g) (cell g) ->
  Forall (fun k => kvalid k /\ k_empty k = false) l -> grown p g l g1 -> ofold (g_insert p) g l = Ret g1.
Proof.
  intros p. induction l as [|k l IH]; intros g g1 M Cl V F G.
  - inv G. reflexivity.
  - inversion G as [|? ? g2 ? ? O D P Gr]; subst. inversion F as [|? ? (K & Ek) F']; subst. cbn [ofold].
    rewrite grow_insert in P by auto.
    destruct (insert_one p g k M Cl V K) as (g3 & E & M3 & C3 & V3 & _). rewrite E in *. cbn in P. inv P. cbn [bind]. auto.
Qed.
Lemma inv_cells : forall N B ks g, room N B -> inv N B ks g -> vcells (g_size g) (cell g).
Proof.
  intros N B ks g R I i j Ni Nj. pose proof (i_mem _ _ _ _ I) as M. assert (S0 : 0 <= g_size g) by apply M.
  destruct (room_lin N B (g_size g) R) as (B0 & L); [pose proof (i_size _ _ _ _ I); lia|].
  pose proof (tight_all_bnd _ _ _ _ (i_tight _ _ _ _ I) B0 (inv_ebnd _ _ _ _ B0 I) i j Ni Nj) as X.
  unfold bnd in X. unfold valid. nia.
Qed.

(** One global propagation completes a graph grown by [propagate]: a call of [extend], even without constraint,
    whose iterator does not announce 0 or 1 constraint, does as if all the constraints were given to it.  The graph
    is then as in C40.  Partial: sizes and bounds with the margins of [room], no empty constraint, growing calls only. *)
Theorem C77_completed_partial : forall p N B ks g l g1 hint l', room N B -> history p N B ks g ->
  Forall (good N B) l -> grown p g l g1 -> Forall (good N B) l' -> honest hint l' -> hint <> Some 0 -> hint <> Some 1 ->
  exists g' r, g_extend p g1 hint l' = Ret (g', r) /\ g_extend p g None (l ++ l') = Ret (g', r) /\
    (accepted r <-> exists t, Forall (fun k => sat k t) (ks ++ l ++ l')) /\ (~ accepted r -> r = Fatal) /\
    (accepted r -> history p N B ((l ++ l') ++ ks) g' /\ minimal p g' /\
       forall t, solution p g' t <-> Forall (fun k => sat k t) (ks ++ l ++ l')).
Proof.
  intros p N B ks g l g1 hint l' R H G Gr G' Hn H0 H1. pose proof (history_inv _ _ _ _ _ R H) as I.
  assert (LN : N <= 65535) by apply R. pose proof (inv_cells _ _ _ _ R I) as V.
  assert (E : ofold (g_insert p) g l = Ret g1).
  { apply grown_inserts; auto; try apply I. eapply Forall_impl; [|exact G]. intros k Gk. split; [eapply good_valid; eauto|apply Gk]. }
  assert (Eq : g_extend p g1 hint l' = g_extend p g None (l ++ l')).
  { unfold g_extend. rewrite ofold_app, E. cbn [bind]. destruct hint as [[|[h|h|]|h]|]; auto; congruence. }
  assert (Ga : Forall (good N B) (l ++ l')) by (apply Forall_app; auto).
  destruct (C44_extend_partial p N B ks g None (l ++ l') R H Ga) as (g' & r & Ex & A & F & M); [exact Logic.I|discriminate|].
  exists g', r. split; [congruence|]. split; auto. pose proof (C40_solutions_partial p N B ks g) as Q.
  split; [|split].
  - rewrite A. split; intros (t & Ht); exists t; [rewrite Forall_app; rewrite <- (proj1 (Q t R H)); auto|].
    rewrite Forall_app in Ht. rewrite (proj1 (Q t R H)). auto.
  - intros NA. destruct (F NA) as [->|(X & _)]; [auto|discriminate].
  - intros Ac. assert (H' : history p N B ((l ++ l') ++ ks) g') by (eapply h_extend; eauto; [exact Logic.I|discriminate]).
    split; auto. split; [now apply M|]. intros t. rewrite (proj1 (C40_solutions_partial p N B _ g' t R H')).
    rewrite (Forall_app _ ks (l ++ l')), (Forall_app _ (l ++ l') ks). tauto.
Qed.
(** Such a growing call is always accepted and keeps the solutions (see C39_propagate_new).  Partial: same margins. *)
Theorem C77_grows_partial : forall p N B ks g l g1 k, room N B -> history p N B ks g -> Forall (good N B) l -> grown p g l g1 ->
  good N B k -> ~ inside g1 k -> k_from k <> k_to k ->
  exists g2, g_propagate p g1 k = Ret (g2, Propagated) /\ g_size g2 = Z.max (k_from k) (k_to k) + 1 /\ grown p g (l ++ [k]) g2.
Proof.
  intros p N B ks g l g1 k R H G Gr Gk O D. pose proof (history_inv _ _ _ _ _ R H) as I.
  assert (LN : N <= 65535) by apply R. pose proof (inv_cells _ _ _ _ R I) as V.
  assert (Fl : Forall kvalid l) by (eapply Forall_impl; [|exact G]; intros x Gx; eapply good_valid; eauto).
  assert (E : ofold (g_insert p) g l = Ret g1).
  { apply grown_inserts; auto; try apply I. eapply Forall_impl; [|exact G]. intros x Gx. split; [eapply good_valid; eauto|apply Gx]. }
  destruct (inserted_ok p l g (i_mem _ _ _ _ I) (i_clean _ _ _ _ I) V Fl) as (g1' & E' & M1 & C1 & S1 & V1 & _).
  rewrite E in E'. inv E'. assert (Kk : kvalid k) by (eapply good_valid; eauto).
  destruct (insert_one p g1' k M1 C1 V1 Kk) as (g2 & E2 & M2 & C2 & V2 & S2).
  assert (P : g_propagate p g1' k = Ret (g2, Propagated)).
  { rewrite grow_insert; auto; [rewrite E2; reflexivity|apply Gk]. }
  exists g2. split; auto. split; [unfold inside in O; lia|].
  clear - Gr P O D. induction Gr; cbn; econstructor; eauto. constructor.
Qed.

Lemma gq_grown : grown Debug g_default [k01; k12] gq.
Proof.
  eapply gr_cons with (g1 := h3a); [unfold inside; cbn; lia|cbn; lia|vm_compute; reflexivity|].
  eapply gr_cons with (g1 := gq); [unfold inside; cbn; lia|cbn; lia|vm_compute; reflexivity|]. constructor.
Qed.
Lemma k_good : good 3 10 k01 /\ good 3 10 k12.
Proof. unfold good, wf_iv, within, k01, k12; simpl; unfold oo; lia. Qed.
Lemma gq_loose : ~ minimal Debug gq.
Proof.
  intros Mi. destruct (Mi 0 2) as (iv & E & X); [simpl; lia|simpl; lia|]. vm_compute in E. injection E as <-.
  destruct (X 11) as (t & S & D); [unfold In_ext; auto|]. apply gq_sol in S. destruct S as ((A1 & A2) & (B1 & B2)).
  simpl in *. unfold oo in *. lia.
Qed.
(** The graph of C40_growth_refuted is completed by an empty [extend] of unknown length. *)
Example C77_case : room 3 10 /\ history Debug 3 10 [] g_default /\ grown Debug g_default [k01; k12] gq /\
  Forall (good 3 10) [k01; k12] /\ g_extend Debug gq None [] = Ret (h3, Propagated) /\
  g_timespan Debug gq 0 2 = Ret (mkI (- oo) oo) /\ g_timespan Debug h3 0 2 = Ret (mkI 12 18).
Proof.
  split; [exact room3|]. split; [eapply h_new with (n := 0); [lia|reflexivity]|]. split; [exact gq_grown|].
  split; [repeat apply Forall_cons; try apply Forall_nil; apply k_good|]. repeat split; vm_compute; reflexivity.
Qed.
(** An iterator which announces no constraint, or one, completes nothing: the graph stays as it is, or the only constraint
    is propagated alone. *)
Theorem C77_short_refuted : exists p g, grown p g_default [k01; k12] g /\ ~ minimal p g /\
  g_extend p g (Some 0) [] = Ret (g, Unchanged) /\ g_extend p g (Some 1) [k01] = Ret (g, Unchanged).
Proof.
  exists Debug, gq. split; [exact gq_grown|]. split; [exact gq_loose|]. split; vm_compute; reflexivity.
Qed.
