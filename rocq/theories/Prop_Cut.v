(** C98: removing instants, and going on. *)
From Verif Require Import Machine TimeValue Interval Spec SpecSets Tac TimeValueProofs Graph
  MaxPlus FwBound GraphProofs GraphOps GraphGrow GraphSafe GraphMem GraphHist GraphTight SpecGraph
  GraphInv GraphSound GraphCalls GraphIter Prop_Graph Prop_Propagation Prop_GraphIter.

(** ** Helpers *)

Lemma good_mono : forall N B B' k, B <= B' -> good N B k -> good N B' k.
Proof. intros N B B' k L G. unfold good, within in *. intuition lia. Qed.
Lemma good_all : forall N B B' ks, B <= B' -> Forall (good N B) ks -> Forall (good N B') ks.
Proof. intros N B B' ks L. apply Forall_impl. intros k. apply good_mono; auto. Qed.
(** Smaller bounds are within larger ones. *)
Lemma history_mono : forall p N B B' ks g, B <= B' -> history p N B ks g -> history p N B' ks g.
Proof.
  intros p N B B' ks g L H.
  induction H as [n g Ln E|ks g k g' r H IH G In E A|ks g k g' r H IH G In Nft Ff Fu E A|ks g k g' H IH G In E
    |ks g hint ks' g' r H IH G H0 H1 E A|ks g m g' H IH Lm E|ks g g' H IH E
    |ks g g' H IH E F|ks g m g' ks' H IH Lm E Rp G|ks g ks' h g' r H IH H' IH' E A].
  - eapply h_new; eauto.
  - eapply h_propagate; eauto. eapply good_mono; eauto.
  - eapply h_attach; eauto. eapply good_mono; eauto.
  - eapply h_refused; eauto. eapply good_mono; eauto.
  - eapply h_extend; eauto. eapply good_all; eauto.
  - eapply h_grow; eauto.
  - eapply h_reset; eauto.
  - eapply h_shrink; eauto.
  - eapply h_cut; eauto. eapply good_all; eauto.
  - eapply h_merge; eauto.
Qed.

(** ** C98 *)

(** The items of the iterator on what remains are such constraints; they have bounds at most
    N times larger. *)
Theorem C98_reported_partial : forall p N B ks g m, room N B -> history p N B ks g -> 0 <= m <= g_size g ->
  exists g' l its, g_resize p g m = Ret g' /\ g_iter p g' = Ret l /\ items p g' l = Ret its /\
    reported p g' its /\ Forall (good N (N * B)) its /\ history p N (Z.max B (N * B)) its g'.
Proof.
  intros p N B ks g m R H Hm. pose proof (history_inv _ _ _ _ _ R H) as I. pose proof (i_mem _ _ _ _ I) as M.
  pose proof M as ((S0 & S1) & _). pose proof (i_size _ _ _ _ I) as SN.
  destruct (resize_ok p g m S0 ltac:(lia)) as (g' & E & S & M' & _ & _ & _ & C).
  assert (C' : forall a b, node m a -> node m b -> cell g' a b = cell g a b).
  { intros a b Na Nb. apply C; auto. unfold node in *. lia. }
  assert (NN : forall a, node m a -> node (g_size g) a) by (unfold node; lia).
  assert (St : stored g') by (apply stored_mem; auto).
  destruct (C47_exact p g' St) as (l & El & Hl & _).
  destruct (C47_items p g' l St El) as (its & Ei & Li & Hi).
  pose proof (inv_bnd _ _ _ _ R I) as Bd. pose proof (inv_finite _ _ _ _ R I) as (V & Bo).
  pose proof R as (B0 & _).
  assert (LB : (g_size g - 1) * B <= N * B) by (apply Z.mul_le_mono_nonneg_r; lia).
  assert (G : Forall (good N (N * B)) its).
  { apply Forall_forall. intros k Hk. apply Hi in Hk. destruct Hk as (Lk & (Nf & Nt & _) & Ek & Tk).
    rewrite timespan_ok in Tk by auto. injection Tk as T1 T2. rewrite S in Nf, Nt.
    rewrite C' in T1, T2 by auto. pose proof (NN _ Nf) as Nf'. pose proof (NN _ Nt) as Nt'.
    split; auto. rewrite <- T1, <- T2.
    pose proof (V _ _ Nf' Nt') as V1. pose proof (V _ _ Nt' Nf') as V2.
    pose proof (Bo _ _ Nf' Nt') as B1. pose proof (Bo _ _ Nt' Nf') as B2.
    pose proof (Bd _ _ Nf' Nt') as D1. pose proof (Bd _ _ Nt' Nf') as D2.
    assert (X : cell g (k_from k) (k_to k) + cell g (k_to k) (k_from k) <= 0 \/
                cell g (k_from k) (k_to k) = - oo \/ cell g (k_to k) (k_from k) = - oo).
    { destruct (inv_consistent p N B ks g I) as (t & Q). rewrite sol_msat in Q by auto.
      pose proof (Q _ _ (cell g (k_from k) (k_to k)) Nf' Nt') as X1.
      pose proof (Q _ _ (cell g (k_to k) (k_from k)) Nt' Nf') as X2. unfold ent in *. lia. }
    split; [unfold wf_iv, valid in *; simpl; lia|]. split; [lia|]. split; [lia|].
    unfold within, bnd in *. split; lia. }
  assert (Rp : reported p g' its).
  { split.
    - apply Forall_forall. intros k Hk. apply Hi in Hk. destruct Hk as (Lk & (Nf & Nt & _) & Ek & Tk).
      split; [lia|]. split; [unfold inside; lia|]. rewrite Tk. auto.
    - intros i j Hn Hj. destruct (Z.eq_dec (cell g' i j) (- oo)) as [e1|e1], (Z.eq_dec (cell g' j i) (- oo)) as [e2|e2].
      { left. rewrite timespan_ok by (auto; unfold node; lia). rewrite e1, e2. reflexivity. }
      all: right; exists (mkK j i false (cell g' j i) (- cell g' i j)); (split; [|simpl; auto]);
        apply Hi; simpl; (split; [lia|]); (split; [|split; [auto|apply timespan_ok; auto; unfold node; lia]]);
        split; [lia|]; (split; [lia|]); rewrite timespan_ok by (auto; unfold node; lia);
        intros T; injection T as T1 T2; lia. }
  exists g', l, its. split; auto. split; auto. split; auto. split; auto. split; auto.
  eapply h_cut with (ks := ks) (g := g) (m := m); eauto.
  - apply (history_mono p N B); auto. lia.
  - eapply good_all; [|exact G]. lia.
Qed.

(** After the removal of the instants from [m] on, the graphs got by further calls, new instants
    taking the places of the removed ones, are minimal; their solutions are those of the
    further constraints that agree with a solution of the constraints before the removal. *)
Theorem C98_go_on_partial : forall p N B ks g m g' ks' l g2, room N B -> history p N B ks g ->
  0 <= m <= g_size g -> g_resize p g m = Ret g' -> reported p g' ks' -> Forall (good N B) ks' ->
  history p N B (l ++ ks') g2 ->
  minimal p g2 /\ (exists t, solution p g2 t) /\
  forall t, solution p g2 t <->
    (exists t', Forall (fun k => sat k t') ks /\ forall i, 0 <= i < m -> t' i = t i) /\ Forall (fun k => sat k t) l.
Proof.
  intros p N B ks g m g' ks' l g2 R H Hm E Rp G H2.
  destruct (C40_solutions_partial p N B (l ++ ks') g2 (fun _ => 0) R H2) as (_ & Mi & Ex).
  split; auto. split; auto. intros t.
  destruct (C40_solutions_partial p N B (l ++ ks') g2 t R H2) as (Q & _). rewrite Q, Forall_app.
  assert (H' : history p N B ks' g') by (apply (h_cut p N B ks g m); auto).
  pose proof (history_inv _ _ _ _ _ R H') as I'.
  destruct (C40_solutions_partial p N B ks' g' t R H') as (Q' & _). rewrite <- Q'.
  destruct (C50_resize_partial p N B ks g m R H Hm) as (g3 & E3 & _ & _ & _ & Pr).
  rewrite E in E3. injection E3 as <-. rewrite Pr. split.
  - intros (F & t' & S & Ag). split; auto. exists t'. split; auto.
    apply (C40_solutions_partial p N B ks g t' R H). auto.
  - intros ((t' & S & Ag) & F). split; auto. exists t'. split; auto.
    apply (C40_solutions_partial p N B ks g t' R H). auto.
Qed.

(** ** Example *)

(** t2-t0 in [5,10] and t1-t2 in [7,8]; instant 2 is removed, and t1-t0 in [12,18], which was
    not given, remains; then a new instant 2 with t2-t1 in [1,2]. *)
Definition cut_ks : list kons := [mkK 0 2 false 5 10; mkK 2 1 false 7 8].
Definition cut3 : graph := mkG 3 [0; - 18; 0; 12; - 10; 7; 0; - 8; 5].
Definition cut2 : graph := mkG 2 [0; - 18; 0; 12].
Definition cut_new : graph := mkG 3 [0; - 18; 0; 12; - 20; - 2; 0; 1; 13].
Lemma cut3_history : forall p, history p 3 20 cut_ks cut3.
Proof.
  intros p. apply (h_extend p 3 20 [] g_default None cut_ks cut3 Propagated).
  - apply (h_new p 3 20 0); [lia|destruct p; vm_compute; reflexivity].
  - repeat (constructor; [unfold good, wf_iv, within, oo; simpl; lia|]). constructor.
  - simpl. auto.
  - discriminate.
  - destruct p; vm_compute; reflexivity.
  - right. auto.
Qed.
Example C98_case : forall p, room 3 20 /\ history p 3 20 cut_ks cut3 /\ g_resize p cut3 2 = Ret cut2 /\
  reported p cut2 [mkK 0 1 false 12 18] /\ Forall (good 3 20) [mkK 0 1 false 12 18] /\
  history p 3 20 ([mkK 1 2 false 1 2] ++ [mkK 0 1 false 12 18]) cut_new /\
  g_timespan p cut_new 0 2 = Ret (mkI 13 20).
Proof.
  intros p. split; [unfold room, oo; lia|]. split; [apply cut3_history|].
  assert (E : g_resize p cut3 2 = Ret cut2) by (destruct p; vm_compute; reflexivity). split; [exact E|].
  assert (Rp : reported p cut2 [mkK 0 1 false 12 18]).
  { split.
    - constructor; [|constructor]. split; [simpl; lia|]. split; [unfold inside; simpl; lia|]. destruct p; vm_compute; reflexivity.
    - intros i j Hi Hj. simpl in Hi. right. exists (mkK 0 1 false 12 18). split; [left; auto|]. simpl. lia. }
  assert (G : Forall (good 3 20) [mkK 0 1 false 12 18]).
  { constructor; [unfold good, wf_iv, within, oo; simpl; lia|constructor]. }
  split; [exact Rp|]. split; [exact G|]. split.
  - apply (h_extend p 3 20 [mkK 0 1 false 12 18] cut2 None [mkK 1 2 false 1 2] cut_new Propagated).
    + apply (h_cut p 3 20 cut_ks cut3 2); auto; [apply cut3_history|simpl; lia].
    + constructor; [unfold good, wf_iv, within, oo; simpl; lia|constructor].
    + simpl. auto.
    + discriminate.
    + destruct p; vm_compute; reflexivity.
    + right. auto.
  - destruct p; vm_compute; reflexivity.
Qed.
