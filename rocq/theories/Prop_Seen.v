(** Margins observed on the graph (property C105): what C40 to C42 and C54, C56 say with
    margins that shrink with the number of instants holds for any number of instants as long
    as the intervals that the graph reports are bounded. *)
From Verif Require Import Machine TimeValue Spec Tac TimeValueProofs Interval Iter TimeSet Relns
  Transl SpecSets SetProofs CollectProofs Prop_Interval SetOpsProofs Prop_TimeSet Prop_Transl SchedSets
  Graph MaxPlus FwBound GraphProofs GraphOps GraphFits GraphGrow GraphSafe GraphMem GraphHist GraphTight
  SpecGraph GraphSound GraphMono GraphInv GraphIter Prop_Graph
  Prop_Propagation Prop_GraphIter Scheduler SpecSched SchedProofs SchedBox SchedConv Prop_Scheduler
  Prop_SchedConvex.

(** ** Specification *)

(** The bounds of the reported intervals are infinite or at most [C] in absolute value. *)
Definition seen (p : profile) (C : Z) (g : graph) : Prop :=
  forall i j, 0 <= i < g_size g -> 0 <= j < g_size g -> exists iv, g_timespan p g i j = Ret iv /\
    (lower iv = - oo \/ Z.abs (lower iv) <= C) /\ (upper iv = oo \/ Z.abs (upper iv) <= C).

(** The graphs got from those of the histories by calls during which the reported intervals
    stay bounded by [C], and the constraints given so far.  [extend], [merge] and a first
    constraint on new instants are given bounds with the margins of [room] for the reported
    intervals and the new constraints.  As in the histories, when [resize] removes instants
    the reported intervals take the place of the constraints. *)
Inductive watched (p : profile) (C : Z) : list kons -> graph -> Prop :=
| w_history N B ks g : room N B -> history p N B ks g -> watched p C ks g
| w_propagate ks g k g' r : watched p C ks g -> seen p C g -> good (g_size g) C k ->
    g_propagate p g k = Ret (g', r) -> accepted r -> watched p C (k :: ks) g'
| w_refused ks g k g' : watched p C ks g -> seen p C g -> good (g_size g) C k ->
    g_propagate p g k = Ret (g', Recovered) -> watched p C ks g'
| w_attach ks g N B k g' r : watched p C ks g -> room N B -> g_size g <= N -> seen p B g ->
    good N B k -> ~ inside g k -> k_from k <> k_to k -> fresh ks (k_from k) -> fresh ks (k_to k) ->
    g_propagate p g k = Ret (g', r) -> accepted r -> watched p C (k :: ks) g'
| w_extend ks g N B hint ks' g' r : watched p C ks g -> room N B -> g_size g <= N -> seen p B g ->
    Forall (good N B) ks' ->
    (hint <> Some 0 /\ hint <> Some 1 \/ honest hint ks' /\ (hint = Some 1 -> Forall (inside g) ks')) ->
    g_extend p g hint ks' = Ret (g', r) -> accepted r -> watched p C (ks' ++ ks) g'
| w_grow ks g m g' : watched p C ks g -> g_size g <= m <= 65535 -> g_resize p g m = Ret g' ->
    watched p C ks g'
| w_reset ks g g' : watched p C ks g -> g_reset p g = Ret g' -> watched p C [] g'
| w_shrink ks g g' : watched p C ks g -> g_shrink_to_fit p g = Ret g' -> watched p C ks g'
| w_cut ks g m g' ks' : watched p C ks g -> 0 <= m <= g_size g -> g_resize p g m = Ret g' ->
    reported p g' ks' -> Forall (fun k => 0 <= k_from k /\ 0 <= k_to k) ks' -> watched p C ks' g'
| w_merge ks g ks' h N B g' r : watched p C ks g -> watched p C ks' h -> room N B ->
    g_size g <= N -> g_size h <= N -> seen p B g -> seen p B h ->
    g_merge p g h = Ret (g', r) -> accepted r -> watched p C (ks ++ ks') g'.

(** ** Proofs *)

Lemma seen_bnd p C g : mem_ok g -> seen p C g -> all_bnd (g_size g) C (cell g).
Proof.
  intros M S i j Ni Nj. destruct (S i j Ni Nj) as (iv & E & L & _).
  rewrite timespan_ok in E by auto. injection E as <-. simpl in L. unfold bnd. lia.
Qed.
Lemma bnd_seen p C g : mem_ok g -> all_bnd (g_size g) C (cell g) -> seen p C g.
Proof.
  intros M B i j Ni Nj. eexists. split; [apply timespan_ok; auto|]. simpl.
  pose proof (B i j Ni Nj) as X. pose proof (B j i Nj Ni) as Y. unfold bnd in *. lia.
Qed.
Lemma min_diag p g : mem_ok g -> minimal p g -> (exists t, solution p g t) -> zero_diag (g_size g) (cell g).
Proof.
  intros M Mn (t & S) i Ni. destruct (Mn i i Ni Ni) as (iv & E & H). rewrite timespan_ok in E by auto.
  injection E as <-. destruct (Z.eq_dec (cell g i i) (- oo)) as [e|e].
  - destruct (H 1) as (u & _ & U); [|lia]. rewrite e. split; simpl; left; lia.
  - apply sol_msat in S; auto. specialize (S i i (cell g i i) Ni Ni ltac:(split; auto; lia)).
    destruct (H (cell g i i)) as (u & _ & U); [|lia]. split; simpl; lia.
Qed.
Lemma seen_closed p C g : stored g -> minimal p g -> (exists t, solution p g t) -> seen p C g -> C < oo ->
  closed (g_size g) (cell g).
Proof.
  intros M Mn S Se L. pose proof (seen_bnd _ _ _ M Se) as B.
  apply (min_closed p); auto; [apply (min_diag p); auto|..];
    intros i j Ni Nj; pose proof (B i j Ni Nj) as X; unfold bnd, valid in *; assert (O : 0 < oo) by reflexivity; lia.
Qed.
Lemma closed_min_any p g : mem_ok g -> closed (g_size g) (cell g) -> minimal p g.
Proof.
  intros M C i j Ni Nj. eexists. split; [apply timespan_ok; auto|].
  intros v (L & U). simpl in *.
  destruct (closed_minimal (g_size g) (cell g) i j v C Ni Nj) as (t & S & E).
  - intros w (X & Y). lia.
  - intros w (X & Y). lia.
  - exists t. split; auto. apply sol_msat; auto.
Qed.
Lemma closed_sol p g : mem_ok g -> closed (g_size g) (cell g) -> exists t, solution p g t.
Proof.
  intros M C. destruct (closed_consistent (g_size g) (cell g) C) as (t & S). exists t. apply sol_msat; auto.
Qed.
Lemma closed_tight n D : closed n D -> tight n (medge n D) D.
Proof.
  intros C. split; auto. split.
  - intros i j w (Ni & Nj & F & ->). repeat split; auto; try apply Ni; try apply Nj. lia.
  - intros i j c Ni Nj (F & L). exists [], (D i j). split; auto. constructor. left. unfold medge. auto.
Qed.
Lemma closed_propagate p C g k : mem_ok g -> closed (g_size g) (cell g) -> all_bnd (g_size g) C (cell g) ->
  good (g_size g) C k -> 3 * C < oo ->
  exists g' r, g_propagate p g k = Ret (g', r) /\ same_shape g g' /\
    ((r = Unchanged /\ g' = g /\ implied_by (cell g) k) \/
     (r = Recovered /\ g' = g /\ contradicts (cell g) k) \/
     (r = Propagated /\ ~ implied_by (cell g) k)) /\
    (accepted r -> closed (g_size g) (cell g') /\ all_bnd (g_size g) (3 * C) (cell g') /\
      forall t, msat (g_size g) (cell g') t <-> msat (g_size g) (cell g) t /\ ksat k t).
Proof.
  intros M Cl B G L. pose proof G as (Ek & W & Hf & Ht & _). pose proof Cl as (Z0 & T).
  assert (Nf : node (g_size g) (k_from k)) by (unfold node; lia).
  assert (Nt : node (g_size g) (k_to k)) by (unfold node; lia).
  assert (C0 : 0 <= C).
  { pose proof (B _ _ Nf Nf) as X. rewrite (Z0 _ Nf) in X. unfold bnd, oo in X. lia. }
  assert (Kb : kbnd C k) by (eapply good_bnd; eauto).
  destruct (propagate_fits p g k) as (g' & r & E & Sh & H & X); auto.
  { apply (low_bnd _ C); auto. assert (O : 0 < oo) by reflexivity. lia. }
  { intros NC. split; [apply (third_first _ C); auto|apply (third_second _ C); auto]. }
  exists g', r. split; auto. split; auto. split; [tauto|]. intros A.
  assert (N : r <> Recovered) by (destruct A; congruence).
  destruct (X N) as (Cl' & _ & Ms & Q). split; auto. split; auto. intros a b Na Nb.
  rewrite Q by auto. apply (whole_bnd (g_size g)); auto.
Qed.
(** The finite cells of a graph as constraints: what the invariants of the histories say about
    the constraints of a history holds for them. *)
Definition cells_of (g : graph) : list kons :=
  flat_map (fun i => flat_map (fun j => if (i =? j) || (cell g i j =? - oo) then [] else [mkK i j false (cell g i j) oo])
    (map Z.of_nat (seq 0 (Z.to_nat (g_size g))))) (map Z.of_nat (seq 0 (Z.to_nat (g_size g)))).
Lemma cells_of_in g k : 0 <= g_size g -> (In k (cells_of g) <-> exists i j, node (g_size g) i /\ node (g_size g) j /\
  i <> j /\ cell g i j <> - oo /\ k = mkK i j false (cell g i j) oo).
Proof.
  intros S0. assert (N : forall i, In i (map Z.of_nat (seq 0 (Z.to_nat (g_size g)))) <-> node (g_size g) i).
  { intros i. rewrite in_map_iff. unfold node. split.
    - intros (x & <- & I). apply in_seq in I. lia.
    - intros H. exists (Z.to_nat i). split; [lia|]. apply in_seq. lia. }
  unfold cells_of. rewrite in_flat_map. split.
  - intros (i & Ni & I). apply in_flat_map in I. destruct I as (j & Nj & I). apply N in Ni, Nj.
    destruct ((i =? j) || (cell g i j =? - oo)) eqn:T; [destruct I|]. destruct I as [<-|[]].
    exists i, j. repeat split; try apply Ni; try apply Nj; lia.
  - intros (i & j & Ni & Nj & Nij & F & ->). exists i. split; [apply N; auto|]. apply in_flat_map.
    exists j. split; [apply N; auto|]. replace ((i =? j) || (cell g i j =? - oo)) with false by lia. left. auto.
Qed.
Lemma cells_of_edges g i j w : 0 <= g_size g -> (kedges (cells_of g) i j w <->
  i <> j /\ medge (g_size g) (cell g) i j w).
Proof.
  intros S0. unfold kedges, medge. split.
  - intros (k & I & E). apply cells_of_in in I; auto. destruct I as (a & b & Na & Nb & Nab & F & ->).
    destruct E as [(-> & -> & -> & _)|(_ & _ & _ & E)]; [|simpl in E; congruence]. simpl. repeat split; auto; try apply Na; try apply Nb.
  - intros (Nij & Ni & Nj & F & ->). exists (mkK i j false (cell g i j) oo). split.
    + apply cells_of_in; auto. exists i, j. auto.
    + left. simpl. auto.
Qed.
Record winv (ks : list kons) (g : graph) : Prop := {
  wi_mem : mem_ok g; wi_clean : clean g; wi_closed : closed (g_size g) (cell g);
  wi_sat : forall t, msat (g_size g) (cell g) t <-> Forall (fun k => sat k t) ks }.
Lemma winv_inv N B ks g : winv ks g -> room N B -> g_size g <= N -> all_bnd (g_size g) B (cell g) ->
  inv N B (cells_of g) g.
Proof.
  intros I R Sn Bn. assert (S0 : 0 <= g_size g) by apply I. pose proof R as (B0 & RN & RL).
  destruct (room_lin N B 0 R ltac:(lia)) as (_ & Bo). assert (O : 0 < oo) by reflexivity.
  constructor; try apply I; auto.
  - apply Forall_forall. intros k Ik. apply cells_of_in in Ik; auto. destruct Ik as (i & j & Ni & Nj & Nij & F & ->).
    pose proof (Bn i j Ni Nj) as X. unfold good, wf_iv, within, bnd, node in *. cbn [k_empty k_from k_to k_lo k_up lower upper].
    repeat split; lia.
  - apply Forall_forall. intros k Ik. apply cells_of_in in Ik; auto. destruct Ik as (i & j & Ni & Nj & Nij & F & ->).
    unfold inside, node in *. simpl. lia.
  - destruct (closed_tight _ _ (wi_closed _ _ I)) as (T1 & T2 & T3). split; auto. split.
    + intros i j w E. apply T2. apply cells_of_edges in E; auto. apply E.
    + intros i j c Ni Nj E. destruct (Z.eq_dec i j) as [<-|Nij].
      * exists [], 0. split; [constructor; right; auto|]. destruct E as (_ & E). rewrite (proj1 T1) in E by auto. lia.
      * exists [], (cell g i j). destruct E as (F & E). split; auto. constructor. left.
        apply cells_of_edges; auto. split; auto. unfold medge. auto.
Qed.
Lemma inv_winv N B ks ks' g : inv N B ks g -> (forall t, msat (g_size g) (cell g) t <-> Forall (fun k => sat k t) ks') ->
  winv ks' g.
Proof. intros I S. constructor; auto; apply I. Qed.
Lemma winv_lone ks g f : winv ks g -> fresh ks f -> node (g_size g) f -> lone (g_size g) (cell g) f.
Proof.
  intros I F Nf i Ni Nif. destruct (closed_consistent _ _ (wi_closed _ _ I)) as (t & S).
  assert (SH : forall d, msat (g_size g) (cell g) (upd t f d)).
  { intros d. apply (wi_sat _ _ I). apply (wi_sat _ _ I) in S.
    unfold fresh in F. rewrite Forall_forall in *. intros k Ik. specialize (S k Ik). specialize (F k Ik).
    unfold sat, upd in *. replace (k_to k =? f) with false by lia.
    replace (k_from k =? f) with false by lia. auto. }
  split.
  - destruct (Z.eq_dec (cell g i f) (- oo)) as [|e]; auto. exfalso.
    specialize (SH (cell g i f + t i - 1) i f (cell g i f) Ni Nf (conj e (Z.le_refl _))). unfold upd in SH.
    rewrite Z.eqb_refl in SH. replace (i =? f) with false in SH by lia. lia.
  - destruct (Z.eq_dec (cell g f i) (- oo)) as [|e]; auto. exfalso.
    specialize (SH (t i - cell g f i + 1) f i (cell g f i) Nf Ni (conj e (Z.le_refl _))). unfold upd in SH.
    rewrite Z.eqb_refl in SH. replace (i =? f) with false in SH by lia. lia.
Qed.
Lemma winv_fresh ks g f : winv ks g -> fresh ks f -> fresh (cells_of g) f.
Proof.
  intros I F. assert (S0 : 0 <= g_size g) by apply I. apply Forall_forall. intros k Ik. apply cells_of_in in Ik; auto.
  destruct Ik as (i & j & Ni & Nj & Nij & Fi & ->). simpl. split; intros ->.
  - destruct (winv_lone ks g f I F Ni j Nj) as (_ & Q); auto.
  - destruct (winv_lone ks g f I F Nj i Ni) as (Q & _); auto.
Qed.
Lemma cells_of_sat N B ks g t : inv N B (cells_of g) g -> winv ks g ->
  (Forall (fun k => sat k t) (cells_of g) <-> Forall (fun k => sat k t) ks).
Proof.
  intros I W. rewrite <- (wi_sat _ _ W). rewrite (tight_msat _ _ _ t (i_tight _ _ _ _ I)). symmetry. apply kedges_sat.
Qed.
Lemma winv_shrink p ks g g' : winv ks g -> g_shrink_to_fit p g = Ret g' -> winv ks g'.
Proof.
  intros I E. destruct (shrink_ok p g (wi_mem _ _ I)) as (m & E2 & L & C & _).
  rewrite E in E2. injection E2 as ->. pose proof (wi_closed _ _ I) as (Z0 & Tr).
  assert (X : extends m (cell g) (g_size g) (cell g)).
  { intros a b Na Nb. destruct ((a <? m) && (b <? m)) eqn:T; auto. destruct (a =? b) eqn:T2.
    - assert (a = b) by lia. subst. auto.
    - unfold node in *. destruct (Z.eq_dec (cell g a b) (- oo)) as [|e]; auto. exfalso.
      destruct (Z_lt_le_dec a b) as [l|l]; [apply (C b)|apply (C a)]; try lia; [exists a|exists b]; split; auto; lia. }
  constructor; cbn [g_size].
  - destruct (wi_mem _ _ I) as (M1 & M2). split; simpl; [lia|]. nia.
  - apply clean_shrink; auto; [|apply I]. intros i Hi. split; [apply C; auto|]. rewrite Z0; [lia|]. unfold node. lia.
  - change (cell (mkG m (g_data g))) with (cell g). split.
    + intros i Ni. apply Z0. unfold node in *. lia.
    + intros i k j a b Ni Nk Nj. apply Tr; unfold node in *; lia.
  - intros t. change (cell (mkG m (g_data g))) with (cell g).
    rewrite <- (extends_msat _ _ _ _ t X) by lia. apply I.
Qed.
Lemma winv_cut p ks g m g' ks' : winv ks g -> 0 <= m <= g_size g -> g_resize p g m = Ret g' ->
  reported p g' ks' -> Forall (fun k => 0 <= k_from k /\ 0 <= k_to k) ks' -> winv ks' g'.
Proof.
  intros I Hm E (Rk & Ra) Po. pose proof (wi_mem _ _ I) as M. pose proof M as ((S0 & S1) & _).
  destruct (resize_ok p g m S0 ltac:(lia)) as (g2 & E2 & S & M' & Cl2 & _ & _ & C).
  rewrite E in E2. injection E2 as <-.
  assert (C' : forall a b, node m a -> node m b -> cell g' a b = cell g a b).
  { intros a b Na Nb. apply C; auto. unfold node in *. lia. }
  assert (NN : forall a, node m a -> node (g_size g) a) by (unfold node; lia).
  pose proof (wi_closed _ _ I) as (Zd & Tr).
  assert (Cl' : closed m (cell g')).
  { split.
    - intros i Ni. rewrite C' by auto. auto.
    - intros i k j a b Ni Nk Nj. unfold ent. rewrite !C' by auto. apply Tr; auto. }
  assert (Fin : forall k, In k ks' -> node m (k_from k) /\ node m (k_to k) /\
    k_lo k = cell g' (k_from k) (k_to k) /\ - k_up k = cell g' (k_to k) (k_from k)).
  { intros k Ik. rewrite Forall_forall in Rk, Po. destruct (Rk k Ik) as (_ & (I1 & I2) & T).
    destruct (Po k Ik) as (Hf & Ht). rewrite S in *.
    assert (Nf : node m (k_from k)) by (unfold node; lia). assert (Nt : node m (k_to k)) by (unfold node; lia).
    rewrite timespan_ok in T by (auto; rewrite S; auto). injection T as T1 T2. split; auto. split; auto. lia. }
  constructor; auto; [rewrite S; auto|]. rewrite S. intros t. rewrite Forall_forall. split.
  - intros St k Ik. destruct (Fin k Ik) as (Nf & Nt & L & U). unfold sat, In_ext. cbn [lower upper].
    pose proof (St _ _ (cell g' (k_from k) (k_to k)) Nf Nt) as A.
    pose proof (St _ _ (cell g' (k_to k) (k_from k)) Nt Nf) as B. unfold ent in A, B. lia.
  - intros St i j w Ni Nj En. destruct (Z.eq_dec i j) as [->|Nij].
    + destruct En as (_ & En). rewrite (proj1 Cl') in En by auto. lia.
    + assert (K : exists k, In k ks' /\ (k_from k = i /\ k_to k = j \/ k_from k = j /\ k_to k = i)).
      { destruct (Z_lt_le_dec j i) as [L|L].
        - destruct (Ra i j) as [T|(k & Ik & H)]; try (unfold node in *; lia).
          + rewrite timespan_ok in T by (auto; rewrite S; auto). injection T as T1 T2. destruct En; congruence.
          + exists k. split; [exact Ik|lia].
        - destruct (Ra j i) as [T|(k & Ik & H)]; try (unfold node in *; lia).
          + rewrite timespan_ok in T by (auto; rewrite S; auto). injection T as T1 T2. destruct En as (En & _). destruct En. lia.
          + exists k. split; [exact Ik|lia]. }
      destruct K as (k & Ik & H). destruct (Fin k Ik) as (Nf & Nt & L & U). destruct En as (En & Lc).
      specialize (St k Ik). unfold sat, In_ext in St. cbn [lower upper] in St.
      destruct H as [(<- & <-)|(<- & <-)]; lia.
Qed.
(** [merge] of two such graphs *)
Lemma winv_merge p N B ks g ks' h : room N B -> g_size g <= N -> g_size h <= N ->
  winv ks g -> winv ks' h -> seen p B g -> seen p B h ->
  exists g' r, g_merge p g h = Ret (g', r) /\
    ((accepted r /\ g_size g' = Z.max (g_size g) (g_size h) /\ winv (ks ++ ks') g' /\ (r = Unchanged -> g' = g)) \/
     (r = Fatal /\ forall t, ~ (msat (g_size g) (cell g) t /\ msat (g_size h) (cell h) t))).
Proof.
  intros R Sn Sn' I I' Se Se'.
  pose proof (winv_inv N B ks g I R Sn (seen_bnd _ _ _ (wi_mem _ _ I) Se)) as J.
  pose proof (winv_inv N B ks' h I' R Sn' (seen_bnd _ _ _ (wi_mem _ _ I') Se')) as J'.
  destruct (merge_inv p N B _ g _ h R J J') as (g' & r & E & X). exists g', r. split; auto.
  destruct X as [(A & Sz & K & Ms & U)|(-> & _ & X)]; [left|right; auto].
  split; auto. split; auto. split; auto. apply (inv_winv N B _ _ _ K).
  intros t. rewrite Ms, (wi_sat _ _ I), (wi_sat _ _ I'), Forall_app. tauto.
Qed.
Lemma watched_inv p C ks g : 3 * C < oo -> watched p C ks g -> winv ks g.
Proof.
  intros L. induction 1 as [N B ks g R H|ks g k g' r H IH Se G E A|ks g k g' H IH Se G E
    |ks g N B k g' r H IH R Sn Se G NI Nft Ff Fu E A|ks g N B hint ks' g' r H IH R Sn Se G H0 E A
    |ks g m g' H IH Hm E|ks g g' H IH E|ks g g' H IH E|ks g m g' ks' H IH Hm E Rp Po
    |ks g ks' h N B g' r H IH H' IH' R Sn Sn' Se Se' E A].
  - pose proof (history_inv _ _ _ _ _ R H) as I. constructor; try apply I. intros t.
    rewrite <- (sol_msat p) by apply I. apply (C40_solutions_partial p N B ks g t R H).
  - pose proof (seen_bnd _ _ _ (wi_mem _ _ IH) Se) as B.
    destruct (closed_propagate p C g k) as (g2 & r2 & E2 & Sh & _ & X); auto; try apply IH.
    rewrite E in E2. injection E2 as <- <-. destruct (X A) as (Cl & _ & Ms).
    assert (Sz : g_size g' = g_size g) by apply Sh. constructor.
    + eapply same_shape_mem; eauto. apply IH.
    + apply (clean_shape g); auto; apply IH.
    + rewrite Sz. auto.
    + intros t. rewrite Sz, Ms, (wi_sat _ _ IH), Forall_cons_iff. unfold ksat, sat. tauto.
  - pose proof (seen_bnd _ _ _ (wi_mem _ _ IH) Se) as B.
    destruct (closed_propagate p C g k) as (g2 & r2 & E2 & _ & X & _); auto; try apply IH.
    rewrite E in E2. injection E2 as <- <-. destruct X as [(X & _)|[(_ & -> & _)|(X & _)]]; try discriminate. auto.
  - pose proof (winv_inv N B ks g IH R Sn (seen_bnd _ _ _ (wi_mem _ _ IH) Se)) as J.
    pose proof (winv_fresh ks g _ IH Ff) as F1. pose proof (winv_fresh ks g _ IH Fu) as F2.
    destruct (attach_inv p N B (cells_of g) g k) as (g2 & E2 & Sz & K); auto; try apply R. rewrite E in E2. injection E2 as <- ->.
    apply (inv_winv N B _ _ _ K). intros t. rewrite (tight_msat _ _ _ t (i_tight _ _ _ _ K)).
    rewrite (kedges_sat (k :: cells_of g) t), !Forall_cons_iff.
    pose proof (cells_of_sat N B ks g t J IH) as X. unfold ksat, sat in *. tauto.
  - destruct H0 as [(H0 & H1)|(H0 & H1)].
    + pose proof (seen_bnd _ _ _ (wi_mem _ _ IH) Se) as Bn. pose proof R as (B0 & RN & RL).
      assert (LN : N <= 65535) by lia.
      assert (S0 : 0 <= g_size g) by apply IH.
      assert (KL : ksize (g_size g) ks' <= N).
      { apply ksize_le; auto. intros k Ik. rewrite Forall_forall in G.
        destruct (G k Ik) as (_ & _ & ? & ? & _). lia. }
      pose proof (ksize_ge ks' (g_size g)) as (KG & _).
      destruct (room_lin N B (ksize (g_size g) ks') R ltac:(lia)) as (_ & Rl).
      assert (Kv : Forall kvalid ks') by (eapply Forall_impl; [|exact G]; intros; eapply good_valid; eauto).
      assert (Kb : Forall (kbnd B) ks') by (eapply Forall_impl; [|exact G]; intros; eapply good_bnd; eauto).
      destruct (extend_tight p g ks' hint (medge (g_size g) (cell g)) B) as (g2 & r2 & E2 & X); auto; try apply IH.
      * apply closed_tight, IH.
      * intros i j w (Ni & Nj & F & ->). pose proof (Bn i j Ni Nj) as Y. unfold bnd in Y. lia.
      * rewrite E in E2. injection E2 as <- <-. destruct X as [(-> & Sz & M' & C' & T & Ms)|(-> & _)];
          [|destruct A as [A|A]; discriminate].
        constructor; auto; [apply T|]. intros t. rewrite Ms, (wi_sat _ _ IH), Forall_app. unfold ksat, sat. tauto.
    + pose proof (winv_inv N B ks g IH R Sn (seen_bnd _ _ _ (wi_mem _ _ IH) Se)) as J.
      destruct (extend_any p N B _ g hint ks' R J G H0 H1) as (g2 & r2 & E2 & X).
      rewrite E in E2. injection E2 as <- <-.
      destruct X as [(_ & _ & K & Ms)|[(_ & -> & _)|(-> & _)]]; [|destruct A; discriminate..].
      apply (inv_winv N B _ _ _ K). intros t. rewrite Ms, (wi_sat _ _ IH), Forall_app. unfold ksat, sat. tauto.
  - destruct (grow_ok p g m (wi_mem _ _ IH) (wi_clean _ _ IH) ltac:(lia)) as (g2 & E2 & S & M & Cl & X).
    rewrite E in E2. injection E2 as <-. constructor; auto.
    + rewrite S. apply (extends_tight _ _ _ _ _ X ltac:(lia) (closed_tight _ _ (wi_closed _ _ IH))).
    + intros t. rewrite S, (extends_msat _ _ _ _ t X) by lia. apply IH.
  - destruct (reset_ok p g (wi_mem _ _ IH)) as (g2 & E2 & S & M & Cl & D & O).
    rewrite E in E2. injection E2 as <-.
    assert (T : tight (g_size g') (fun _ _ _ => False) (cell g')).
    { rewrite S. apply tight_empty; auto. intros i j (? & _) (? & _) e. auto. }
    constructor; auto; [apply T|]. intros t. split; [constructor|]. intros _ i j w Ni Nj X.
    destruct (proj2 (proj2 T) i j w Ni Nj X) as (l & u & Wk & Lu).
    assert (Z1 : forall a l b u, walk (withdiag (g_size g') (fun _ _ _ => False)) a l b u -> a = b /\ u = 0).
    { clear. induction 1 as [i j w Q|i x j l w1 w2 Q H IH]; destruct Q as [[]|(_ & -> & ->)]; [auto|].
      destruct IH as (-> & ->). auto. }
    destruct (Z1 _ _ _ _ Wk) as (-> & ->). lia.
  - eapply winv_shrink; eauto.
  - eapply winv_cut; eauto.
  - destruct (winv_merge p N B ks g ks' h R Sn Sn' IH IH' Se Se') as (g2 & r2 & E2 & X).
    rewrite E in E2. injection E2 as <- <-.
    destruct X as [(_ & _ & X & _)|(-> & _)]; auto. destruct A; discriminate.
Qed.

(** ** C105 *)

(** Such graphs are minimal, and their solutions are the assignments that satisfy all the
    constraints given. *)
(** Partial: the reported intervals are bounded by a third of the time values. *)
Theorem C105_watched_partial : forall p C ks g, 3 * C < oo -> watched p C ks g ->
  stored g /\ minimal p g /\ (exists t, solution p g t) /\
  forall t, solution p g t <-> Forall (fun k => sat k t) ks.
Proof.
  intros p C ks g L H. pose proof (watched_inv p C ks g L H) as I. pose proof (wi_mem _ _ I) as M.
  split; auto. split; [apply closed_min_any; auto; apply I|]. split; [apply closed_sol; auto; apply I|].
  intros t. rewrite sol_msat by auto. apply I.
Qed.

(** One [propagate] on any minimal graph with a solution: it returns; it refuses exactly the
    contradictory constraints and changes nothing exactly for the implied ones; otherwise the
    new graph is minimal and has the solutions that satisfy the constraint. *)
(** Partial: the reported intervals and the constraint are bounded by a third of the time
    values. *)
Theorem C105_propagate_partial : forall p C g k, stored g -> minimal p g -> (exists t, solution p g t) ->
  seen p C g -> 3 * C < oo -> good (g_size g) C k ->
  exists g' r, g_propagate p g k = Ret (g', r) /\ (r = Recovered \/ accepted r) /\
    (r = Recovered <-> forall t, ~ (solution p g t /\ sat k t)) /\
    (r = Unchanged <-> forall t, solution p g t -> sat k t) /\
    (r <> Propagated -> g' = g) /\
    (accepted r -> stored g' /\ g_size g' = g_size g /\ minimal p g' /\ (exists t, solution p g' t) /\
      seen p (3 * C) g' /\ forall t, solution p g' t <-> solution p g t /\ sat k t).
Proof.
  intros p C g k M Mn (t0 & S0) Se L G.
  assert (L1 : C < oo) by (assert (O : 0 < oo) by reflexivity; lia).
  pose proof (seen_closed p C g M Mn ltac:(eauto) Se L1) as Cl.
  pose proof (seen_bnd _ _ _ M Se) as B.
  destruct (closed_propagate p C g k) as (g' & r & E & Sh & X & Y); auto.
  exists g', r. split; auto. assert (Sz : g_size g' = g_size g) by apply Sh.
  pose proof G as (_ & _ & Hf & Ht & _).
  assert (Nf : node (g_size g) (k_from k)) by (unfold node; lia).
  assert (Nt : node (g_size g) (k_to k)) by (unfold node; lia).
  assert (M' : mem_ok g') by (eapply same_shape_mem; eauto; apply M).
  assert (Ac : accepted r -> stored g' /\ g_size g' = g_size g /\ minimal p g' /\ (exists t, solution p g' t) /\
      seen p (3 * C) g' /\ forall t, solution p g' t <-> solution p g t /\ sat k t).
  { intros A. destruct (Y A) as (Cl' & B' & Ms). rewrite <- Sz in Cl', B'. split; [apply M'|]. split; auto.
    split; [apply closed_min_any; auto|]. split; [apply closed_sol; auto|].
    split; [apply bnd_seen; auto|]. intros t. rewrite !sol_msat by auto. rewrite Sz. apply Ms. }
  assert (Imp : implied_by (cell g) k <-> forall t, solution p g t -> sat k t).
  { split.
    - intros Im t St. rewrite sol_msat in St by auto.
      eapply pr_msat in St; [|apply (implied_propagated (g_size g) (cell g) k); auto]. apply St.
    - intros F. eapply closed_implied; eauto. intros t St. apply F. apply sol_msat; auto. }
  assert (Con : contradicts (cell g) k -> forall t, ~ (solution p g t /\ sat k t)).
  { intros Cn t (St & Sk). rewrite sol_msat in St by auto.
    eapply (contradicts_sound (g_size g) (cell g) k t); eauto. }
  split; [destruct X as [(-> & _)|[(-> & _)|(-> & _)]]; unfold accepted; auto|].
  split; [|split; [|split; [|exact Ac]]].
  - destruct X as [(-> & _ & I)|[(-> & _ & I)|(-> & _)]].
    + split; [discriminate|]. intros F. destruct (F t0). split; auto. apply Imp; auto.
    + split; auto.
    + split; [discriminate|]. intros F. destruct Ac as (_ & _ & _ & (t & St) & _ & H); [right; auto|].
      apply H in St. destruct (F t St).
  - destruct X as [(-> & _ & I)|[(-> & _ & I)|(-> & I)]].
    + split; auto. intros _. apply Imp. auto.
    + split; [discriminate|]. intros F. destruct (Con I t0). split; auto.
    + split; [discriminate|]. intros F. destruct I. apply Imp. auto.
  - intros N. destruct X as [(_ & -> & _)|[(_ & -> & _)|(-> & _)]]; auto. congruence.
Qed.

(** [extend] on such graphs, when it computes the closure: it returns; it fails exactly when no
    solution satisfies the constraints. *)
(** Partial: margins for the closure ([room]). *)
Theorem C105_extend_partial : forall p C ks g N B hint ks', 3 * C < oo -> watched p C ks g ->
  room N B -> g_size g <= N -> seen p B g -> Forall (good N B) ks' -> hint <> Some 0 -> hint <> Some 1 ->
  exists g' r, g_extend p g hint ks' = Ret (g', r) /\ (r = Propagated \/ r = Fatal) /\
    (r = Fatal <-> forall t, ~ (solution p g t /\ Forall (fun k => sat k t) ks')) /\
    (r = Propagated -> watched p C (ks' ++ ks) g').
Proof.
  intros p C ks g N B hint ks' L W R Sn Se G H0 H1. pose proof (watched_inv p C ks g L W) as I.
  pose proof (winv_inv N B ks g I R Sn (seen_bnd _ _ _ (wi_mem _ _ I) Se)) as J.
  destruct (extend_inv p N B _ g hint ks' R J G H0 H1) as (g' & r & E & X). exists g', r. split; auto.
  destruct X as [(-> & _ & K & Ms)|(-> & _ & X)].
  - split; auto. split; [split; [discriminate|]|].
    + intros F. destruct (closed_consistent _ _ (proj1 (i_tight _ _ _ _ K))) as (t & S).
      destruct (F t). rewrite sol_msat by apply I. apply Ms. auto.
    + intros _. apply (w_extend p C ks g N B hint ks' g' Propagated); auto. right. auto.
  - split; auto. split; [|discriminate]. split; auto. intros _ t S. apply (X t).
    rewrite sol_msat in S by apply I. auto.
Qed.
(** [merge] of two such graphs: it returns; it fails exactly when the graphs have no common
    solution. *)
(** Partial: margins for the closure ([room]). *)
Theorem C105_merge_partial : forall p C ks g ks' h N B, 3 * C < oo -> watched p C ks g -> watched p C ks' h ->
  room N B -> g_size g <= N -> g_size h <= N -> seen p B g -> seen p B h ->
  exists g' r, g_merge p g h = Ret (g', r) /\ (accepted r \/ r = Fatal) /\
    (r = Fatal <-> forall t, ~ (solution p g t /\ solution p h t)) /\
    (r = Unchanged -> g' = g) /\
    (accepted r -> g_size g' = Z.max (g_size g) (g_size h) /\ watched p C (ks ++ ks') g').
Proof.
  intros p C ks g ks' h N B L W W' R Sn Sn' Se Se'.
  pose proof (watched_inv p C ks g L W) as I. pose proof (watched_inv p C ks' h L W') as I'.
  destruct (winv_merge p N B ks g ks' h R Sn Sn' I I' Se Se') as (g' & r & E & X). exists g', r. split; auto.
  destruct X as [(A & Sz & K & U)|(-> & X)].
  - split; auto. split; [split|split; auto].
    + intros ->. destruct A; discriminate.
    + intros F. destruct (closed_consistent _ _ (wi_closed _ _ K)) as (t & S).
      destruct (F t). rewrite !sol_msat by (apply I || apply I'). apply (wi_sat _ _ K) in S.
      apply Forall_app in S. rewrite (wi_sat _ _ I), (wi_sat _ _ I'). auto.
    + intros _. split; auto. apply (w_merge p C ks g ks' h N B g' r); auto.
  - split; auto. split; [|split; [discriminate|intros [Q|Q]; discriminate]]. split; auto. intros _ t S. apply (X t).
    rewrite !sol_msat in S by (apply I || apply I'). auto.
Qed.

(** The schedulers of such graphs, restricted by intervals within [W], whatever the number
    of instants *)
Section Sched.
Variables (p : profile) (C : Z) (g : graph) (W : Z) (s : sched).
Hypotheses (St : stored g) (Mn : minimal p g) (Co : exists t, solution p g t) (Sn : seen p C g).
Hypotheses (C0 : 0 <= C) (W0 : 0 <= W) (Sp : W + 2 * C < oo) (Se : convex_session p g W s).

Let Me : mem_ok g := proj1 (stored_mem g) St.
Lemma seen_cl : closed (g_size g) (cell g).
Proof. apply (seen_closed p C); auto. lia. Qed.
Let bd : all_bnd (g_size g) C (cell g) := seen_bnd p C g Me Sn.
Lemma seen_proper : proper p g.
Proof.
  apply proper_prop; auto. destruct Co as (t & S). pose proof bd as F.
  intros i j Ni Nj. destruct (S i j Ni Nj) as (iv & T & E). rewrite timespan_ok in T by auto. injection T as <-.
  pose proof (F i j Ni Nj). pose proof (F j i Nj Ni). assert (O : 0 < oo) by reflexivity.
  unfold wf_iv, spn, In_ext, bnd in *. simpl in *. lia.
Qed.

(** Each instant keeps a date, and each date (at most [X]) is part of a schedule. *)
(** Partial: the reported intervals are bounded, dates within [X]. *)
Theorem C105_feasible_partial :
  (forall i, 0 <= i < g_size g -> exists x, possible s i x) /\
  forall X i x, 2 * W + 2 * X + 7 * C < oo -> 0 <= i < g_size g -> Z.abs x <= X -> possible s i x ->
    exists t, schedule p s t /\ t i = x.
Proof.
  pose proof seen_cl as cl.
  destruct (convex_box p g C W Me cl bd C0 W0) with (s := s) as (f & u & Bo); [lia|auto|]. split.
  - intros i Hi. pose proof Bo as (_ & Bx). pose proof (h_bnd _ _ _ _ (b_low _ _ _ _ _ Bx) i Hi) as Bf.
    pose proof (h_bnd _ _ _ _ (b_up _ _ _ _ _ Bx) i Hi) as Bu. pose proof (b_apart _ _ _ _ _ Bx i Hi) as A.
    exists (if f i =? - oo then if u i =? - oo then 0 else - u i else f i).
    apply (box_possible g (W + C) s f u); auto. unfold finite, bnd, apart1, oo in *. tests; lia.
  - intros X i x L Hi Hx Px. apply (box_schedule p g C (W + C) X s f u i x); auto; lia.
Qed.
(** [retain], [set_deadline] and [set_startline] return and refuse exactly the windows without
    any date. *)
(** Partial: the reported intervals are bounded. *)
Theorem C105_calls_partial :
  (forall i c, 0 <= i < g_size g -> narrow W c ->
    exists s' r, sc_retain p s i (WCx c) = Ret (s', r) /\ (r = Recovered \/ accepted r) /\
      (accepted r <-> exists x, possible s i x /\ In_cx x c)) /\
  (forall d, Z.abs d <= W -> exists s' r, sc_set_deadline p s d = Ret (s', r) /\
    (r = Recovered \/ accepted r) /\
    (r = Recovered <-> exists i, 0 <= i < g_size g /\ forall x, possible s i x -> d < x)) /\
  (forall d, Z.abs d <= W -> exists s' r, sc_set_startline p s d = Ret (s', r) /\
    (r = Recovered \/ accepted r) /\
    (r = Recovered <-> exists i, 0 <= i < g_size g /\ forall x, possible s i x -> x < d)).
Proof.
  pose proof seen_cl as cl.
  destruct (convex_box p g C W Me cl bd C0 W0) with (s := s) as (f & u & Bo); [lia|auto|].
  split; [|split].
  - intros i c Hi Na.
    destruct (retain_box p g C W Me cl bd C0 W0) with (s := s) (f := f) (u := u) (i := i) (c := c)
      as (s' & r & _ & _ & E & _ & A & B'); auto; [lia|]. exists s', r. auto.
  - intros d Hd. destruct (deadline_box p g C W Me cl bd C0 W0) with (d := d) (s := s) (f := f) (u := u)
      as (s' & r & _ & _ & E & _ & A & B'); auto; [lia|]. exists s', r. auto.
  - intros d Hd. destruct (startline_box p g C W Me cl bd C0 W0) with (d := d) (s := s) (f := f) (u := u)
      as (s' & r & _ & _ & E & _ & A & B'); auto; [lia|]. exists s', r. auto.
Qed.
(** The dates kept by [retain] are exactly those of the schedules in the window. *)
(** Partial: the reported intervals are bounded, dates within [X]. *)
Theorem C105_exact_partial : forall X i c s' r, 2 * W + 2 * X + 7 * C < oo -> narrow W c ->
  0 <= i < g_size g -> sc_retain p s i (WCx c) = Ret (s', r) -> accepted r ->
  forall j x, 0 <= j < g_size g -> Z.abs x <= X ->
  (possible s' j x <-> exists t, schedule p s t /\ In_cx (t i) c /\ t j = x).
Proof.
  intros X i c s' r L Na Hi E A j x Hj Hx. pose proof seen_cl as cl. pose proof seen_proper as Pr.
  assert (Wl : W < oo) by lia.
  pose proof (convex_session_session p g W s Wl Se) as Ss. pose proof (narrow_window W c Na) as Wo.
  destruct (convex_box p g C W Me cl bd C0 W0) with (s := s) as (f0 & u0 & Eg0 & _); [lia|auto|].
  pose proof (v_retain p g W s i c s' r Se (proj1 Hi) Na E) as Se'.
  destruct (convex_box p g C W Me cl bd C0 W0) with (s := s') as (f & u & Bo); [lia|auto|].
  split.
  - intros Px.
    destruct (box_schedule p g C (W + C) X s' f u j x) as (t & S & T); auto; try lia.
    exists t. destruct Bo as (Eg & _). destruct S as (S1 & S2). rewrite Eg in S1, S2.
    split; [split|split; auto].
    + rewrite Eg0. auto.
    + intros m Hm. rewrite Eg0 in Hm. apply (C52_shrinks p g s St Pr Ss i (WCx c) s' r m (t m)); auto; lia.
    + apply (C52_shrinks p g s St Pr Ss i (WCx c) s' r i (t i)); auto; lia.
  - intros (t & S & T & <-).
    pose proof (C52_retain p g s St Pr Ss i (WCx c) s' r t (proj1 Hi) Wo E A S T) as S'.
    apply S'. destruct Bo as (-> & _). auto.
Qed.
(** So are the dates kept by [set_deadline] and [set_startline]. *)
(** Partial: the reported intervals are bounded, dates within [X]. *)
Theorem C105_limits_partial : forall X d s' r, 2 * W + 2 * X + 7 * C < oo -> Z.abs d <= W -> accepted r ->
  forall j x, 0 <= j < g_size g -> Z.abs x <= X ->
  (sc_set_deadline p s d = Ret (s', r) -> (possible s' j x <->
    exists t, schedule p s t /\ (forall i, 0 <= i < g_size g -> t i <= d) /\ t j = x)) /\
  (sc_set_startline p s d = Ret (s', r) -> (possible s' j x <->
    exists t, schedule p s t /\ (forall i, 0 <= i < g_size g -> d <= t i) /\ t j = x)).
Proof.
  intros X d s' r L Hd A j x Hj Hx. pose proof seen_cl as cl. pose proof seen_proper as Pr.
  assert (Wl : W < oo) by lia. assert (Fd : finite d) by (unfold finite; lia).
  pose proof (convex_session_session p g W s Wl Se) as Ss.
  destruct (convex_box p g C W Me cl bd C0 W0) with (s := s) as (f0 & u0 & Eg0 & _); [lia|auto|].
  split; intros E.
  - pose proof (v_deadline p g W s d s' r Se Hd E) as Se'.
    destruct (convex_box p g C W Me cl bd C0 W0) with (s := s') as (f & u & Bo); [lia|auto|].
    assert (K : forall i y, 0 <= i < g_size g -> possible s' i y -> possible s i y /\ y <= d).
    { destruct (C56_deadline_partial p g s St Pr Ss d s' r Fd E) as [(-> & _)|(_ & _ & K)]; auto.
      destruct A; discriminate. }
    split.
    + intros Px. destruct (box_schedule p g C (W + C) X s' f u j x) as (t & S & T); auto; try lia.
      exists t. destruct Bo as (Eg & _). destruct S as (S1 & S2). rewrite Eg in S1, S2.
      split; [split|split; auto].
      * rewrite Eg0. auto.
      * intros m Hm. rewrite Eg0 in Hm. apply K; auto.
      * intros i Hi. apply (K i); auto.
    + intros (t & S & T & <-). pose proof (C52_deadline p g s St Pr Ss d s' r t Fd E A S T) as S'.
      apply S'. destruct Bo as (-> & _). auto.
  - pose proof (v_startline p g W s d s' r Se Hd E) as Se'.
    destruct (convex_box p g C W Me cl bd C0 W0) with (s := s') as (f & u & Bo); [lia|auto|].
    assert (K : forall i y, 0 <= i < g_size g -> possible s' i y -> possible s i y /\ d <= y).
    { destruct (C56_startline_partial p g s St Pr Ss d s' r Fd E) as [(-> & _)|(_ & _ & K)]; auto.
      destruct A; discriminate. }
    split.
    + intros Px. destruct (box_schedule p g C (W + C) X s' f u j x) as (t & S & T); auto; try lia.
      exists t. destruct Bo as (Eg & _). destruct S as (S1 & S2). rewrite Eg in S1, S2.
      split; [split|split; auto].
      * rewrite Eg0. auto.
      * intros m Hm. rewrite Eg0 in Hm. apply K; auto.
      * intros i Hi. apply (K i); auto.
    + intros (t & S & T & <-). pose proof (C52_startline p g s St Pr Ss d s' r t Fd E A S T) as S'.
      apply S'. destruct Bo as (-> & _). auto.
Qed.
End Sched.

(** ** Examples *)

(** Bounds about [2 ^ 59]: too large for [room], even with three instants *)
Definition big : Z := 2 ^ 59.
Definition b01 : kons := mkK 0 1 false (big - 5) big.
Definition b12 : kons := mkK 1 2 false (- 5) 0.
Definition b02 : kons := mkK 0 2 false big oo.
Definition b20 : kons := mkK 2 0 false (- oo) (- 7).
Definition gb1 : graph := mkG 3 [0; - big; 0; big - 5; - oo; - oo; 0; - oo; - oo].
Definition gb2 : graph := mkG 3 [0; - big; 0; big - 5; - big; 0; 0; - 5; big - 10].
Lemma gb_watched p : watched p big [b12; b01] gb2 /\ seen p big gb2.
Proof.
  assert (S1 : forall g, stored g -> all_bnd (g_size g) big (cell g) -> seen p big g) by (intros; apply bnd_seen; auto).
  assert (In3 : forall i, node 3 i -> i = 0 \/ i = 1 \/ i = 2) by (unfold node; lia).
  destruct (with_size_inv p 3 0 3) as (g & E & Sz & _); try lia.
  assert (Eg : g = mkG 3 [0; - oo; 0; - oo; - oo; - oo; 0; - oo; - oo]).
  { destruct p; vm_compute in E; injection E as <-; reflexivity. }
  assert (Ho : 0 < big) by reflexivity. assert (Hb : 5 < big) by reflexivity. assert (O : big < oo) by reflexivity.
  assert (W0 : watched p big [] g).
  { apply (w_history p big 3 0); [unfold room, oo; lia|]. apply (h_new p 3 0 3); auto. lia. }
  assert (W1 : watched p big [b01] gb1).
  { apply (w_propagate p big [] g b01 gb1 Propagated); [exact W0|..].
    - rewrite Eg. apply S1; [unfold stored; simpl; lia|]. intros i j Ni Nj. simpl in Ni, Nj.
      destruct (In3 i Ni) as [->|[-> | ->]]; destruct (In3 j Nj) as [->|[-> | ->]]; vm_compute; (left; reflexivity) || (right; split; discriminate).
    - rewrite Sz. cbv [good wf_iv within b01 b12 b02 b20 k_empty k_from k_to k_lo k_up lower upper gb1 gb2 g_size]; lia.
    - rewrite Eg. destruct p; vm_compute; reflexivity.
    - right. auto. }
  assert (W2 : watched p big [b12; b01] gb2).
  { apply (w_propagate p big [b01] gb1 b12 gb2 Propagated); [exact W1|..].
    - apply S1; [unfold stored; simpl; lia|]. intros i j Ni Nj. simpl in Ni, Nj.
      destruct (In3 i Ni) as [->|[-> | ->]]; destruct (In3 j Nj) as [->|[-> | ->]]; vm_compute; (left; reflexivity) || (right; split; discriminate).
    - cbv [good wf_iv within b01 b12 b02 b20 k_empty k_from k_to k_lo k_up lower upper gb1 gb2 g_size]; lia.
    - destruct p; vm_compute; reflexivity.
    - right. auto. }
  split; auto. apply S1; [unfold stored; simpl; lia|]. intros i j Ni Nj. simpl in Ni, Nj.
  destruct (In3 i Ni) as [->|[-> | ->]]; destruct (In3 j Nj) as [->|[-> | ->]]; vm_compute; (left; reflexivity) || (right; split; discriminate).
Qed.
Example C105_case : forall p, 3 * big < oo /\ ~ room 3 big /\ watched p big [b12; b01] gb2 /\ seen p big gb2 /\
  minimal p gb2 /\ good 3 big b02 /\ good 3 big b20 /\
  (exists g', g_propagate p gb2 b02 = Ret (g', Propagated) /\ g_timespan p g' 0 1 = Ret (mkI big big)) /\
  g_propagate p gb2 b20 = Ret (gb2, Unchanged).
Proof.
  intros p. destruct (gb_watched p) as (Wa & Se).
  assert (Ho : 7 < big) by reflexivity. assert (O : big < oo) by reflexivity.
  split; [reflexivity|]. split; [intros (_ & _ & Q); revert Q; unfold big, oo; lia|]. split; auto. split; auto.
  split; [apply (C105_watched_partial p big [b12; b01]); auto; reflexivity|].
  split; [cbv [good wf_iv within b01 b12 b02 b20 k_empty k_from k_to k_lo k_up lower upper gb1 gb2 g_size]; lia|]. split; [cbv [good wf_iv within b01 b12 b02 b20 k_empty k_from k_to k_lo k_up lower upper gb1 gb2 g_size]; lia|].
  split; [eexists; split; destruct p; vm_compute; reflexivity|destruct p; vm_compute; reflexivity].
Qed.

(** A large bound that is narrowed afterwards: the graph may then be merged, with the margins
    of the small reported intervals. *)
Definition m01 : kons := mkK 0 1 false (- big) 5.
Definition m01' : kons := mkK 0 1 false 0 oo.
Definition gm0 : graph := mkG 2 [0; - oo; 0; - oo].
Definition gm1 : graph := mkG 2 [0; - 5; 0; - big].
Definition gm2 : graph := mkG 2 [0; - 5; 0; 0].
Example C105_merge_case : ~ room 3 big /\ watched Debug big [m01'; m01] gm2 /\ watched Debug big [k12; k01] h3 /\
  room 3 18 /\ seen Debug 18 gm2 /\ seen Debug 18 h3 /\
  exists g', g_merge Debug gm2 h3 = Ret (g', Propagated) /\ g_timespan Debug g' 0 2 = Ret (mkI 12 13).
Proof.
  assert (Ho : 7 < big) by reflexivity. assert (O : big < oo) by reflexivity.
  assert (In2 : forall i, node 2 i -> i = 0 \/ i = 1) by (unfold node; lia).
  assert (In3 : forall i, node 3 i -> i = 0 \/ i = 1 \/ i = 2) by (unfold node; lia).
  assert (S1 : forall B g, stored g -> all_bnd (g_size g) B (cell g) -> seen Debug B g) by (intros; apply bnd_seen; auto).
  split; [intros (_ & _ & Q); revert Q; unfold big, oo; lia|].
  split; [|split; [|split; [|split; [|split]]]].
  - apply (w_propagate Debug big [m01] gm1 m01' gm2 Propagated); [|..|right; auto].
    + apply (w_propagate Debug big [] gm0 m01 gm1 Propagated); [|..|right; auto].
      * apply (w_history Debug big 2 0); [unfold room, oo; lia|]. apply (h_new Debug 2 0 2); [lia|reflexivity].
      * apply S1; [unfold stored; simpl; lia|]. intros i j Ni Nj. simpl in Ni, Nj.
        destruct (In2 i Ni) as [-> | ->]; destruct (In2 j Nj) as [-> | ->]; vm_compute; (left; reflexivity) || (right; split; discriminate).
      * cbv [good wf_iv within m01 gm0 k_empty k_from k_to k_lo k_up lower upper g_size]; lia.
      * vm_compute. reflexivity.
    + apply S1; [unfold stored; simpl; lia|]. intros i j Ni Nj. simpl in Ni, Nj.
      destruct (In2 i Ni) as [-> | ->]; destruct (In2 j Nj) as [-> | ->]; vm_compute; (left; reflexivity) || (right; split; discriminate).
    + cbv [good wf_iv within m01' gm1 k_empty k_from k_to k_lo k_up lower upper g_size]; lia.
    + vm_compute. reflexivity.
  - apply (w_history Debug big 3 10); [exact room3|]. apply h3_history; lia.
  - unfold room, oo. lia.
  - apply S1; [unfold stored; simpl; lia|]. intros i j Ni Nj. simpl in Ni, Nj.
    destruct (In2 i Ni) as [-> | ->]; destruct (In2 j Nj) as [-> | ->]; vm_compute; right; split; discriminate.
  - apply S1; [unfold stored; simpl; lia|]. intros i j Ni Nj. simpl in Ni, Nj.
    destruct (In3 i Ni) as [->|[-> | ->]]; destruct (In3 j Nj) as [->|[-> | ->]]; vm_compute; right; split; discriminate.
  - eexists. split; vm_compute; reflexivity.
Qed.

(** A third of the time values is the limit: just above it, the new graph may not be minimal:
    there is no time value for the sum of three bounds. *)
Definition third : Z := oo / 3 + 1.
Definition gt4 : graph := mkG 4 [0; - oo; 0; third; - oo; - oo; 0; - oo; - oo; - oo; - oo; - oo; 0; third; - oo; - oo].
Definition kt : kons := mkK 1 2 false third oo.
Definition gt4' : graph := mkG 4 [0; - oo; 0; third; - oo; - oo; 0; third; 2 * third; - oo; - oo; - oo; 0; third; 2 * third; oo].
Ltac cells := repeat match goal with
  | H : context [cell gt4 ?i ?j] |- _ => let v := eval vm_compute in (cell gt4 i j) in change (cell gt4 i j) with v in *
  | |- context [cell gt4 ?i ?j] => let v := eval vm_compute in (cell gt4 i j) in change (cell gt4 i j) with v in * end.
Lemma gt4_closed : closed 4 (cell gt4).
Proof.
  assert (In4 : forall i, node 4 i -> i = 0 \/ i = 1 \/ i = 2 \/ i = 3) by (unfold node; lia). split.
  - intros i Ni. destruct (In4 i Ni) as [->|[->|[-> | ->]]]; reflexivity.
  - intros i k j a b Ni Nk Nj.
    destruct (In4 i Ni) as [->|[->|[-> | ->]]]; destruct (In4 k Nk) as [->|[->|[-> | ->]]];
      try (intros (Q & _); exfalso; apply Q; reflexivity);
      destruct (In4 j Nj) as [->|[->|[-> | ->]]];
      try (intros _ (Q & _); exfalso; apply Q; reflexivity); intros (_ & A) (_ & B); (split; [discriminate|]);
      cells; lia.
Qed.
Theorem C105_third_refuted : exists p g k C, 3 * C < oo + 3 /\ stored g /\ minimal p g /\
  (exists t, solution p g t) /\ seen p C g /\ good (g_size g) C k /\
  (exists t, solution p g t /\ sat k t) /\
  exists g', g_propagate p g k = Ret (g', Propagated) /\ ~ minimal p g'.
Proof.
  exists Debug, gt4, kt, third.
  assert (M : stored gt4) by (unfold stored; simpl; lia).
  assert (In4 : forall i, node 4 i -> i = 0 \/ i = 1 \/ i = 2 \/ i = 3) by (unfold node; lia).
  assert (T0 : 0 < third) by reflexivity. assert (O : third < oo) by reflexivity.
  split; [reflexivity|]. split; auto. split; [apply closed_min_any; auto; apply gt4_closed|].
  split; [apply closed_sol; auto; apply gt4_closed|]. split.
  - apply bnd_seen; auto. intros i j Ni Nj.
    destruct (In4 i Ni) as [->|[->|[-> | ->]]]; destruct (In4 j Nj) as [->|[->|[-> | ->]]]; vm_compute; (left; reflexivity) || (right; split; discriminate).
  - split; [cbv [good wf_iv within b01 b12 b02 b20 kt k_empty k_from k_to k_lo k_up lower upper gt4 gb1 gb2 g_size]; lia|]. split.
    + exists (fun i => i * third). split; [|unfold sat, In_ext; cbn; lia].
      apply sol_msat; auto. intros i j w Ni Nj.
      destruct (In4 i Ni) as [->|[->|[-> | ->]]]; destruct (In4 j Nj) as [->|[->|[-> | ->]]];
      try (intros (Q & _); exfalso; apply Q; reflexivity); intros (_ & A); cells; change third with 3074457345618258603; lia.
    + exists gt4'. split; [vm_compute; reflexivity|]. intros Mn.
      destruct (Mn 0 3) as (iv & E & H); try (simpl; lia).
      assert (Q : iv = mkI oo oo) by (vm_compute in E; injection E as <-; reflexivity). subst iv.
      destruct (H oo) as (t & S & T); [split; right; simpl; lia|].
      destruct (S 0 1) as (i1 & E1 & I1); try (simpl; lia). destruct (S 1 2) as (i2 & E2 & I2); try (simpl; lia).
      destruct (S 2 3) as (i3 & E3 & I3); try (simpl; lia). vm_compute in E1, E2, E3.
      injection E1 as <-. injection E2 as <-. injection E3 as <-.
      destruct I1 as (I1 & _), I2 as (I2 & _), I3 as (I3 & _). cbn [lower] in *.
      change oo with 9223372036854775807 in *. lia.
Qed.

(** A scheduler of that graph; then two restrictions *)
Definition sb1 : sched := mkS gb2 [[mkI 0 9]; [mkI (big - 5) (big + 9)]; [mkI (big - 10) (big + 9)]].
Definition sb2 : sched := mkS gb2 [[mkI 2 4]; [mkI (big - 3) (big + 4)]; [mkI (big - 8) (big + 4)]].
Example C105_sched_case : forall p, convex_session p gb2 10 sb1 /\ 2 * 10 + 2 * (big + 9) + 7 * big < oo /\
  narrow 10 (CRangeIncl 2 4) /\ sc_retain p sb1 0 (WCx (CRangeIncl 2 4)) = Ret (sb2, Propagated) /\
  possible sb1 2 (big - 10) /\ ~ possible sb2 2 (big - 10) /\ possible sb2 2 (big - 8) /\
  exists t, schedule p sb1 t /\ In_cx (t 0) (CRangeIncl 2 4) /\ t 2 = big - 8.
Proof.
  intros p. destruct (gb_watched p) as (Wa & Se).
  destruct (C105_watched_partial p big [b12; b01] gb2 ltac:(reflexivity) Wa) as (St & Mn & Co & _).
  assert (Na : narrow 10 (CRangeIncl 2 4)) by (apply narrow_incl; unfold oo; lia).
  assert (S1 : convex_session p gb2 10 sb1).
  { apply (v_retain p gb2 10 (sc_new gb2) 0 (CRangeIncl 0 9) sb1 Propagated); [apply v_new|lia|apply narrow_incl; unfold oo; lia|].
    destruct p; vm_compute; reflexivity. }
  assert (E : sc_retain p sb1 0 (WCx (CRangeIncl 2 4)) = Ret (sb2, Propagated)) by (destruct p; vm_compute; reflexivity).
  assert (P2 : possible sb2 2 (big - 8)).
  { eexists. split; [reflexivity|]. exists (mkI (big - 8) (big + 4)). split; [simpl; auto|].
    vm_compute. repeat split; discriminate. }
  split; auto. split; [reflexivity|]. split; auto. split; auto. split; [|split; [|split; auto]].
  - eexists. split; [reflexivity|]. exists (mkI (big - 10) (big + 9)). split; [simpl; auto|].
    vm_compute. repeat split; discriminate.
  - intros (l & X & k & Hk & Ik). simpl in X. injection X as <-. destruct Hk as [<-|[]].
    destruct Ik as (_ & Ik & _). vm_compute in Ik. apply Ik. reflexivity.
  - apply (C105_exact_partial p big gb2 10 sb1) with (X := big + 9) (s' := sb2) (r := Propagated); auto;
      try (vm_compute; discriminate); try reflexivity; try (simpl; lia); [right; auto].
Qed.

Print Assumptions C105_watched_partial.
Print Assumptions C105_propagate_partial.
Print Assumptions C105_extend_partial.
Print Assumptions C105_merge_partial.
Print Assumptions C105_feasible_partial.
Print Assumptions C105_calls_partial.
Print Assumptions C105_exact_partial.
Print Assumptions C105_limits_partial.
Print Assumptions C105_third_refuted.
