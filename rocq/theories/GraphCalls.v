(** What any sequence of public calls preserves.  Proof helpers. *)
From Verif Require Import Machine TimeValue Interval Spec SpecSets Tac TimeValueProofs Graph
  MaxPlus FwBound GraphProofs GraphOps GraphGrow GraphSafe GraphMem GraphHist GraphTight SpecGraph
  GraphInv GraphSound.

Lemma legal_inst : forall k, legal k -> 0 <= k_from k <= 65534 /\ 0 <= k_to k <= 65534.
Proof. intros k (A & B & _). auto. Qed.
Lemma legal_insts : forall ks, Forall legal ks ->
  forall k, In k ks -> 0 <= k_from k <= 65534 /\ 0 <= k_to k <= 65534.
Proof. intros ks F k I. rewrite Forall_forall in F. apply legal_inst. auto. Qed.

Lemma shrink_mem : forall p g, mem_ok g ->
  exists g', g_shrink_to_fit p g = Ret g' /\ mem_ok g' /\ g_data g' = g_data g /\
    g_size g' <= g_size g.
Proof.
  intros p g M. destruct (shrink_ok p g M) as (m & E & L & _).
  exists (mkG m (g_data g)). split; auto. split; [|simpl; split; auto; lia].
  destruct M as (M1 & M2). split; simpl; [lia|]. nia.
Qed.

Lemma calls_mem : forall p lax g, calls p lax g -> mem_ok g.
Proof.
  intros p lax g H. induction H as [|g n g' H IH L E|g g' H IH E|g g' Lx H IH E|g k g' r H IH Lk E
    |g hint ks g' r H IH Lk E Fa|g h g' r H IH H' IH' E Fa].
  - split; simpl; lia.
  - assert (S0 : 0 <= g_size g) by apply IH.
    destruct (resize_ok p g n S0 L) as (g2 & E2 & _ & M & _). congruence.
  - destruct (reset_ok p g IH) as (g2 & E2 & _ & M & _). congruence.
  - destruct (shrink_mem p g IH) as (g2 & E2 & M & _). congruence.
  - apply legal_inst in Lk. destruct Lk as (Lf & Lt).
    pose proof (propagate_mem p g k IH Lf Lt) as S. rewrite E in S. auto.
  - pose proof (extend_mem p g hint ks IH (legal_insts _ Lk)) as S. rewrite E in S. auto.
  - pose proof (merge_mem p g h IH IH') as S. rewrite E in S. auto.
Qed.

(** ** Storage of exactly the constraints of the graph *)

Definition exact (g : graph) : Prop :=
  mem_ok g /\ Z.of_nat (length (g_data g)) = g_size g * g_size g /\ vcells (g_size g) (cell g).

Lemma exact_out : forall g a b, exact g -> 0 <= a -> 0 <= b -> g_size g <= Z.max a b ->
  cell g a b = - oo.
Proof.
  intros g a b (M & L & _) A B H. unfold cell. apply nth_overflow.
  pose proof (cidx_range a b A B) as R. assert (0 <= g_size g) by apply M. nia.
Qed.
Lemma exact_clean : forall g, exact g -> clean g.
Proof.
  intros g X a b A B L. rewrite (exact_out g a b X A B L). split; auto. unfold oo. lia.
Qed.
Lemma exact_shape : forall g g', exact g -> same_shape g g' -> vcells (g_size g') (cell g') ->
  exact g'.
Proof.
  intros g g' (M & L & _) S V. split; [eapply same_shape_mem; eauto|]. split; auto.
  destruct S as (S1 & S2 & _). rewrite S1, S2. auto.
Qed.

Lemma raised_exact : forall Q g g', exact g -> raised Q g g' -> exact g'.
Proof.
  intros Q g g' X R. eapply exact_shape; [exact X|apply R|].
  destruct (ra_shape _ _ _ R) as (S & _). rewrite S. apply R.
Qed.

Lemma resize_exact : forall p g m, exact g -> 0 <= m <= 65535 ->
  exists g', g_resize p g m = Ret g' /\ g_size g' = m /\ exact g' /\
    (forall a b, node m a -> node m b -> cell g' a b =
       if (a <? g_size g) && (b <? g_size g) then cell g a b else if a =? b then 0 else - oo).
Proof.
  intros p g m X L. pose proof X as (M & Ln & V). assert (S0 : 0 <= g_size g) by apply M.
  destruct (resize_ok p g m S0 L) as (g' & E & S & M' & _ & Ln' & D & O).
  assert (H : forall a b, node m a -> node m b -> cell g' a b =
       if (a <? g_size g) && (b <? g_size g) then cell g a b else if a =? b then 0 else - oo).
  { intros a b Na Nb. destruct ((a <? g_size g) && (b <? g_size g)) eqn:T.
    - apply O; auto. right. lia.
    - destruct (a =? b) eqn:T2.
      + assert (a = b) by lia. subst. apply D. unfold node in *. lia.
      + rewrite O by (auto; left; lia). apply exact_out; auto; unfold node in *; lia. }
  exists g'. split; auto. split; auto. split; auto. split; auto. split; [rewrite S; nia|].
  rewrite S. intros a b Na Nb. rewrite H by auto.
  destruct ((a <? g_size g) && (b <? g_size g)) eqn:T; [apply V; unfold node in *; lia|].
  destruct (a =? b); unfold valid, oo; lia.
Qed.

Lemma reset_exact : forall p g, exact g -> exists g', g_reset p g = Ret g' /\
  g_size g' = g_size g /\ exact g'.
Proof.
  intros p g (M & L & V). destruct (reset_ok p g M) as (g' & E & S & M' & C & D & O).
  exists g'. split; auto. split; auto. split; auto. split.
  - rewrite S. unfold g_reset in E.
    destruct (diag_fold p (zrange 0 (g_size g)) (g_size g) (g_size g) (map (fun _ => - INF) (g_data g)))
      as (d' & E2 & (_ & S2 & _) & _).
    + split; [apply M|]. simpl. rewrite map_length. apply M.
    + intros i I. apply zrange_in in I. auto.
    + rewrite E in E2. injection E2 as ->. simpl in *. rewrite S2, map_length. auto.
  - rewrite S. intros i j Ni Nj. destruct (Z.eq_dec i j) as [<-|e].
    + rewrite D by auto. unfold valid, oo. lia.
    + rewrite O by (auto; unfold node in *; lia). unfold valid, oo. lia.
Qed.

Lemma propagate_exact : forall p g k g' r, exact g -> legal k ->
  g_propagate p g k = Ret (g', r) -> exact g'.
Proof.
  intros p g k g' r X Lk E. pose proof X as (M & Ln & V).
  destruct (Z_lt_le_dec (Z.max (k_from k) (k_to k)) (g_size g)) as [Hin|Hout].
  - pose proof Lk as (Lf & Lt & _).
    pose proof (propagate_safe p g k M V Lk) as S. rewrite E in S. simpl in S.
    specialize (S ltac:(unfold node; lia) ltac:(unfold node; lia)).
    destruct r; [destruct S as (-> & _)|destruct S as (_ & S)|subst g'|destruct S]; auto.
    eapply raised_exact; eauto.
  - destruct (k_empty k) eqn:Ek.
    + unfold g_propagate in E. rewrite Ek in E. injection E as <- <-. auto.
    + destruct (propagate_new p g k M (exact_clean _ X) Lk Ek Hout)
        as (g2 & E2 & S2 & M2 & C2 & g1 & E1 & X1 & H).
      rewrite E in E2. injection E2 as <- ->.
      split; auto. split.
      * unfold g_propagate in E. rewrite Ek in E. cbv zeta in E.
        replace (g_size g <=? Z.max (k_from k) (k_to k)) with true in E by lia.
        pose proof Lk as (Lf & Lt & _).
        rewrite u32_succ in E by lia. cbn [bind] in E. rewrite E1 in E. cbn [bind] in E.
        destruct (resize_exact p g (Z.max (k_from k) (k_to k) + 1) X ltac:(lia)) as (g1' & E1' & S1 & X1' & _).
        rewrite E1 in E1'. injection E1' as <-.
        destruct (g_set_ok p g1 (k_from k) (k_to k) (k_lo k)) as (g3 & E3 & Sh3 & _);
          [apply X1'|unfold node; lia|unfold node; lia|]. rewrite E3 in E. cbn [bind] in E.
        destruct (g_set_ok p g3 (k_to k) (k_from k) (tv_neg (k_up k))) as (g4 & E4 & Sh4 & _).
        { eapply same_shape_mem; [exact Sh3|apply X1']. }
        { destruct Sh3 as (-> & _). unfold node; lia. } { destruct Sh3 as (-> & _). unfold node; lia. }
        rewrite E4 in E. cbn [bind] in E. injection E as <-.
        destruct Sh3 as (A & B & _). destruct Sh4 as (A' & B' & _). rewrite A', B', A, B. apply X1'.
      * rewrite S2. intros a b Na Nb. rewrite H by auto.
        destruct ((a =? k_to k) && (b =? k_from k)).
        { destruct Lk as (_ & _ & _ & Vu). unfold valid in *. lia. }
        destruct ((a =? k_from k) && (b =? k_to k)); [apply Lk|].
        assert (0 <= g_size g) by apply M. exact (extends_valid _ _ _ _ X1 H0 V a b Na Nb).
Qed.

(** [extend] that inserts the constraints, then propagates them *)
Definition slow (hint : option Z) : Prop := hint <> Some 0 /\ hint <> Some 1.
Lemma extend_slow : forall p g hint ks, slow hint ->
  g_extend p g hint ks = (g1 <- ofold (g_insert p) g ks ;; g_global p g1).
Proof.
  intros p g hint ks (H0 & H1). unfold g_extend.
  destruct hint as [[|[| |]|]|]; try congruence; auto.
Qed.
Lemma slow_dec : forall hint, hint = Some 0 \/ hint = Some 1 \/ slow hint.
Proof.
  intros [z|]; [|right; right; split; discriminate].
  destruct (Z.eq_dec z 0) as [->|]; auto. destruct (Z.eq_dec z 1) as [->|]; auto.
  right. right. split; congruence.
Qed.

Lemma insert_len : forall p g k, exact g -> legal k -> exists g', g_insert p g k = Ret g' /\
  mem_ok g' /\ Z.of_nat (length (g_data g')) = g_size g' * g_size g' /\ vcells (g_size g') (cell g').
Proof.
  intros p g k X Lk. pose proof Lk as (Lf & Lt & Vl & Vu).
  unfold g_insert. cbv zeta.
  assert (G1 : exists g1, (if g_size g <=? Z.max (k_from k) (k_to k)
    then m1 <- add32 p (Z.max (k_from k) (k_to k)) 1 ;; g_resize p g m1 else Ret g) = Ret g1 /\
    exact g1 /\ node (g_size g1) (k_from k) /\ node (g_size g1) (k_to k)).
  { destruct (g_size g <=? _) eqn:T.
    - rewrite u32_succ by lia. cbn [bind].
      destruct (resize_exact p g (Z.max (k_from k) (k_to k) + 1) X ltac:(lia)) as (g1 & E & S & X1 & _).
      exists g1. unfold node. split; auto. split; auto. lia.
    - exists g. split; auto. split; auto. unfold node. lia. }
  destruct G1 as (g1 & -> & (M1 & L1 & V1) & N1 & N2). cbn [bind].
  destruct (g_raise_ok p g1 (k_from k) (k_to k) (k_lo k) M1 N1 N2) as (g2 & -> & Sh2 & C2).
  cbn [bind]. pose proof (same_shape_mem _ _ Sh2 M1) as M2.
  assert (S2 : g_size g2 = g_size g1) by apply Sh2.
  destruct (g_raise_ok p g2 (k_to k) (k_from k) (tv_neg (k_up k)) M2) as (g3 & -> & Sh3 & C3);
    [rewrite S2; auto..|].
  assert (S3 : g_size g3 = g_size g1) by (rewrite <- S2; apply Sh3).
  exists g3. split; auto. split; [eapply same_shape_mem; eauto|]. split.
  - destruct Sh3 as (_ & -> & _). destruct Sh2 as (_ & -> & _). rewrite S3. auto.
  - rewrite S3. assert (V2 : vcells (g_size g1) (cell g2)).
    { intros a b Na Nb. rewrite C2 by (unfold node in *; lia).
      destruct (_ && _); [|auto]. specialize (V1 _ _ N1 N2). unfold valid in *. lia. }
    intros a b Na Nb. rewrite C3 by (unfold node in *; lia).
    destruct (_ && _); [|auto]. specialize (V2 _ _ N2 N1). unfold tv_neg, valid in *. lia.
Qed.

Lemma inserts_exact : forall p ks g, exact g -> Forall legal ks ->
  exists g', ofold (g_insert p) g ks = Ret g' /\ exact g'.
Proof.
  intros p. induction ks as [|k ks IH]; intros g X F; simpl.
  - exists g. auto.
  - inversion F as [|? ? Lk F']. subst. destruct (insert_len p g k X Lk) as (g1 & -> & X1).
    cbn [bind]. apply IH; auto.
Qed.

Lemma global_exact : forall p g g' r, exact g -> g_global p g = Ret (g', r) -> r <> Fatal ->
  r = Propagated /\ exact g' /\ g_size g' = g_size g.
Proof.
  intros p g g' r X E NF. pose proof X as (M & _ & V).
  pose proof (global_safe (fun _ => False) p g M V) as S. rewrite E in S. simpl in S.
  destruct S as [(-> & R)|(-> & _)]; [tauto| |congruence].
  split; auto. split; [eapply raised_exact; eauto|]. apply R.
Qed.

Lemma extend_exact : forall p g hint ks g' r, exact g -> Forall legal ks ->
  g_extend p g hint ks = Ret (g', r) -> r <> Fatal -> exact g'.
Proof.
  intros p g hint ks g' r X F E NF. destruct (slow_dec hint) as [->|[->|S]].
  - injection E as <- <-. auto.
  - simpl in E. destruct ks as [|k ks]; [injection E as <- <-; auto|].
    inversion F; subst. eapply propagate_exact; eauto.
  - rewrite extend_slow in E by auto. destruct (inserts_exact p ks g X F) as (g1 & E1 & X1).
    rewrite E1 in E. cbn [bind] in E. eapply global_exact; eauto.
Qed.

(** ** [merge] *)

Lemma zip_cells : forall a b i j, mem_ok a -> exact b -> g_size b <= g_size a ->
  node (g_size a) i -> node (g_size a) j ->
  cell (mkG (g_size a) (fst (zip_max (g_data a) (g_data b)))) i j =
  if (i <? g_size b) && (j <? g_size b) then Z.max (cell a i j) (cell b i j) else cell a i j.
Proof.
  intros a b i j Ma (Mb & Lb & Vb) L Ni Nj.
  pose proof (cell_nth a i j Ma Ni Nj) as Ca.
  pose proof (zip_max_spec (g_data a) (g_data b) (Z.to_nat (cidx i j))) as Z.
  rewrite Ca in Z. unfold cell at 1. simpl. rewrite (nth_nth_error _ _ _ _ Z).
  destruct ((i <? g_size b) && (j <? g_size b)) eqn:T.
  - rewrite (cell_nth b i j Mb) by (unfold node in *; lia). auto.
  - destruct (nth_error (g_data b) (Z.to_nat (cidx i j))) eqn:Q; auto. exfalso.
    assert (Lt : (Z.to_nat (cidx i j) < length (g_data b))%nat).
    { apply nth_error_Some. congruence. }
    pose proof (cidx_range i j ltac:(unfold node in *; lia) ltac:(unfold node in *; lia)).
    assert (0 <= g_size b) by apply Mb. assert (g_size b <= Z.max i j) by lia. nia.
Qed.

(** the graph on which [merge] works *)
Definition merged (g h : graph) : graph :=
  let '(a, b) := if g_size g <? g_size h then (h, g) else (g, h) in
  mkG (g_size a) (fst (zip_max (g_data a) (g_data b))).

Lemma merge_unfold : forall p g h, g_merge p g h =
  if snd (let '(a, b) := if g_size g <? g_size h then (h, g) else (g, h) in
          zip_max (g_data a) (g_data b))
  then g_global p (merged g h)
  else Ret (merged g h, if g_size g <? g_size h then Propagated else Unchanged).
Proof.
  intros p g h. unfold g_merge, merged. cbv zeta. destruct (g_size g <? g_size h);
  match goal with |- context [zip_max ?a ?b] => destruct (zip_max a b) as (d & c) end; auto.
Qed.

Lemma merged_ok : forall g h, exact g -> exact h ->
  exact (merged g h) /\ g_size (merged g h) = Z.max (g_size g) (g_size h) /\
  (forall t, msat (g_size (merged g h)) (cell (merged g h)) t <->
     msat (g_size g) (cell g) t /\ msat (g_size h) (cell h) t).
Proof.
  assert (W : forall a b, exact a -> exact b -> g_size b <= g_size a ->
    let c := mkG (g_size a) (fst (zip_max (g_data a) (g_data b))) in
    exact c /\ forall t, msat (g_size a) (cell c) t <->
      msat (g_size a) (cell a) t /\ msat (g_size b) (cell b) t).
  { intros a b Xa Xb L c. pose proof Xa as (Ma & La & Va). pose proof Xb as (Mb & Lb & Vb).
    pose proof (fun i j => zip_cells a b i j Ma Xb L) as H. fold c in H.
    assert (Mc : mem_ok c).
    { destruct Ma. split; auto. unfold c. simpl. rewrite zip_max_length. auto. }
    split; [split; [auto|split]|].
    - unfold c. simpl. rewrite zip_max_length. auto.
    - change (g_size c) with (g_size a). intros i j Ni Nj. rewrite H by auto.
      specialize (Va i j Ni Nj). destruct (_ && _) eqn:T; auto.
      specialize (Vb i j ltac:(unfold node in *; lia) ltac:(unfold node in *; lia)).
      unfold valid in *. lia.
    - intros t. split.
      + intros S. split; intros i j w Ni Nj (X & Y).
        * apply S; auto. unfold ent. rewrite H by auto.
          specialize (Va i j Ni Nj). unfold valid in *. destruct (_ && _); lia.
        * assert (Ni' : node (g_size a) i) by (unfold node in *; lia).
          assert (Nj' : node (g_size a) j) by (unfold node in *; lia).
          apply S; auto. unfold ent. rewrite H by auto.
          specialize (Vb i j Ni Nj). unfold node, valid in *.
          replace ((i <? g_size b) && (j <? g_size b)) with true by lia. lia.
      + intros (Sa & Sb) i j w Ni Nj (X & Y). rewrite H in * by auto.
        destruct (_ && _) eqn:T; [|apply Sa; auto; split; auto].
        specialize (Va i j Ni Nj). unfold valid in *.
        destruct (Z_le_gt_dec (cell a i j) (cell b i j)).
        * apply Sb; [unfold node in *; lia|unfold node in *; lia|]. split; lia.
        * apply Sa; auto. split; lia. }
  intros g h Xg Xh. unfold merged. destruct (g_size g <? g_size h) eqn:T.
  - destruct (W h g Xh Xg ltac:(lia)) as (W1 & W2). split; auto. simpl. split; [lia|].
    intros t. rewrite W2. tauto.
  - destruct (W g h Xg Xh ltac:(lia)) as (W1 & W2). split; auto. simpl. split; [lia|].
    intros t. rewrite W2. tauto.
Qed.

Lemma merge_exact : forall p g h g' r, exact g -> exact h ->
  g_merge p g h = Ret (g', r) -> r <> Fatal -> exact g'.
Proof.
  intros p g h g' r Xg Xh E NF. rewrite merge_unfold in E.
  destruct (merged_ok g h Xg Xh) as (X & _).
  destruct (snd _).
  - eapply global_exact; eauto.
  - injection E as <- <-. auto.
Qed.

Lemma calls_exact : forall p g, calls p false g -> exact g.
Proof.
  intros p g H. induction H as [|g n g' H IH L E|g g' H IH E|g g' Lx H IH E|g k g' r H IH Lk E
    |g hint ks g' r H IH Lk E Fa|g h g' r H IH H' IH' E Fa].
  - split; [split; simpl; lia|]. split; [simpl; lia|]. intros i j (A & B). simpl in B. lia.
  - destruct (resize_exact p g n IH L) as (g2 & E2 & _ & X & _). congruence.
  - destruct (reset_exact p g IH) as (g2 & E2 & _ & X). congruence.
  - discriminate.
  - eapply propagate_exact; eauto.
  - eapply extend_exact; eauto. intros ->. discriminate (Fa eq_refl).
  - apply (merge_exact p g h g' r IH IH' E). intros ->. discriminate (Fa eq_refl).
Qed.

(** ** Solutions *)

Lemma unsat_below : forall p g, mem_ok g -> (unsaturated p g <-> below_oo (g_size g) (cell g)).
Proof.
  intros p g M. split.
  - intros U i j Ni Nj. destruct (U i j Ni Nj) as (iv & E & L & _).
    rewrite timespan_ok in E by auto. injection E as <-. auto.
  - intros B i j Ni Nj. eexists. split; [apply timespan_ok; auto|]. simpl.
    pose proof (B i j Ni Nj). pose proof (B j i Nj Ni). lia.
Qed.

Lemma raised_msat : forall Q g g' t, raised Q g g' -> vcells (g_size g) (cell g) ->
  msat (g_size g) (cell g') t -> msat (g_size g) (cell g) t.
Proof.
  intros Q g g' t R V S i j w Ni Nj (X & Y). apply S; auto.
  pose proof (ra_le _ _ _ R i j Ni Nj). specialize (V i j Ni Nj). unfold valid in V.
  split; lia.
Qed.

Lemma propagate_sol : forall p g k g' r, exact g -> legal k ->
  k_from k < g_size g -> k_to k < g_size g ->
  g_propagate p g k = Ret (g', r) -> accepted r -> below_oo (g_size g) (cell g) ->
  g_size g' = g_size g /\
  forall t, msat (g_size g') (cell g') t <-> msat (g_size g) (cell g) t /\ ksat k t.
Proof.
  intros p g k g' r X Lk Lf Lt E A B. pose proof X as (M & _ & V).
  pose proof Lk as (Hf & Ht & _).
  assert (Nf : node (g_size g) (k_from k)) by (unfold node; lia).
  assert (Nt : node (g_size g) (k_to k)) by (unfold node; lia).
  pose proof (propagate_safe p g k M V Lk Nf Nt) as S. rewrite E in S. simpl in S.
  destruct r; [| |destruct A; discriminate|destruct S].
  - destruct S as (-> & H). split; auto. intros t. split; [|tauto].
    intros Ms. split; auto. eapply holds_ksat; eauto.
  - destruct S as (H & R). pose proof (ra_shape _ _ _ R) as (S' & _).
    rewrite S' in *. split; auto. intros t. split.
    + intros Ms. split; [eapply raised_msat; eauto|].
      apply (holds_ksat (g_size g) (cell g')); auto. apply R.
    + intros (Hs & Hk). apply (propagate_tsat p g k g' t); auto.
Qed.

Lemma ksat_le : forall k t, ksat k t <->
  (k_lo k = - oo \/ k_lo k <= t (k_to k) - t (k_from k)) /\
  (- k_up k = - oo \/ - k_up k <= t (k_from k) - t (k_to k)).
Proof. intros k t. unfold ksat, In_ext. simpl. lia. Qed.

Lemma propagate_new_sol : forall p g k g' r, exact g -> legal k -> k_from k <> k_to k ->
  g_size g <= Z.max (k_from k) (k_to k) ->
  g_propagate p g k = Ret (g', r) -> accepted r ->
  g_size g' = Z.max (k_from k) (k_to k) + 1 /\
  forall t, msat (g_size g') (cell g') t <-> msat (g_size g) (cell g) t /\ ksat k t.
Proof.
  intros p g k g' r X Lk Nft Hout E A. pose proof X as (M & _ & V).
  pose proof Lk as (Hf & Ht & _).
  destruct (k_empty k) eqn:Ek.
  { unfold g_propagate in E. rewrite Ek in E. injection E as <- <-. destruct A; discriminate. }
  destruct (propagate_new p g k M (exact_clean _ X) Lk Ek Hout)
    as (g2 & E2 & S2 & M2 & C2 & g1 & E1 & X1 & H).
  rewrite E in E2. injection E2 as <- ->. rewrite S2. split; auto.
  set (m := Z.max (k_from k) (k_to k) + 1) in *.
  assert (Nf : node m (k_from k)) by (unfold node, m; lia).
  assert (Nt : node m (k_to k)) by (unfold node, m; lia).
  intros t. rewrite <- (extends_msat _ _ _ _ t X1) by (unfold m; lia). rewrite ksat_le. split.
  - intros S. split; [|split].
    + intros a b w Na Nb (P & Q). assert (Nab : a <> b \/ a = b) by lia.
      (* the two cells were unconstrained *)
      assert (G1 : ~ (a = k_from k /\ b = k_to k)).
      { intros (-> & ->). rewrite X1 in P by auto. unfold m in *.
        destruct ((k_from k <? g_size g) && (k_to k <? g_size g)) eqn:T; [lia|].
        destruct (k_from k =? k_to k) eqn:T2; lia. }
      assert (G2 : ~ (a = k_to k /\ b = k_from k)).
      { intros (-> & ->). rewrite X1 in P by auto. unfold m in *.
        destruct ((k_to k <? g_size g) && (k_from k <? g_size g)) eqn:T; [lia|].
        destruct (k_to k =? k_from k) eqn:T2; lia. }
      apply S; auto. unfold ent. rewrite H by auto.
      destruct ((a =? k_to k) && (b =? k_from k)) eqn:T1; [lia|].
      destruct ((a =? k_from k) && (b =? k_to k)) eqn:T2; [lia|]. auto.
    + destruct (Z.eq_dec (k_lo k) (- oo)); auto. right. apply S; auto. unfold ent.
      rewrite H by auto. replace ((k_from k =? k_to k) && _) with false by lia.
      rewrite !Z.eqb_refl. simpl. lia.
    + destruct (Z.eq_dec (- k_up k) (- oo)); auto. right. apply S; auto. unfold ent.
      rewrite H by auto. rewrite !Z.eqb_refl. simpl. lia.
  - intros (S & K1 & K2) a b w Na Nb (P & Q). rewrite H in * by auto.
    destruct ((a =? k_to k) && (b =? k_from k)) eqn:T1.
    { assert (a = k_to k /\ b = k_from k) as (-> & ->) by lia. lia. }
    destruct ((a =? k_from k) && (b =? k_to k)) eqn:T2.
    { assert (a = k_from k /\ b = k_to k) as (-> & ->) by lia. lia. }
    apply S; auto. split; auto.
Qed.

Lemma global_sol : forall p g g' r, exact g -> g_global p g = Ret (g', r) -> accepted r ->
  g_size g' = g_size g /\
  forall t, msat (g_size g') (cell g') t <-> msat (g_size g) (cell g) t.
Proof.
  intros p g g' r (M & _ & V) E A.
  pose proof (global_safe (fun t => msat (g_size g) (cell g) t) p g M V) as S.
  rewrite E in S. simpl in S. destruct S as [(-> & R)|(-> & _)]; [auto| |destruct A; discriminate].
  pose proof (ra_shape _ _ _ R) as (S' & _). rewrite S' in *. split; auto.
  intros t. split; [eapply raised_msat; eauto|]. intros Ms. apply (global_tsat p g g' t); auto.
Qed.

Lemma extend_sol : forall p g hint ks g' r, exact g -> Forall legal ks -> slow hint ->
  g_extend p g hint ks = Ret (g', r) -> accepted r ->
  g_size g' = ksize (g_size g) ks /\
  forall t, msat (g_size g') (cell g') t <->
    msat (g_size g) (cell g) t /\ Forall (fun k => ksat k t) ks.
Proof.
  intros p g hint ks g' r X F S E A. rewrite extend_slow in E by auto.
  destruct (inserted_ok p ks g) as (g1 & E1 & _ & _ & S1 & _ & _ & H1); try apply X; auto.
  { apply exact_clean; auto. }
  destruct (inserts_exact p ks g X F) as (g1' & E1' & X1). rewrite E1 in E1'. injection E1' as <-.
  rewrite E1 in E. cbn [bind] in E.
  destruct (global_sol p g1 g' r X1 E A) as (S2 & H2). rewrite S2 in *. split; auto.
  intros t. rewrite H2. auto.
Qed.

Lemma merge_sol : forall p g h g' r, exact g -> exact h ->
  g_merge p g h = Ret (g', r) -> accepted r ->
  g_size g' = Z.max (g_size g) (g_size h) /\
  forall t, msat (g_size g') (cell g') t <->
    msat (g_size g) (cell g) t /\ msat (g_size h) (cell h) t.
Proof.
  intros p g h g' r Xg Xh E A. rewrite merge_unfold in E.
  destruct (merged_ok g h Xg Xh) as (X & S & H).
  destruct (snd _).
  - destruct (global_sol p _ g' r X E A) as (S2 & H2). rewrite S2 in *. split; auto.
    intros t. rewrite H2. auto.
  - injection E as <- <-. auto.
Qed.
