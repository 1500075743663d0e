(** Memory safety of the public operations, whatever the stored values.  Proof helpers. *)
From Verif Require Import Machine TimeValue Interval Spec SpecSets Tac TimeValueProofs Graph
  MaxPlus GraphProofs GraphOps GraphGrow GraphSafe.

Lemma tv_add_total : forall a b, safe (tv_add a b) (fun _ => True).
Proof.
  intros a b. unfold tv_add. destruct (is_future_infinite a), (is_past_infinite a),
    (is_past_infinite b), (is_future_infinite b), (is_finite b); simpl; auto.
Qed.

Lemma step_mem : forall p g g1 i j a b, mem_ok g -> same_shape g g1 ->
  node (g_size g) i -> node (g_size g) j ->
  safe (val <- tv_add a b ;; g_raise p g1 i j val) (same_shape g).
Proof.
  intros p g g1 i j a b M S Ni Nj. eapply safe_bind; [apply tv_add_total|].
  intros v _. cbv beta. assert (S1 : g_size g1 = g_size g) by apply S.
  destruct (g_raise_ok p g1 i j v) as (g2 & E & S2 & _).
  - eapply same_shape_mem; eauto. - rewrite S1; auto. - rewrite S1; auto.
  - rewrite E. simpl. eapply same_shape_trans; eauto.
Qed.

Lemma plb_mem : forall p g io jo, mem_ok g -> node (g_size g) io -> node (g_size g) jo ->
  safe (g_plb p g io jo) (same_shape g).
Proof.
  intros p g io jo M Ni Nj. unfold g_plb. rewrite g_lower_ok by auto. cbn [bind].
  set (w := cell g io jo).
  eapply safe_bind with (P := same_shape g).
  - apply safe_fold; auto. intros i g1 I S. apply zrange_in in I.
    assert (S1 : g_size g1 = g_size g) by apply S.
    assert (M1 : mem_ok g1) by (eapply same_shape_mem; eauto).
    rewrite g_lower_ok by (auto; rewrite S1; auto). cbn [bind]. apply step_mem; auto.
  - intros g1 S. cbv beta. assert (S1 : g_size g1 = g_size g) by apply S. rewrite S1.
    apply safe_fold; auto. intros j g2 I S'. apply zrange_in in I.
    assert (S2 : g_size g2 = g_size g) by apply S'.
    assert (M2 : mem_ok g2) by (eapply same_shape_mem; eauto).
    rewrite g_lower_ok by (auto; rewrite S2; auto). cbn [bind]. rewrite S2.
    set (w2 := cell g2 j jo).
    apply safe_fold; auto. intros i g3 I3 S''. apply zrange_in in I3.
    assert (S3 : g_size g3 = g_size g) by apply S''.
    assert (M3 : mem_ok g3) by (eapply same_shape_mem; eauto).
    rewrite g_lower_ok by (auto; rewrite S3; auto). cbn [bind]. apply step_mem; auto.
Qed.

Lemma mem_zero : forall g, mem_ok g -> mem_ok (mkG 0 (g_data g)).
Proof. intros g M. split; simpl; lia. Qed.

Lemma gp_rows_mem : forall p k is g, mem_ok g -> node (g_size g) k ->
  (forall i, In i is -> node (g_size g) i) ->
  safe (g_gp_rows p g k is) (fun x => mem_ok (fst x) /\ (snd x = true -> same_shape g (fst x))).
Proof.
  intros p k. induction is as [|i is IH]; intros g M Nk H; simpl; auto.
  assert (Ni : node (g_size g) i) by (apply H; simpl; auto).
  eapply safe_bind with (P := same_shape g).
  - unfold g_gp_row. apply safe_fold; auto. intros j g1 I S. apply zrange_in in I.
    assert (S1 : g_size g1 = g_size g) by apply S.
    assert (M1 : mem_ok g1) by (eapply same_shape_mem; eauto).
    rewrite !g_lower_ok by (auto; rewrite S1; auto). cbn [bind]. apply step_mem; auto.
  - intros g2 S. cbv beta. assert (S2 : g_size g2 = g_size g) by apply S.
    assert (M2 : mem_ok g2) by (eapply same_shape_mem; eauto).
    rewrite g_lower_ok by (auto; rewrite S2; auto). cbn [bind].
    destruct (is_strictly_positive _).
    + simpl. split; [apply mem_zero; auto|discriminate].
    + eapply safe_mono; [apply IH; auto; rewrite S2; auto|].
      * intros; apply H; simpl; auto.
      * intros x (A & B). split; auto. intros e. eapply same_shape_trans; eauto.
Qed.

Lemma gp_turns_mem : forall p ks g, mem_ok g -> (forall k, In k ks -> node (g_size g) k) ->
  safe (g_gp_turns p g ks) (fun x => mem_ok (fst x)).
Proof.
  intros p. induction ks as [|k ks IH]; intros g M H; simpl; auto.
  eapply safe_bind; [apply (gp_rows_mem p k); auto|].
  - apply H; simpl; auto.
  - intros i I. apply zrange_in in I. auto.
  - intros (g1 & ok) (M1 & S1). simpl in *. destruct ok; simpl; auto.
    specialize (S1 eq_refl). apply IH; auto. destruct S1 as (-> & _).
    intros; apply H; simpl; auto.
Qed.

Lemma global_mem : forall p g, mem_ok g -> safe (g_global p g) (fun x => mem_ok (fst x)).
Proof.
  intros p g M. unfold g_global. apply gp_turns_mem; auto.
  intros k I. apply zrange_in in I. auto.
Qed.

Lemma set_mem : forall p g i j v, mem_ok g -> node (g_size g) i -> node (g_size g) j ->
  exists g', g_set p g i j v = Ret g' /\ mem_ok g' /\ g_size g' = g_size g.
Proof.
  intros p g i j v M Ni Nj. destruct (g_set_ok p g i j v M Ni Nj) as (g' & E & S & _).
  exists g'. split; auto. split; [eapply same_shape_mem; eauto|apply S].
Qed.

Lemma u32_succ : forall p m, 0 <= m <= 65534 -> add32 p m 1 = Ret (m + 1).
Proof. intros p m L. mach. replace (_ && _) with true by lia. auto. Qed.

Lemma propagate_mem : forall p g k, mem_ok g ->
  0 <= k_from k <= 65534 -> 0 <= k_to k <= 65534 ->
  safe (g_propagate p g k) (fun x => mem_ok (fst x)).
Proof.
  intros p g k M Hf Ht. unfold g_propagate. destruct (k_empty k); [simpl; auto|]. cbv zeta.
  set (f := k_from k) in *. set (u := k_to k) in *.
  destruct (g_size g <=? Z.max f u) eqn:T.
  - rewrite u32_succ by lia. cbn [bind]. assert (S0 : 0 <= g_size g) by apply M.
    destruct (resize_ok p g (Z.max f u + 1) S0 ltac:(lia)) as (g1 & E & S1 & M1 & _).
    rewrite E. cbn [bind].
    assert (Nf : node (g_size g1) f) by (unfold node; lia).
    assert (Nu : node (g_size g1) u) by (unfold node; lia).
    destruct (set_mem p g1 f u (k_lo k) M1) as (g2 & E2 & M2 & S2); auto.
    rewrite E2. cbn [bind].
    destruct (set_mem p g2 u f (tv_neg (k_up k)) M2) as (g3 & E3 & M3 & _); try (rewrite S2; auto).
    rewrite E3. simpl. auto.
  - assert (Nf : node (g_size g) f) by (unfold node; lia).
    assert (Nu : node (g_size g) u) by (unfold node; lia).
    rewrite !g_lower_ok by auto. cbn [bind].
    assert (PL : forall g1 io jo, mem_ok g1 -> g_size g1 = g_size g ->
      node (g_size g) io -> node (g_size g) jo ->
      safe (g_plb p g1 io jo) (fun g2 => mem_ok g2 /\ g_size g2 = g_size g)).
    { intros g1 io jo M1 S1 Ni Nj. eapply safe_mono; [apply plb_mem; auto; rewrite S1; auto|].
      intros g2 S2. split; [eapply same_shape_mem; eauto|]. destruct S2 as (-> & _). auto. }
    destruct (k_lo k <=? cell g f u).
    + destruct (tv_neg (k_up k) <=? cell g u f); [simpl; auto|].
      destruct (k_up k <? cell g f u); [simpl; auto|].
      destruct (set_mem p g u f (tv_neg (k_up k)) M) as (g1 & E1 & M1 & S1); auto.
      rewrite E1. cbn [bind]. eapply safe_bind; [apply (PL g1 u f); auto|].
      intros g2 (M2 & _). simpl. auto.
    + destruct (tv_neg (k_lo k) <? cell g u f); [simpl; auto|].
      destruct (set_mem p g f u (k_lo k) M) as (g1 & E1 & M1 & S1); auto.
      rewrite E1. cbn [bind]. eapply safe_bind; [apply (PL g1 f u); auto|].
      intros g2 (M2 & S2). cbv beta. rewrite g_lower_ok by (auto; rewrite S2; auto). cbn [bind].
      destruct (cell g2 u f <? tv_neg (k_up k)); [|simpl; auto].
      destruct (set_mem p g2 u f (tv_neg (k_up k)) M2) as (g3 & E3 & M3 & S3); try (rewrite S2; auto).
      rewrite E3. cbn [bind]. rewrite S2 in S3. eapply safe_bind; [apply (PL g3 u f); auto|].
      intros g4 (M4 & _). simpl. auto.
Qed.

Lemma insert_mem : forall p g k, mem_ok g ->
  0 <= k_from k <= 65534 -> 0 <= k_to k <= 65534 ->
  exists g', g_insert p g k = Ret g' /\ mem_ok g'.
Proof.
  intros p g k M Hf Ht. unfold g_insert.
  set (f := k_from k) in *. set (u := k_to k) in *.
  assert (S0 : 0 <= g_size g) by apply M.
  assert (H : exists g1, (if g_size g <=? Z.max f u then m1 <- add32 p (Z.max f u) 1;; g_resize p g m1
      else Ret g) = Ret g1 /\ mem_ok g1 /\ node (g_size g1) f /\ node (g_size g1) u).
  { destruct (g_size g <=? Z.max f u) eqn:T.
    - rewrite u32_succ by lia. cbn [bind].
      destruct (resize_ok p g (Z.max f u + 1) S0 ltac:(lia)) as (g1 & E & S1 & M1 & _).
      exists g1. split; auto. split; auto. unfold node. lia.
    - exists g. split; auto. split; auto. unfold node. lia. }
  destruct H as (g1 & E1 & M1 & Nf & Nu). cbv zeta. rewrite E1. cbn [bind].
  destruct (g_raise_ok p g1 f u (k_lo k) M1 Nf Nu) as (g2 & E2 & S2 & _).
  rewrite E2. cbn [bind]. assert (M2 : mem_ok g2) by (eapply same_shape_mem; eauto).
  assert (Z2 : g_size g2 = g_size g1) by apply S2.
  destruct (g_raise_ok p g2 u f (tv_neg (k_up k)) M2) as (g3 & E3 & S3 & _); try (rewrite Z2; auto).
  exists g3. split; auto. eapply same_shape_mem; eauto.
Qed.

Lemma inserts_mem : forall p ks g, mem_ok g ->
  (forall k, In k ks -> 0 <= k_from k <= 65534 /\ 0 <= k_to k <= 65534) ->
  exists g', ofold (g_insert p) g ks = Ret g' /\ mem_ok g'.
Proof.
  intros p. induction ks as [|k ks IH]; intros g M H; simpl; [eauto|].
  destruct (H k (or_introl eq_refl)) as (Hf & Ht).
  destruct (insert_mem p g k M Hf Ht) as (g1 & E & M1). rewrite E. cbn [bind].
  apply IH; auto. intros; apply H; simpl; auto.
Qed.

Lemma extend_mem : forall p g hint ks, mem_ok g ->
  (forall k, In k ks -> 0 <= k_from k <= 65534 /\ 0 <= k_to k <= 65534) ->
  safe (g_extend p g hint ks) (fun x => mem_ok (fst x)).
Proof.
  intros p g hint ks M H.
  assert (G : safe (g1 <- ofold (g_insert p) g ks;; g_global p g1) (fun x => mem_ok (fst x))).
  { destruct (inserts_mem p ks g M H) as (g1 & E & M1). rewrite E. cbn [bind].
    apply global_mem; auto. }
  unfold g_extend. destruct hint as [[|[h|h|]|h]|]; auto.
  destruct ks as [|k ks]; [simpl; auto|]. destruct (H k (or_introl eq_refl)).
  apply propagate_mem; auto.
Qed.

Lemma zip_max_length : forall a b, length (fst (zip_max a b)) = length a.
Proof.
  induction a as [|x a IH]; intros [|y b]; simpl; auto.
  specialize (IH b). destruct (zip_max a b) as (m & c). simpl in IH.
  destruct (x <? y); simpl; auto.
Qed.

Lemma merge_mem : forall p g h, mem_ok g -> mem_ok h ->
  safe (g_merge p g h) (fun x => mem_ok (fst x)).
Proof.
  intros p g h M N. unfold g_merge.
  set (ab := if g_size g <? g_size h then (h, g) else (g, h)).
  assert (A : mem_ok (fst ab)) by (unfold ab; destruct (_ <? _); auto).
  destruct ab as (a & b). simpl in A. pose proof (zip_max_length (g_data a) (g_data b)) as L.
  destruct (zip_max (g_data a) (g_data b)) as (d & c). simpl in L.
  assert (M' : mem_ok (mkG (g_size a) d)). { destruct A. split; simpl; auto. rewrite L. auto. }
  destruct c; [apply global_mem; auto|]. simpl. auto.
Qed.
