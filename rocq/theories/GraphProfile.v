(** On graphs of at most 65535 instants no index computation overflows: the two build
    profiles behave alike.  Proof helpers. *)
From Verif Require Import Machine TimeValue Interval Spec SpecSets Tac TimeValueProofs Graph
  MaxPlus GraphProofs GraphOps GraphGrow.

Definition sz (g : graph) : Prop := 0 <= g_size g <= 65535.
(** Same outcome, and a postcondition *)
Definition agree {A} (P : A -> Prop) (o o' : outcome A) : Prop :=
  o = o' /\ forall x, o = Ret x -> P x.

Lemma agree_bind : forall A B (P : A -> Prop) (Q : B -> Prop) o o' (f f' : A -> outcome B),
  agree P o o' -> (forall x, P x -> agree Q (f x) (f' x)) -> agree Q (bind o f) (bind o' f').
Proof.
  intros A B P Q o o' f f' (<- & H) HF. destruct o as [x| | |]; simpl; try (split; [auto|discriminate]).
  apply HF. auto.
Qed.
Lemma agree_ret : forall A (P : A -> Prop) x, P x -> agree P (Ret x) (Ret x).
Proof. intros A P x H. split; auto. intros y e. injection e as <-. auto. Qed.
Lemma agree_same : forall A (o : outcome A), agree (fun _ => True) o o.
Proof. split; auto. Qed.
Lemma agree_mono : forall A (P Q : A -> Prop) o o', agree P o o' -> (forall x, P x -> Q x) -> agree Q o o'.
Proof. intros A P Q o o' (E & H) I. split; auto. Qed.
Lemma agree_fold : forall A B (f f' : A -> B -> outcome A) (I : A -> Prop) l s, I s ->
  (forall x s, In x l -> I s -> agree I (f s x) (f' s x)) -> agree I (ofold f s l) (ofold f' s l).
Proof.
  intros A B f f' I. induction l as [|x l IH]; intros s Is H; simpl.
  - apply agree_ret. auto.
  - eapply agree_bind; [apply H; simpl; auto|]. intros y Iy. apply IH; auto. intros; apply H; simpl; auto.
Qed.

Section Two.
Variables p q : profile.

Lemma idx_agree : forall i j, 0 <= i <= 65534 -> 0 <= j <= 65534 ->
  agree (fun _ => True) (g_idx p i j) (g_idx q i j).
Proof.
  intros i j Hi Hj. split; auto.
  rewrite !(g_idx_ok _ 65535) by (unfold node; lia). auto.
Qed.
Lemma lower_agree : forall g i j, 0 <= i <= 65534 -> 0 <= j <= 65534 ->
  agree (fun _ => True) (g_lower p g i j) (g_lower q g i j).
Proof.
  intros g i j Hi Hj. unfold g_lower. eapply agree_bind; [apply idx_agree; auto|].
  intros k _. apply agree_same.
Qed.
Lemma set_agree : forall g i j v, 0 <= i <= 65534 -> 0 <= j <= 65534 ->
  agree (fun g' => g_size g' = g_size g) (g_set p g i j v) (g_set q g i j v).
Proof.
  intros g i j v Hi Hj. unfold g_set. eapply agree_bind; [apply idx_agree; auto|].
  intros k _. eapply agree_bind; [apply agree_same|]. intros d _. apply agree_ret. auto.
Qed.
Lemma raise_agree : forall g i j v, 0 <= i <= 65534 -> 0 <= j <= 65534 ->
  agree (fun g' => g_size g' = g_size g) (g_raise p g i j v) (g_raise q g i j v).
Proof.
  intros g i j v Hi Hj. unfold g_raise. eapply agree_bind; [apply lower_agree; auto|].
  intros k _. destruct (k <? v); [apply set_agree; auto|apply agree_ret; auto].
Qed.

Lemma resize_agree : forall g n, sz g -> 0 <= n <= 65535 ->
  agree (fun g' => g_size g' = n) (g_resize p g n) (g_resize q g n).
Proof.
  intros g n S L. unfold g_resize. eapply agree_bind with (P := fun _ => True).
  - split; auto. pose proof (sq_u32 n L). mach. replace (_ && _) with true by lia. auto.
  - intros nn _. eapply agree_bind with (P := fun _ => True).
    + apply agree_fold; auto. intros i s I _. apply zrange_in in I. unfold sz in S.
      eapply agree_mono; [apply set_agree; lia|auto].
    + intros g1 _. apply agree_ret. auto.
Qed.
Lemma reset_agree : forall g, sz g -> agree sz (g_reset p g) (g_reset q g).
Proof.
  intros g S. unfold g_reset. apply agree_fold; auto. intros i s I Ss. apply zrange_in in I.
  unfold sz in *. eapply agree_mono; [apply set_agree; lia|]. simpl. intros x ->. auto.
Qed.

Lemma constrained_agree : forall g i, sz g -> 0 <= i < g_size g ->
  agree (fun _ => True) (g_constrained p g i) (g_constrained q g i).
Proof.
  intros g i S L. split; auto. unfold g_constrained, sz in *.
  assert (0 <= i * i /\ i * i + 2 * i <= 4294967295) by nia.
  mach. replace ((0 <=? i * i) && _) with true by lia. cbn [bind].
  replace ((0 <=? 2 * i) && _) with true by lia. cbn [bind].
  replace ((0 <=? i * i + 2 * i) && _) with true by lia. cbn [bind].
  replace ((0 <=? i * i + i) && _) with true by lia. auto.
Qed.
Lemma find_agree : forall g n, sz g -> Z.of_nat n <= g_size g ->
  agree (fun m => 0 <= m <= Z.of_nat n) (find_last p g n) (find_last q g n).
Proof.
  intros g. induction n as [|m IH]; intros S L; simpl find_last.
  - apply agree_ret. lia.
  - eapply agree_bind; [apply constrained_agree; auto; lia|]. intros c _. destruct c.
    + apply agree_ret. lia.
    + eapply agree_mono; [apply IH; auto; lia|]. simpl. intros; lia.
Qed.
Lemma shrink_agree : forall g, sz g -> agree sz (g_shrink_to_fit p g) (g_shrink_to_fit q g).
Proof.
  intros g S. unfold g_shrink_to_fit. eapply agree_bind; [apply find_agree; auto; unfold sz in S; lia|].
  intros m L. apply agree_ret. unfold sz in *. simpl. lia.
Qed.

Lemma plb_agree : forall g io jo, sz g -> 0 <= io <= 65534 -> 0 <= jo <= 65534 ->
  agree (fun g' => g_size g' = g_size g) (g_plb p g io jo) (g_plb q g io jo).
Proof.
  intros g io jo S Hi Hj. unfold sz in S. unfold g_plb.
  eapply agree_bind; [apply lower_agree; auto|]. intros w _.
  eapply agree_bind with (P := fun g' => g_size g' = g_size g).
  - apply agree_fold; auto. intros i s I Es. apply zrange_in in I.
    eapply agree_bind; [apply lower_agree; lia|]. intros a _.
    eapply agree_bind; [apply agree_same|]. intros v _. rewrite <- Es. apply raise_agree; lia.
  - intros g1 E1. cbv beta in *. rewrite E1. apply agree_fold; auto. intros j s I Es. apply zrange_in in I.
    eapply agree_bind; [apply lower_agree; lia|]. intros a _. rewrite Es.
    apply agree_fold; auto. intros i s' I' Es'. apply zrange_in in I'.
    eapply agree_bind; [apply lower_agree; lia|]. intros b _.
    eapply agree_bind; [apply agree_same|]. intros v _. rewrite <- Es'. apply raise_agree; lia.
Qed.

Lemma propagate_agree : forall g k, sz g -> 0 <= k_from k <= 65534 -> 0 <= k_to k <= 65534 ->
  agree (fun x => sz (fst x)) (g_propagate p g k) (g_propagate q g k).
Proof.
  intros g k S Hf Ht. pose proof S as S'. unfold sz in S'. unfold g_propagate. destruct (k_empty k).
  { apply agree_ret. auto. }
  cbv zeta. destruct (g_size g <=? _) eqn:T.
  - eapply agree_bind with (P := fun m => m = Z.max (k_from k) (k_to k) + 1).
    { split; [|intros x; mach; replace (_ && _) with true by lia; intros e; injection e; auto].
      mach. replace (_ && _) with true by lia. auto. }
    intros m ->. eapply agree_bind; [apply resize_agree; auto; lia|]. intros g1 E1.
    eapply agree_bind; [apply set_agree; auto|]. intros g2 E2.
    eapply agree_bind; [apply set_agree; auto|]. intros g3 E3. cbv beta in *.
    apply agree_ret. unfold sz. simpl. lia.
  - eapply agree_bind; [apply lower_agree; auto|]. intros ft _.
    eapply agree_bind; [apply lower_agree; auto|]. intros tf _.
    assert (R : forall r, agree (fun x : graph * presult => sz (fst x)) (Ret (g, r)) (Ret (g, r))).
    { intros r. apply agree_ret. auto. }
    destruct (k_lo k <=? ft).
    + destruct (_ <=? tf); auto. destruct (_ <? ft); auto.
      eapply agree_bind; [apply set_agree; auto|]. intros g1 E1. cbv beta in *.
      eapply agree_bind; [apply plb_agree; auto; unfold sz; lia|]. intros g2 E2. cbv beta in *.
      apply agree_ret. unfold sz. simpl. lia.
    + destruct (_ <? tf); auto.
      eapply agree_bind; [apply set_agree; auto|]. intros g1 E1. cbv beta in *.
      eapply agree_bind; [apply plb_agree; auto; unfold sz; lia|]. intros g2 E2. cbv beta in *.
      eapply agree_bind; [apply lower_agree; auto|]. intros tf2 _.
      destruct (_ <? _); [|apply agree_ret; unfold sz; simpl; lia].
      eapply agree_bind; [apply set_agree; auto|]. intros g3 E3. cbv beta in *.
      eapply agree_bind; [apply plb_agree; auto; unfold sz; lia|]. intros g4 E4. cbv beta in *.
      apply agree_ret. unfold sz. simpl. lia.
Qed.

Lemma gp_row_agree : forall g k i, sz g -> 0 <= k < g_size g -> 0 <= i < g_size g ->
  agree (fun g' => g_size g' = g_size g) (g_gp_row p g k i) (g_gp_row q g k i).
Proof.
  intros g k i S Hk Hi. unfold sz in S. unfold g_gp_row. apply agree_fold; auto.
  intros j s I Es. apply zrange_in in I.
  eapply agree_bind; [apply lower_agree; lia|]. intros a _.
  eapply agree_bind; [apply lower_agree; lia|]. intros b _.
  eapply agree_bind; [apply agree_same|]. intros v _. rewrite <- Es. apply raise_agree; lia.
Qed.
Lemma gp_rows_agree : forall k is g, sz g -> 0 <= k < g_size g ->
  (forall i, In i is -> 0 <= i < g_size g) ->
  agree (fun x => sz (fst x) /\ (snd x = true -> g_size (fst x) = g_size g))
    (g_gp_rows p g k is) (g_gp_rows q g k is).
Proof.
  intros k. induction is as [|i is IH]; intros g S Hk H; simpl.
  - apply agree_ret. auto.
  - assert (Hi : 0 <= i < g_size g) by (apply H; simpl; auto). pose proof S as S'. unfold sz in S'.
    eapply agree_bind; [apply gp_row_agree; auto|]. intros g1 E1. cbv beta in *.
    eapply agree_bind; [apply lower_agree; lia|]. intros d _.
    destruct (is_strictly_positive d).
    + apply agree_ret. simpl. split; [unfold sz; simpl; lia|discriminate].
    + rewrite <- E1. apply IH; try (unfold sz; lia).
      rewrite E1. intros; apply H; simpl; auto.
Qed.
Lemma gp_turns_agree : forall ks g, sz g -> (forall k, In k ks -> 0 <= k < g_size g) ->
  agree (fun x => sz (fst x)) (g_gp_turns p g ks) (g_gp_turns q g ks).
Proof.
  induction ks as [|k ks IH]; intros g S H; simpl.
  - apply agree_ret. auto.
  - eapply agree_bind; [apply gp_rows_agree; auto|].
    + apply H; simpl; auto.
    + intros i I. apply zrange_in in I. auto.
    + intros (g1 & ok) (S1 & E1). simpl in *. destruct ok.
      * apply IH; auto. rewrite E1 by auto. intros; apply H; auto.
      * apply agree_ret. auto.
Qed.
Lemma global_agree : forall g, sz g -> agree (fun x => sz (fst x)) (g_global p g) (g_global q g).
Proof.
  intros g S. unfold g_global. apply gp_turns_agree; auto. intros k I. apply zrange_in in I. auto.
Qed.

Lemma insert_agree : forall g k, sz g -> 0 <= k_from k <= 65534 -> 0 <= k_to k <= 65534 ->
  agree sz (g_insert p g k) (g_insert q g k).
Proof.
  intros g k S Hf Ht. unfold g_insert. cbv zeta. eapply agree_bind with (P := sz).
  - destruct (_ <=? _) eqn:T; [|apply agree_ret; auto].
    eapply agree_bind with (P := fun m => m = Z.max (k_from k) (k_to k) + 1).
    { split; [|intros x; mach; replace (_ && _) with true by lia; intros e; injection e; auto].
      mach. replace (_ && _) with true by lia. auto. }
    intros m ->. eapply agree_mono; [apply resize_agree; auto; lia|]. simpl. unfold sz. lia.
  - intros g1 S1. eapply agree_bind; [apply raise_agree; auto|]. intros g2 E2. cbv beta in *.
    eapply agree_mono; [apply raise_agree; auto|]. simpl. unfold sz in *. intros; lia.
Qed.
Lemma extend_agree : forall g hint ks, sz g ->
  (forall k, In k ks -> 0 <= k_from k <= 65534 /\ 0 <= k_to k <= 65534) ->
  agree (fun x => sz (fst x)) (g_extend p g hint ks) (g_extend q g hint ks).
Proof.
  intros g hint ks S H.
  assert (G : agree (fun x : graph * presult => sz (fst x))
    (g1 <- ofold (g_insert p) g ks ;; g_global p g1) (g1 <- ofold (g_insert q) g ks ;; g_global q g1)).
  { eapply agree_bind; [apply agree_fold with (I := sz); auto|].
    - intros k s I Ss. destruct (H k I). apply insert_agree; auto.
    - intros g1 S1. apply global_agree; auto. }
  unfold g_extend. destruct hint as [[|[| |]|]|]; auto.
  - apply agree_ret. auto.
  - destruct ks as [|k r]; [apply agree_ret; auto|]. destruct (H k) as (A & B); [simpl; auto|].
    apply propagate_agree; auto.
Qed.
Lemma merge_agree : forall g h, sz g -> sz h ->
  agree (fun x => sz (fst x)) (g_merge p g h) (g_merge q g h).
Proof.
  intros g h Sg Sh. unfold g_merge. cbv zeta. destruct (g_size g <? g_size h).
  - destruct (zip_max _ _) as (d & c). destruct c; [apply global_agree; auto|apply agree_ret; auto].
  - destruct (zip_max _ _) as (d & c). destruct c; [apply global_agree; auto|apply agree_ret; auto].
Qed.
End Two.
