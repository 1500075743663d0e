(** Growing, shrinking, resetting.  Proof helpers. *)
From Verif Require Import Machine TimeValue Interval Spec SpecSets Tac TimeValueProofs Graph
  MaxPlus GraphProofs GraphOps.

Lemma g_set_size : forall p g i j v g' s, g_set p g i j v = Ret g' ->
  g_set p (mkG s (g_data g)) i j v = Ret (mkG s (g_data g')).
Proof.
  intros p g i j v g' s. unfold g_set. destruct (g_idx p i j) as [z| | |]; simpl; try discriminate.
  destruct (vset (g_data g) z v); simpl; try discriminate. intros [= <-]. reflexivity.
Qed.

Lemma diag_fold : forall p l s m d, mem_ok (mkG m d) -> (forall i, In i l -> node m i) ->
  exists d', ofold (fun g i => g_set p g i i 0) (mkG s d) l = Ret (mkG s d') /\
    same_shape (mkG m d) (mkG m d') /\
    (forall a, In a l -> cell (mkG m d') a a = 0) /\
    (forall a b, 0 <= a -> 0 <= b -> a <> b \/ ~ In a l ->
       cell (mkG m d') a b = cell (mkG m d) a b).
Proof.
  induction l as [|x l IH]; intros s m d M H; simpl.
  - exists d. split; auto. split; auto. split; [tauto|auto].
  - pose proof (H x (or_introl eq_refl)) as Nx.
    destruct (g_set_ok p (mkG m d) x x 0 M Nx Nx) as (g1 & E1 & S1 & C1).
    pose proof (g_set_size _ _ _ _ _ _ s E1) as E2. simpl in E2. rewrite E2. simpl.
    destruct g1 as (m1 & d1). pose proof S1 as (Sz & _). simpl in Sz. subst m1. simpl.
    destruct (IH s m d1) as (d' & E3 & S3 & D3 & O3).
    { eapply same_shape_mem; eauto. } { intros; apply H; simpl; auto. }
    exists d'. split; auto. split; [eapply same_shape_trans; eauto|]. split.
    + intros a [->|I]; auto. destruct (in_dec Z.eq_dec a l); auto.
      destruct Nx. rewrite O3 by auto. rewrite C1 by auto. rewrite Z.eqb_refl. reflexivity.
    + intros a b Ha Hb O. rewrite O3 by (auto; simpl in O; tauto). rewrite C1 by auto.
      replace ((a =? x) && (b =? x)) with false; auto.
      destruct (a =? x) eqn:T1; destruct (b =? x) eqn:T2; auto. exfalso.
      assert (a = x) by lia. assert (b = x) by lia. simpl in O. destruct O; lia.
Qed.

Lemma nth_vresize : forall l n v k, (k < Z.to_nat n)%nat -> nth k (vresize l n v) v = nth k l v.
Proof.
  intros l n v k L. unfold vresize. destruct (Nat.lt_ge_cases k (length l)) as [A|A].
  - rewrite app_nth1 by (rewrite firstn_length; lia).
    rewrite <- (firstn_skipn (Z.to_nat n) l) at 2. rewrite app_nth1; auto.
    rewrite firstn_length. lia.
  - rewrite (nth_overflow l) by auto. rewrite app_nth2 by (rewrite firstn_length; lia).
    apply nth_repeat.
Qed.
Lemma length_vresize : forall l n v, length (vresize l n v) = Z.to_nat n.
Proof. intros. unfold vresize. rewrite app_length, firstn_length, repeat_length. lia. Qed.

(** Nothing but [- oo] is stored off the diagonal outside of the instants, nothing positive
    on the diagonal *)
Definition clean (g : graph) : Prop :=
  forall a b, 0 <= a -> 0 <= b -> g_size g <= Z.max a b ->
    (a <> b -> cell g a b = - oo) /\ cell g a b <= 0.

Lemma sq_u32 : forall n, 0 <= n <= 65535 -> 0 <= n * n <= 4294836225.
Proof. intros. nia. Qed.

Lemma resize_ok : forall p g m, 0 <= g_size g -> 0 <= m <= 65535 ->
  exists g', g_resize p g m = Ret g' /\ g_size g' = m /\ mem_ok g' /\ clean g' /\
    length (g_data g') = Z.to_nat (m * m) /\
    (forall i, g_size g <= i < m -> cell g' i i = 0) /\
    (forall a b, node m a -> node m b -> a <> b \/ a < g_size g -> cell g' a b = cell g a b).
Proof.
  intros p g m S0 L. pose proof (sq_u32 m L) as SQ. unfold g_resize.
  mach. replace (_ && _) with true by lia. simpl.
  set (d := vresize (g_data g) (m * m) (- oo)).
  assert (LD : length d = Z.to_nat (m * m)) by apply length_vresize.
  change (- INF) with (- oo). fold d.
  assert (M : mem_ok (mkG m d)). { split; simpl; [lia|]. rewrite LD. lia. }
  destruct (diag_fold p (zrange (g_size g) m) (g_size g) m d M) as (d' & E & S & D & O).
  { intros i I. apply zrange_in in I. unfold node. lia. }
  rewrite E. simpl. exists (mkG m d'). split; auto. split; auto.
  pose proof S as (_ & SL & _). simpl in SL.
  split; [eapply same_shape_mem; eauto|]. split.
  { intros a b Ha Hb Hm. assert (e : cell (mkG m d') a b = - oo).
    { unfold cell. apply nth_overflow. simpl. rewrite SL, LD.
      simpl in Hm. pose proof (cidx_range a b Ha Hb). nia. }
    rewrite e. unfold oo. split; [auto|lia]. }
  split; [simpl; congruence|]. split.
  - intros i Hi. apply D. apply zrange_in. auto.
  - intros a b (A1 & A2) (B1 & B2) H. rewrite O; auto.
    + unfold cell. simpl. unfold d. apply nth_vresize.
      pose proof (cidx_bound m a b (conj A1 A2) (conj B1 B2)). lia.
    + rewrite zrange_in. destruct H; [auto|right; lia].
Qed.

Lemma reset_ok : forall p g, mem_ok g ->
  exists g', g_reset p g = Ret g' /\ g_size g' = g_size g /\ mem_ok g' /\ clean g' /\
    (forall i, node (g_size g) i -> cell g' i i = 0) /\
    (forall a b, 0 <= a -> 0 <= b -> a <> b -> cell g' a b = - oo).
Proof.
  intros p g M. unfold g_reset. change (- INF) with (- oo).
  set (d := map (fun _ => - oo) (g_data g)).
  assert (M' : mem_ok (mkG (g_size g) d)).
  { destruct M. split; auto. unfold d. simpl. rewrite map_length. auto. }
  destruct (diag_fold p (zrange 0 (g_size g)) (g_size g) (g_size g) d M') as (d' & E & S & D & O).
  { intros i I. apply zrange_in in I. unfold node. lia. }
  rewrite E. exists (mkG (g_size g) d'). split; auto. split; auto.
  assert (Off : forall a b, 0 <= a -> 0 <= b -> a <> b -> cell (mkG (g_size g) d') a b = - oo).
  { intros a b Ha Hb Hab. rewrite O; auto. unfold cell, d. simpl.
    apply (map_nth (fun _ : Z => - oo) (g_data g) (- oo)). }
  split; [eapply same_shape_mem; eauto|]. split; [|split; auto].
  - intros a b Ha Hb Hm. split; [auto|]. destruct (Z.eq_dec a b) as [<-|Hab].
    + rewrite O; auto.
      * unfold cell, d. simpl. rewrite (map_nth (fun _ : Z => - oo) (g_data g) (- oo)).
        unfold oo. lia.
      * right. rewrite zrange_in. simpl in Hm. lia.
    + rewrite Off by auto. unfold oo. lia.
  - intros i Hi. apply D. apply zrange_in. auto.
Qed.

(** ** [shrink_to_fit] *)

Definition constrained (g : graph) (i : Z) : Prop :=
  exists j, 0 <= j < i /\ (cell g i j <> - oo \/ cell g j i <> - oo).

Lemma any_cell_ok : forall l d ks, (forall k, In k ks -> 0 <= k < Z.of_nat (length l)) ->
  exists b, any_cell l d ks = Ret b /\
    (b = true <-> exists k, In k ks /\ k <> d /\ nth (Z.to_nat k) l (- oo) <> - oo).
Proof.
  intros l d ks. induction ks as [|x ks IH]; intros H; simpl.
  - exists false. split; auto. split; [discriminate|]. intros (k & [] & _).
  - destruct IH as (b & E & Sp). { intros; apply H; simpl; auto. }
    destruct (x =? d) eqn:T.
    + exists b. split; auto. rewrite Sp. split; intros (k & I & N); exists k.
      * split; [right|]; auto.
      * destruct I as [->|I]; [lia|auto].
    + specialize (H x (or_introl eq_refl)). unfold vget.
      rewrite (nth_error_nth' l (- oo)) by lia. simpl. unfold is_past_infinite.
      change (- INF) with (- oo).
      destruct (nth (Z.to_nat x) l (- oo) =? - oo) eqn:T2.
      * exists b. split; auto. rewrite Sp. split; intros (k & I & N); exists k.
        -- split; [right|]; auto.
        -- destruct I as [->|I]; [lia|auto].
      * exists true. split; auto. split; auto. intros _. exists x. split; auto. lia.
Qed.

Lemma g_constrained_ok : forall p g i, mem_ok g -> node (g_size g) i ->
  exists b, g_constrained p g i = Ret b /\ (b = true <-> constrained g i).
Proof.
  intros p g i (S & L) (H1 & H2). pose proof (sq_u32 i ltac:(lia)) as SQ.
  unfold g_constrained. mach.
  replace ((0 <=? i * i) && _) with true by lia. simpl.
  replace ((0 <=? 2 * i) && _) with true by lia. cbn [bind].
  assert (i * i + 2 * i <= 4294836225) by nia.
  replace ((0 <=? i * i + 2 * i) && _) with true by lia. cbn [bind].
  replace ((0 <=? i * i + i) && _) with true by lia. cbn [bind].
  destruct (any_cell_ok (g_data g) (i * i + i) (zrange (i * i) (i * i + 2 * i + 1)))
    as (b & E & Sp).
  { intros k I. apply zrange_in in I. assert (i * i + 2 * i + 1 <= g_size g * g_size g) by nia. lia. }
  exists b. split; auto. rewrite Sp. unfold constrained. split.
  - intros (k & I & Nd & V). apply zrange_in in I.
    destruct (Z_lt_le_dec k (i * i + i)).
    + exists (k - i * i). split; [lia|]. left. unfold cell, cidx.
      replace (k - i * i <=? i) with true by lia. replace (i * i + (k - i * i)) with k by lia. auto.
    + exists (i * (i + 2) - k). split; [lia|]. right. unfold cell, cidx.
      replace (i <=? i * (i + 2) - k) with false by lia.
      replace (i * (i + 2) - (i * (i + 2) - k)) with k by lia. auto.
  - intros (j & J & V). unfold cell, cidx in V.
    replace (j <=? i) with true in V by lia. replace (i <=? j) with false in V by lia.
    destruct V as [V|V].
    + exists (i * i + j). split; [apply zrange_in; lia|]. split; [lia|auto].
    + exists (i * (i + 2) - j). split; [apply zrange_in; lia|]. split; [lia|auto].
Qed.

Lemma shrink_ok : forall p g, mem_ok g ->
  exists m, g_shrink_to_fit p g = Ret (mkG m (g_data g)) /\ 0 <= m <= g_size g /\
    (forall i, m <= i < g_size g -> ~ constrained g i) /\
    (m = 0 \/ constrained g (m - 1)).
Proof.
  intros p g M. unfold g_shrink_to_fit.
  assert (H : forall n, (n <= Z.to_nat (g_size g))%nat ->
    exists m, find_last p g n = Ret m /\ 0 <= m <= Z.of_nat n /\
      (forall i, m <= i < Z.of_nat n -> ~ constrained g i) /\ (m = 0 \/ constrained g (m - 1))).
  { induction n as [|n IH]; intros L.
    - exists 0. split; auto. split; [lia|]. split; [intros; lia|auto].
    - cbn [find_last]. destruct (g_constrained_ok p g (Z.of_nat n) M) as (b & E & Sp).
      { unfold node. lia. }
      rewrite E. cbn [bind]. destruct b.
      + exists (Z.of_nat n + 1). split; auto. split; [lia|]. split; [intros; lia|].
        right. replace (Z.of_nat n + 1 - 1) with (Z.of_nat n) by lia. apply Sp; auto.
      + destruct IH as (m & Em & Lm & Nm & Cm); [lia|]. exists m. split; auto.
        split; [lia|]. split; auto. intros i Hi. destruct (Z.eq_dec i (Z.of_nat n)).
        * subst. intros C. apply Sp in C. discriminate.
        * apply Nm. lia. }
  destruct (H (Z.to_nat (g_size g)) (le_n _)) as (m & E & Lm & Nm & Cm).
  rewrite E. simpl. exists m. split; auto. destruct M as ((S & _) & _).
  rewrite Z2Nat.id in * by auto. auto.
Qed.

Lemma clean_shape : forall g g', mem_ok g -> same_shape g g' -> clean g -> clean g'.
Proof.
  intros g g' M (S & L & T) C a b Ha Hb Hm. rewrite S in Hm.
  specialize (C a b Ha Hb Hm). replace (cell g' a b) with (cell g a b); auto. unfold cell.
  pose proof (cidx_range a b Ha Hb). destruct M as ((M & _) & _).
  pose proof (T (cidx a b) ltac:(nia)) as E.
  destruct (nth_error (g_data g) (Z.to_nat (cidx a b))) eqn:X.
  - rewrite (nth_nth_error _ _ _ _ E), (nth_nth_error _ _ _ _ X). auto.
  - apply nth_error_None in X. rewrite !nth_overflow; auto. rewrite L. auto.
Qed.

Lemma clean_shrink : forall g m, 0 <= m <= g_size g ->
  (forall i, m <= i < g_size g -> ~ constrained g i /\ cell g i i <= 0) -> clean g ->
  clean (mkG m (g_data g)).
Proof.
  intros g m L N C a b Ha Hb Hm. simpl in Hm.
  change ((a <> b -> cell g a b = - oo) /\ cell g a b <= 0).
  destruct (Z_le_gt_dec (g_size g) (Z.max a b)) as [|G]; [apply C; auto|].
  destruct (N (Z.max a b)) as (N1 & N2); [lia|].
  destruct (Z.eq_dec a b) as [<-|Hab].
  - rewrite Z.max_id in N2. split; [congruence|auto].
  - assert (e : cell g a b = - oo).
    { destruct (Z.eq_dec (cell g a b) (- oo)) as [e|e]; auto. exfalso. apply N1.
      exists (Z.min a b). split; [lia|]. destruct (Z_lt_le_dec a b).
      - rewrite Z.max_r, Z.min_l by lia. auto.
      - rewrite Z.max_l, Z.min_r by lia. auto. }
    rewrite e. unfold oo. split; [auto|lia].
Qed.
