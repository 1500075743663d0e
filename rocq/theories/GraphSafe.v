(** What the loops of the graph do whatever the values: they stay within the storage, only
    raise cells, and only to values that follow from what was there.  Proof helpers. *)
From Verif Require Import Machine TimeValue Interval Spec SpecSets Tac TimeValueProofs Graph
  MaxPlus GraphProofs GraphOps GraphGrow.

(** Either a panic or a result that satisfies [P] *)
Definition safe {A} (o : outcome A) (P : A -> Prop) : Prop :=
  match o with Ret x => P x | Panic => True | _ => False end.

Lemma safe_bind : forall A B (o : outcome A) (f : A -> outcome B) (P : A -> Prop) (Q : B -> Prop),
  safe o P -> (forall x, P x -> safe (f x) Q) -> safe (bind o f) Q.
Proof. intros A B [x| | |] f P Q H K; simpl in *; auto. Qed.
Lemma safe_mono : forall A (o : outcome A) (P Q : A -> Prop),
  safe o P -> (forall x, P x -> Q x) -> safe o Q.
Proof. intros A [x| | |] P Q H K; simpl in *; auto. Qed.
Lemma safe_fold : forall A B (f : A -> B -> outcome A) (I : A -> Prop) l s, I s ->
  (forall x s, In x l -> I s -> safe (f s x) I) -> safe (ofold f s l) I.
Proof.
  intros A B f I l. induction l as [|x l IH]; intros s Is H; simpl; auto.
  eapply safe_bind; [apply H; simpl; auto|]. intros y Iy. apply IH; auto.
  intros. apply H; simpl; auto.
Qed.
Lemma safe_ret : forall A (o : outcome A) (P : A -> Prop) x, safe o P -> o = Ret x -> P x.
Proof. intros A o P x H ->. auto. Qed.

Lemma tv_add_safe : forall a b, valid a -> valid b ->
  safe (tv_add a b) (fun v => valid v /\ (v < oo -> v <> - oo ->
    a <> - oo /\ b <> - oo /\ v = a + b)).
Proof.
  intros a b Ha Hb. unfold tv_add, valid in *.
  pts; unfold sat64, i64_min, i64_max in *; tests; simpl; try (split; [lia|]; intros; lia); auto.
Qed.

Definition vcells (n : Z) (D : mat) : Prop := forall i j, node n i -> node n j -> valid (D i j).
Definition below_oo (n : Z) (D : mat) : Prop := forall i j, node n i -> node n j -> D i j < oo.

(** [g1] is [g] with some cells raised to values implied by [Q] *)
Record raised (Q : (Z -> Z) -> Prop) (g g1 : graph) : Prop := {
  ra_shape : same_shape g g1;
  ra_valid : vcells (g_size g) (cell g1);
  ra_le : forall a b, node (g_size g) a -> node (g_size g) b -> cell g a b <= cell g1 a b;
  ra_sound : forall t, Q t -> below_oo (g_size g) (cell g1) -> msat (g_size g) (cell g1) t }.

Lemma raised_refl : forall (Q : (Z -> Z) -> Prop) g, vcells (g_size g) (cell g) ->
  (forall t, Q t -> below_oo (g_size g) (cell g) -> msat (g_size g) (cell g) t) -> raised Q g g.
Proof. intros. constructor; auto. intros. lia. Qed.

Lemma raised_trans : forall Q g g1 g2, raised Q g g1 -> raised Q g1 g2 -> raised Q g g2.
Proof.
  intros Q g g1 g2 [S1 V1 L1 M1] [S2 V2 L2 M2]. pose proof S1 as (Z1 & _).
  rewrite Z1 in *. constructor; auto.
  - eapply same_shape_trans; eauto.
  - intros a b Na Nb. etransitivity; eauto.
Qed.

Lemma raised_mem : forall Q g g1, raised Q g g1 -> mem_ok g -> mem_ok g1 /\ g_size g1 = g_size g.
Proof. intros Q g g1 [S _ _ _] M. split; [eapply same_shape_mem; eauto|apply S]. Qed.

Lemma set_raised : forall (Q : (Z -> Z) -> Prop) p g g1 i j v, mem_ok g -> raised Q g g1 ->
  node (g_size g) i -> node (g_size g) j -> cell g1 i j <= v -> valid v ->
  (forall t, Q t -> below_oo (g_size g) (cell g1) -> v < oo -> v <> - oo -> v <= t j - t i) ->
  exists g2, g_set p g1 i j v = Ret g2 /\ raised Q g g2 /\ cell g2 i j = v.
Proof.
  intros Q p g g1 i j v M R Ni Nj Lv Vv Sv. destruct (raised_mem _ _ _ R M) as (M1 & S1).
  destruct (g_set_ok p g1 i j v) as (g2 & E & S2 & C2); auto; try (rewrite S1; auto).
  exists g2. destruct R as [RS RV RL RM].
  assert (C2' : forall a b, node (g_size g) a -> node (g_size g) b ->
    cell g2 a b = if (a =? i) && (b =? j) then v else cell g1 a b).
  { intros a b (? & _) (? & _). auto. }
  split; auto. split; [constructor|].
  - eapply same_shape_trans; eauto.
  - intros a b Na Nb. rewrite C2' by auto. destruct (_ && _); auto.
  - intros a b Na Nb. specialize (RL a b Na Nb). rewrite C2' by auto.
    destruct ((a =? i) && (b =? j)) eqn:T; auto.
    assert (a = i) by lia. assert (b = j) by lia. subst. lia.
  - intros t Qt F. assert (F1 : below_oo (g_size g) (cell g1)).
    { intros a b Na Nb. specialize (F a b Na Nb). rewrite C2' in F by auto.
      destruct ((a =? i) && (b =? j)) eqn:T; auto.
      assert (a = i) by lia. assert (b = j) by lia. subst. lia. }
    assert (Fv : v < oo).
    { specialize (F i j Ni Nj). rewrite C2' in F by auto. rewrite !Z.eqb_refl in F. auto. }
    intros a b c Na Nb (X & L). rewrite C2' in X, L by auto.
    destruct ((a =? i) && (b =? j)) eqn:T.
    + assert (a = i) by lia. assert (b = j) by lia. subst.
      specialize (Sv t Qt F1 Fv X). lia.
    + apply (RM t Qt F1); auto. split; auto.
  - rewrite C2' by auto. rewrite !Z.eqb_refl. auto.
Qed.

Lemma raise_raised : forall (Q : (Z -> Z) -> Prop) p g g1 i j v, mem_ok g -> raised Q g g1 ->
  node (g_size g) i -> node (g_size g) j -> valid v ->
  (forall t, Q t -> below_oo (g_size g) (cell g1) -> v < oo -> v <> - oo -> v <= t j - t i) ->
  exists g2, g_raise p g1 i j v = Ret g2 /\ raised Q g g2 /\ v <= cell g2 i j.
Proof.
  intros Q p g g1 i j v M R Ni Nj Vv Sv. destruct (raised_mem _ _ _ R M) as (M1 & S1).
  unfold g_raise. rewrite g_lower_ok by (auto; rewrite S1; auto). cbn [bind].
  destruct (cell g1 i j <? v) eqn:T.
  - destruct (set_raised Q p g g1 i j v) as (g2 & E & R2 & C2); auto; [lia|].
    exists g2. rewrite C2. split; auto. split; auto. lia.
  - exists g1. split; auto. split; auto. lia.
Qed.

(** [cell i j := max (cell i j) (cell i k + w)] where [w] is a value read before or now *)
Lemma step_raised : forall (Q : (Z -> Z) -> Prop) p g g1 i k j a b, mem_ok g -> raised Q g g1 ->
  node (g_size g) i -> node (g_size g) j -> valid a -> valid b ->
  (forall t, Q t -> below_oo (g_size g) (cell g1) -> a <> - oo -> a <= t k - t i) ->
  (forall t, Q t -> below_oo (g_size g) (cell g1) -> b <> - oo -> b <= t j - t k) ->
  safe (val <- tv_add a b ;; g_raise p g1 i j val) (raised Q g).
Proof.
  intros Q p g g1 i k j a b M R Ni Nj Va Vb Ha Hb.
  eapply safe_bind; [apply tv_add_safe; auto|]. intros v (Vv & Sv). cbv beta.
  destruct (raise_raised Q p g g1 i j v) as (g2 & E & R2 & _); auto.
  - intros t Qt F F1 F2. destruct (Sv F1 F2) as (A1 & A2 & ->).
    specialize (Ha t Qt F A1). specialize (Hb t Qt F A2). lia.
  - rewrite E. auto.
Qed.

Lemma raised_read : forall Q g g1 i j, raised Q g g1 -> node (g_size g) i -> node (g_size g) j ->
  valid (cell g1 i j) /\
  forall t, Q t -> below_oo (g_size g) (cell g1) -> cell g1 i j <> - oo -> cell g1 i j <= t j - t i.
Proof.
  intros Q g g1 i j R Ni Nj. split; [apply R; auto|]. intros t Qt F X.
  apply (ra_sound _ _ _ R t Qt F); auto. split; auto. lia.
Qed.

Lemma below_oo_le : forall n D D', below_oo n D' ->
  (forall a b, node n a -> node n b -> D a b <= D' a b) -> below_oo n D.
Proof. intros n D D' H L a b Na Nb. specialize (L a b Na Nb). specialize (H a b Na Nb). lia. Qed.

Lemma plb_safe : forall (Q : (Z -> Z) -> Prop) p g io jo, mem_ok g -> vcells (g_size g) (cell g) ->
  (forall t, Q t -> below_oo (g_size g) (cell g) -> msat (g_size g) (cell g) t) ->
  node (g_size g) io -> node (g_size g) jo ->
  safe (g_plb p g io jo) (raised Q g).
Proof.
  intros Q p g io jo M V HQ Ni Nj. unfold g_plb. rewrite g_lower_ok by auto. cbn [bind].
  pose proof (raised_refl Q g V HQ) as R0. set (w := cell g io jo).
  destruct (raised_read Q g g io jo R0 Ni Nj) as (Vw & Hw). fold w in Vw, Hw.
  eapply safe_bind with (P := raised Q g).
  - apply safe_fold; auto. intros i g1 I R. apply zrange_in in I.
    destruct (raised_mem _ _ _ R M) as (M1 & S1).
    rewrite g_lower_ok by (auto; rewrite S1; auto). cbn [bind].
    destruct (raised_read Q g g1 i io R I Ni) as (Va & Ha).
    apply step_raised with (k := io); auto.
    intros t Qt F X. apply (Hw t Qt); auto. eapply below_oo_le; eauto. apply R.
  - intros g1 R1. cbv beta. destruct (raised_mem _ _ _ R1 M) as (M1 & S1).
    apply safe_fold; auto. intros j g2 I R2. apply zrange_in in I. rewrite S1 in I.
    destruct (raised_mem _ _ _ R2 M) as (M2 & S2).
    rewrite g_lower_ok by (auto; rewrite S2; auto). cbn [bind]. rewrite S2.
    set (w2 := cell g2 j jo). destruct (raised_read Q g g2 j jo R2 I Nj) as (Vw2 & Hw2).
    fold w2 in Vw2, Hw2.
    assert (G : safe (ofold (fun g i => b <- g_lower p g jo i;; val <- tv_add w2 b;; g_raise p g j i val)
      g2 (zrange 0 (g_size g)))
      (fun g3 => raised Q g g3 /\ forall a b, node (g_size g) a -> node (g_size g) b ->
         cell g2 a b <= cell g3 a b)).
    { apply safe_fold. { split; auto. intros; lia. }
      intros i g3 I3 (R3 & L3). apply zrange_in in I3.
      destruct (raised_mem _ _ _ R3 M) as (M3 & S3).
      rewrite g_lower_ok by (auto; rewrite S3; auto). cbn [bind].
      destruct (raised_read Q g g3 jo i R3 Nj I3) as (Vb & Hb).
      assert (Hw3 : forall t, Q t -> below_oo (g_size g) (cell g3) -> w2 <> - oo -> w2 <= t jo - t j).
      { intros t Qt F X. apply Hw2; auto. eapply below_oo_le; eauto. }
      eapply safe_bind; [apply tv_add_safe; auto|]. intros v (Vv & Sv). cbv beta.
      destruct (raise_raised Q p g g3 j i v) as (g4 & E & R4 & _); auto.
      - intros t Qt F F1 F2. destruct (Sv F1 F2) as (A1 & A2 & ->).
        specialize (Hw3 t Qt F A1). specialize (Hb t Qt F A2). lia.
      - rewrite E. simpl. split; auto. intros a b Na Nb. etransitivity; [apply L3; auto|].
        destruct (g_raise_ok p g3 j i v) as (g4' & E' & _ & C'); auto; try (rewrite S3; auto).
        rewrite E in E'. injection E' as <-. unfold node in *. rewrite C' by lia.
        destruct ((a =? j) && (b =? i)) eqn:T; [|lia].
        assert (a = j) by lia. assert (b = i) by lia. subst. lia. }
    eapply safe_mono; [exact G|]. tauto.
Qed.

Lemma gp_row_safe : forall Q p g g1 k i, mem_ok g -> raised Q g g1 ->
  node (g_size g) k -> node (g_size g) i -> safe (g_gp_row p g1 k i) (raised Q g).
Proof.
  intros Q p g g1 k i M R Nk Ni. unfold g_gp_row.
  destruct (raised_mem _ _ _ R M) as (M1 & S1). rewrite S1.
  apply safe_fold; auto. intros j g2 I R2. apply zrange_in in I.
  destruct (raised_mem _ _ _ R2 M) as (M2 & S2).
  rewrite !g_lower_ok by (auto; rewrite S2; auto). cbn [bind].
  destruct (raised_read Q g g2 i k R2 Ni Nk) as (Va & Ha).
  destruct (raised_read Q g g2 k j R2 Nk I) as (Vb & Hb).
  apply step_raised with (k := k); auto.
Qed.

(** A strictly positive diagonal, or nothing but raised cells *)
Definition gp_end (Q : (Z -> Z) -> Prop) (g g' : graph) : Prop :=
  exists g1 i, raised Q g g1 /\ g' = mkG 0 (g_data g1) /\ node (g_size g) i /\ 0 < cell g1 i i.

Lemma gp_rows_safe : forall Q p g k, mem_ok g -> node (g_size g) k -> forall is g1,
  raised Q g g1 -> (forall i, In i is -> node (g_size g) i) ->
  safe (g_gp_rows p g1 k is)
    (fun x => if snd x then raised Q g (fst x) else gp_end Q g (fst x)).
Proof.
  intros Q p g k M Nk. induction is as [|i is IH]; intros g1 R H; simpl; auto.
  assert (Ni : node (g_size g) i) by (apply H; simpl; auto).
  eapply safe_bind; [apply (gp_row_safe Q p g); auto|]. intros g2 R2.
  destruct (raised_mem _ _ _ R2 M) as (M2 & S2).
  rewrite g_lower_ok by (auto; rewrite S2; auto). cbn [bind].
  unfold is_strictly_positive. destruct (0 <? cell g2 i i) eqn:T.
  - simpl. exists g2, i. split; auto. split; auto. split; auto. lia.
  - apply IH; auto. intros; apply H; simpl; auto.
Qed.

Lemma gp_turns_safe : forall Q p g, mem_ok g -> forall ks g1,
  raised Q g g1 -> (forall k, In k ks -> node (g_size g) k) ->
  safe (g_gp_turns p g1 ks)
    (fun x => (snd x = Propagated /\ raised Q g (fst x)) \/
              (snd x = Fatal /\ gp_end Q g (fst x))).
Proof.
  intros Q p g M. induction ks as [|k ks IH]; intros g1 R H; simpl; auto.
  assert (Nk : node (g_size g) k) by (apply H; simpl; auto).
  destruct (raised_mem _ _ _ R M) as (M1 & S1).
  eapply safe_bind; [apply (gp_rows_safe Q p g); eauto|].
  - rewrite S1. intros i I. apply zrange_in in I. auto.
  - intros (g2 & ok) X. simpl in X. destruct ok.
    + apply IH; auto. intros; apply H; simpl; auto.
    + simpl. auto.
Qed.

Lemma global_safe : forall (Q : (Z -> Z) -> Prop) p g, mem_ok g -> vcells (g_size g) (cell g) ->
  (forall t, Q t -> below_oo (g_size g) (cell g) -> msat (g_size g) (cell g) t) ->
  safe (g_global p g)
    (fun x => (snd x = Propagated /\ raised Q g (fst x)) \/
              (snd x = Fatal /\ gp_end Q g (fst x))).
Proof.
  intros Q p g M V H. unfold g_global. apply gp_turns_safe; auto.
  - apply raised_refl; auto.
  - intros k I. apply zrange_in in I. auto.
Qed.
