(** Saturated sums.  A solution is never lost: when a bound beyond the time values is used,
    the addition of opposite infinities panics.  Proof helpers. *)
From Verif Require Import Machine TimeValue Interval Spec SpecSets Tac TimeValueProofs Graph
  MaxPlus FwBound GraphProofs GraphOps GraphGrow GraphSafe GraphMem GraphHist GraphTight SpecGraph.

Definition st (n : Z) (s : graph) : Prop := mem_ok s /\ g_size s = n /\ vcells n (cell s).
(** [t] satisfies each cell, [+oo] included *)
Definition tsat (n : Z) (D : mat) (t : Z -> Z) : Prop :=
  forall i j, node n i -> node n j -> D i j = - oo \/ D i j <= t j - t i.
Lemma tsat_msat : forall n D t, tsat n D t <-> msat n D t.
Proof.
  intros n D t. split.
  - intros H i j w Ni Nj (X & Y). destruct (H i j Ni Nj); lia.
  - intros H i j Ni Nj. destruct (Z.eq_dec (D i j) (- oo)); auto. right. apply H; auto. split; auto. lia.
Qed.

Lemma ofold_inv : forall A B (f : A -> B -> outcome A) (I : A -> Prop) l s s', I s ->
  (forall x s s', In x l -> I s -> f s x = Ret s' -> I s') -> ofold f s l = Ret s' -> I s'.
Proof.
  intros A B f I. induction l as [|x l IH]; intros s s' Is H E; simpl in E.
  - injection E as <-. auto.
  - destruct (f s x) as [y| | |] eqn:Q; try discriminate. simpl in E.
    eapply IH; [..|exact E]; [eapply H; eauto; simpl; auto|]. intros; eapply H; eauto; simpl; auto.
Qed.
Lemma ofold_reach : forall A B (f : A -> B -> outcome A) (I : A -> Prop) l s s' x, I s ->
  (forall x s s', In x l -> I s -> f s x = Ret s' -> I s') -> ofold f s l = Ret s' -> In x l ->
  exists s1 s2, I s1 /\ f s1 x = Ret s2.
Proof.
  intros A B f I. induction l as [|y l IH]; intros s s' x Is H E Ix; simpl in E; [destruct Ix|].
  destruct (f s y) as [s1| | |] eqn:Q; try discriminate. simpl in E.
  destruct Ix as [->|Ix]; [eauto|].
  eapply IH; [..|exact E|exact Ix]; [eapply H; eauto; simpl; auto|]. intros; eapply H; eauto; simpl; auto.
Qed.

Lemma tv_add_ret : forall a b v, valid a -> valid b -> tv_add a b = Ret v ->
  valid v /\ ~ (a = oo /\ b = - oo) /\ ~ (a = - oo /\ b = oo) /\
  (a = - oo \/ b = - oo -> v = - oo) /\
  (a < oo -> b < oo -> v = - oo \/ v <= a + b) /\ (b <= 0 -> v <= a) /\ (a <= 0 -> v <= b).
Proof.
  intros a b v Ha Hb. unfold tv_add, valid in *.
  pts; unfold sat64, i64_min, i64_max in *; tests; intros E; try discriminate; injection E as <-; lia.
Qed.

Definition upd2 (D : mat) (i j v : Z) : mat := fun x y => if (x =? i) && (y =? j) then v else D x y.

Section Step.
Variables (p : profile) (n : Z).

Lemma step_ret : forall s s' i j a b, st n s -> node n i -> node n j -> valid a -> valid b ->
  (val <- tv_add a b ;; g_raise p s i j val) = Ret s' ->
  exists v, tv_add a b = Ret v /\ st n s' /\
    forall x y, node n x -> node n y -> cell s' x y = upd2 (cell s) i j (Z.max (cell s i j) v) x y.
Proof.
  intros s s' i j a b (M & S & V) Ni Nj Va Vb E.
  destruct (tv_add a b) as [v| | |] eqn:Q; try discriminate. cbn [bind] in E. exists v. split; auto.
  rewrite <- S in Ni, Nj.
  destruct (g_raise_ok p s i j v M Ni Nj) as (s2 & E2 & Sh & C). rewrite E in E2. injection E2 as <-.
  assert (C' : forall x y, node n x -> node n y ->
    cell s' x y = upd2 (cell s) i j (Z.max (cell s i j) v) x y).
  { intros x y (Nx & _) (Ny & _). unfold upd2. apply C; auto. }
  split; auto. split; [eapply same_shape_mem; eauto|]. split; [rewrite <- S; apply Sh|].
  intros x y Nx Ny. rewrite C' by auto. unfold upd2.
  rewrite S in *. pose proof (V i j Ni Nj).
  destruct (tv_add_ret a b v Va Vb Q) as (Vv & _). destruct (_ && _); auto. unfold valid in *. lia.
Qed.

(** the two cells of ([x],[k]) are opposite infinities *)
Definition bad (k x : Z) (D : mat) : Prop :=
  x <> k /\ D k k <= 0 /\ ((D x k = oo /\ D k x = - oo) \/ (D x k = - oo /\ D k x = oo)).
Lemma step_bad : forall k x s s' i j, st n s -> node n k -> node n x -> bad k x (cell s) ->
  node n i -> node n j ->
  (val <- tv_add (cell s i k) (cell s k j) ;; g_raise p s i j val) = Ret s' ->
  ~ (i = x /\ j = x) /\ st n s' /\ bad k x (cell s') /\ cell s' i k = cell s i k.
Proof.
  intros k x s s' i j S Nk Nx (Nxk & Dk & H) Ni Nj E. pose proof S as (_ & _ & V).
  destruct (step_ret s s' i j _ _ S Ni Nj (V i k Ni Nk) (V k j Nk Nj) E) as (v & Q & S' & C).
  destruct (tv_add_ret _ _ _ (V i k Ni Nk) (V k j Nk Nj) Q) as (Vv & P1 & P2 & P3 & P4 & P5 & P6).
  split. { intros (-> & ->). lia. }
  split; auto. rewrite !C by auto. unfold bad. rewrite !C by auto. unfold upd2.
  assert (F1 : (if (x =? i) && (k =? j) then Z.max (cell s i j) v else cell s x k) = cell s x k).
  { destruct ((x =? i) && (k =? j)) eqn:T; auto. assert (i = x /\ j = k) as (-> & ->) by lia. lia. }
  assert (F2 : (if (k =? i) && (x =? j) then Z.max (cell s i j) v else cell s k x) = cell s k x).
  { destruct ((k =? i) && (x =? j)) eqn:T; auto. assert (i = k /\ j = x) as (-> & ->) by lia. lia. }
  rewrite F1, F2. split.
  - split; auto. split; auto.
    destruct ((k =? i) && (k =? j)) eqn:T; auto. assert (i = k /\ j = k) as (-> & ->) by lia. lia.
  - destruct ((i =? i) && (k =? j)) eqn:T; auto. assert (j = k) by lia. subst j. lia.
Qed.

(** no [+oo] at instant [k] *)
Definition nok (k : Z) (D : mat) : Prop := forall x, node n x -> D x k < oo /\ D k x < oo.
Lemma step_tsat : forall k t s s' i j, st n s -> node n k -> tsat n (cell s) t -> nok k (cell s) ->
  node n i -> node n j ->
  (val <- tv_add (cell s i k) (cell s k j) ;; g_raise p s i j val) = Ret s' ->
  st n s' /\ tsat n (cell s') t /\ nok k (cell s') /\ cell s' i k = cell s i k.
Proof.
  intros k t s s' i j S Nk T O Ni Nj E. pose proof S as (_ & _ & V).
  destruct (step_ret s s' i j _ _ S Ni Nj (V i k Ni Nk) (V k j Nk Nj) E) as (v & Q & S' & C).
  destruct (tv_add_ret _ _ _ (V i k Ni Nk) (V k j Nk Nj) Q) as (Vv & P1 & P2 & P3 & P4 & P5 & P6).
  assert (Dk : cell s k k <= 0).
  { destruct (T k k Nk Nk); [|lia]. unfold oo in *. lia. }
  assert (Oi : cell s i k < oo) by (apply O; auto). assert (Oj : cell s k j < oo) by (apply O; auto).
  assert (Sv : v = - oo \/ v <= t j - t i).
  { destruct (P4 Oi Oj) as [?|P]; auto.
    destruct (T i k Ni Nk) as [e|A]; [left; apply P3; auto|].
    destruct (T k j Nk Nj) as [e|B]; [left; apply P3; auto|]. lia. }
  split; auto. split.
  { intros x y Nx Ny. rewrite C by auto. unfold upd2. destruct ((x =? i) && (y =? j)) eqn:X; auto.
    assert (x = i /\ y = j) as (-> & ->) by lia.
    pose proof (V i j Ni Nj). unfold valid in *. destruct (T i j Ni Nj), Sv; lia. }
  split.
  { intros x Nx. rewrite !C by auto. unfold upd2. split.
    - destruct ((x =? i) && (k =? j)) eqn:X; [|apply O; auto].
      assert (x = i /\ j = k) as (-> & ->) by lia. lia.
    - destruct ((k =? i) && (x =? j)) eqn:X; [|apply O; auto].
      assert (i = k /\ x = j) as (-> & ->) by lia. lia. }
  rewrite C by auto. unfold upd2. destruct ((i =? i) && (k =? j)) eqn:X; auto.
  assert (j = k) by lia. subst j. lia.
Qed.

(** If [+oo] is stored at [k] and there is a solution, then there is a bad pair. *)
Lemma bad_or_nok : forall k t D, node n k -> vcells n D -> tsat n D t ->
  (forall x, node n x -> ~ bad k x D) -> nok k D.
Proof.
  intros k t D Nk V T H x Nx. pose proof (V x k Nx Nk) as V1. pose proof (V k x Nk Nx) as V2.
  unfold valid in *. specialize (H x Nx). unfold bad in H.
  assert (Dk : D k k <= 0). { destruct (T k k Nk Nk); [|lia]. unfold oo in *. lia. }
  destruct (Z.eq_dec x k) as [->|e]; [unfold oo in *; lia|].
  destruct (T x k Nx Nk) as [A|A], (T k x Nk Nx) as [B|B]; unfold oo in *; lia.
Qed.

(** ** Rows of the global propagation *)

Lemma row_bad : forall k x s s' i, st n s -> node n k -> node n x -> bad k x (cell s) -> node n i ->
  g_gp_row p s k i = Ret s' -> i <> x /\ st n s' /\ bad k x (cell s').
Proof.
  intros k x s s' i S Nk Nx B Ni E. unfold g_gp_row in E. pose proof S as (_ & Sz & _). rewrite Sz in E.
  set (I := fun s => st n s /\ bad k x (cell s)).
  assert (ST : forall j s s', In j (zrange 0 n) -> I s ->
    (a <- g_lower p s i k ;; b <- g_lower p s k j ;; val <- tv_add a b ;; g_raise p s i j val) = Ret s' ->
    ~ (i = x /\ j = x) /\ I s').
  { intros j s1 s2 Ij (S1 & B1) E1. apply zrange_in in Ij. pose proof S1 as (M1 & Z1 & _).
    rewrite !g_lower_ok in E1 by (auto; rewrite Z1; auto). cbn [bind] in E1.
    destruct (step_bad k x s1 s2 i j) as (H1 & H2 & H3 & _); auto. split; auto. split; auto. }
  split.
  - intros ->. destruct (ofold_reach _ _ _ I _ _ _ x (conj S B)
      (fun j s s' Ij Is Es => proj2 (ST j s s' Ij Is Es)) E) as (s1 & s2 & I1 & E1).
    + apply zrange_in. auto.
    + destruct (ST x s1 s2) as (H & _); auto. apply zrange_in. auto.
  - apply (ofold_inv _ _ _ I _ _ _ (conj S B) (fun j s s' Ij Is Es => proj2 (ST j s s' Ij Is Es)) E).
Qed.
Lemma row_tsat : forall k t s s' i, st n s -> node n k -> tsat n (cell s) t -> nok k (cell s) ->
  node n i -> g_gp_row p s k i = Ret s' ->
  st n s' /\ tsat n (cell s') t /\ nok k (cell s').
Proof.
  intros k t s s' i S Nk T O Ni E. unfold g_gp_row in E. pose proof S as (_ & Sz & _). rewrite Sz in E.
  set (I := fun s => st n s /\ tsat n (cell s) t /\ nok k (cell s)).
  apply (ofold_inv _ _ _ I _ _ _ (conj S (conj T O))) in E; auto.
  intros j s1 s2 Ij (S1 & T1 & O1) E1. apply zrange_in in Ij. pose proof S1 as (M1 & Z1 & _).
  rewrite !g_lower_ok in E1 by (auto; rewrite Z1; auto). cbn [bind] in E1.
  destruct (step_tsat k t s1 s2 i j) as (H1 & H2 & H3 & _); auto. split; auto.
Qed.

Lemma rows_bad : forall k x, node n k -> node n x -> forall is s s', st n s -> bad k x (cell s) ->
  (forall i, In i is -> node n i) -> In x is -> g_gp_rows p s k is <> Ret (s', true).
Proof.
  intros k x Nk Nx. induction is as [|i is IH]; intros s s' S B H Ix E; simpl in *; [auto|].
  destruct (g_gp_row p s k i) as [s1| | |] eqn:Q; try discriminate. cbn [bind] in E.
  destruct (row_bad k x s s1 i S Nk Nx B (H i (or_introl eq_refl)) Q) as (D & S1 & B1).
  destruct Ix as [<-|Ix]; [congruence|].
  destruct (g_lower p s1 i i) as [d| | |]; try discriminate. cbn [bind] in E.
  destruct (is_strictly_positive d); [discriminate|].
  eapply (IH s1 s'); eauto.
Qed.
Lemma rows_tsat : forall k t, node n k -> forall is s s', st n s -> tsat n (cell s) t ->
  nok k (cell s) -> (forall i, In i is -> node n i) -> g_gp_rows p s k is = Ret (s', true) ->
  st n s' /\ tsat n (cell s') t.
Proof.
  intros k t Nk. induction is as [|i is IH]; intros s s' S T O H E; simpl in *.
  - injection E as <-. auto.
  - destruct (g_gp_row p s k i) as [s1| | |] eqn:Q; try discriminate. cbn [bind] in E.
    destruct (row_tsat k t s s1 i S Nk T O (H i (or_introl eq_refl)) Q) as (S1 & T1 & O1).
    destruct (g_lower p s1 i i) as [d| | |]; try discriminate. cbn [bind] in E.
    destruct (is_strictly_positive d); [discriminate|].
    eapply IH; eauto.
Qed.

Lemma turns_tsat : forall t ks s s', st n s -> tsat n (cell s) t ->
  (forall k, In k ks -> node n k) -> g_gp_turns p s ks = Ret (s', Propagated) ->
  st n s' /\ tsat n (cell s') t.
Proof.
  intros t. induction ks as [|k ks IH]; intros s s' S T H E; simpl in E.
  - injection E as <-. auto.
  - assert (Nk : node n k) by (apply H; simpl; auto). pose proof S as (_ & Sz & V). rewrite Sz in E.
    destruct (g_gp_rows p s k (zrange 0 n)) as [(s1 & ok)| | |] eqn:Q; try discriminate.
    cbn [bind] in E. destruct ok; [|discriminate].
    assert (R : forall i, In i (zrange 0 n) -> node n i) by (intros i I; apply zrange_in in I; auto).
    destruct (rows_tsat k t Nk (zrange 0 n) s s1 S T) as (S1 & T1); auto.
    { apply (bad_or_nok k t); auto. intros x Nx B.
      apply (rows_bad k x Nk Nx (zrange 0 n) s s1); auto. apply zrange_in. auto. }
    apply (IH s1); auto. intros; apply H; simpl; auto.
Qed.

(** A positive diagonal cell is never computed when there is a solution. *)
Definition dsat (k : Z) (t : Z -> Z) (D : mat) : Prop := forall x, node n x ->
  D x x <= 0 /\ (D x k = - oo \/ D x k <= t k - t x) /\ (D k x = - oo \/ D k x <= t x - t k).
Lemma step_dsat : forall k t s s' i j, st n s -> node n k -> dsat k t (cell s) ->
  node n i -> node n j ->
  (val <- tv_add (cell s i k) (cell s k j) ;; g_raise p s i j val) = Ret s' ->
  st n s' /\ dsat k t (cell s').
Proof.
  intros k t s s' i j S Nk T Ni Nj E. pose proof S as (_ & _ & V).
  destruct (step_ret s s' i j _ _ S Ni Nj (V i k Ni Nk) (V k j Nk Nj) E) as (v & Q & S' & C).
  destruct (tv_add_ret _ _ _ (V i k Ni Nk) (V k j Nk Nj) Q) as (Vv & P1 & P2 & P3 & P4 & P5 & P6).
  split; auto. pose proof (T k Nk) as (Dk & _).
  pose proof (T i Ni) as (Ti1 & Ti2 & Ti3). pose proof (V i k Ni Nk) as V1. pose proof (V k i Nk Ni) as V2.
  pose proof (V k j Nk Nj) as V3.
  intros x Nx. rewrite !C by auto. unfold upd2, valid in *. destruct (T x Nx) as (T1 & T2 & T3).
  split; [|split].
  - destruct ((x =? i) && (x =? j)) eqn:X; auto. assert (x = i /\ j = i) as (-> & ->) by lia.
    unfold oo in *. lia.
  - destruct ((x =? i) && (k =? j)) eqn:X; auto. assert (x = i /\ j = k) as (-> & ->) by lia.
    replace (Z.max (cell s i k) v) with (cell s i k) by lia. auto.
  - destruct ((k =? i) && (x =? j)) eqn:X; auto. assert (i = k /\ x = j) as (-> & ->) by lia.
    replace (Z.max (cell s k j) v) with (cell s k j) by lia. auto.
Qed.
Lemma rows_dsat : forall k t, node n k -> forall is s s', st n s -> dsat k t (cell s) ->
  (forall i, In i is -> node n i) -> g_gp_rows p s k is <> Ret (s', false).
Proof.
  intros k t Nk. induction is as [|i is IH]; intros s s' S T H E; simpl in *; [discriminate|].
  assert (Ni : node n i) by auto.
  destruct (g_gp_row p s k i) as [s1| | |] eqn:Q; try discriminate. cbn [bind] in E.
  assert (S1 : st n s1 /\ dsat k t (cell s1)).
  { unfold g_gp_row in Q. pose proof S as (_ & Sz & _). rewrite Sz in Q.
    set (I := fun s => st n s /\ dsat k t (cell s)).
    apply (ofold_inv _ _ _ I _ _ _ (conj S T)) in Q; auto.
    intros j s2 s3 Ij (S2 & T2) E2. apply zrange_in in Ij. pose proof S2 as (M2 & Z2 & _).
    rewrite !g_lower_ok in E2 by (auto; rewrite Z2; auto). cbn [bind] in E2.
    apply (step_dsat k t s2 s3 i j); auto. }
  destruct S1 as (S1 & T1). pose proof S1 as (M1 & Z1 & _).
  rewrite g_lower_ok in E by (auto; rewrite Z1; auto). cbn [bind] in E.
  destruct (is_strictly_positive (cell s1 i i)) eqn:P.
  - destruct (T1 i Ni) as (D & _). unfold is_strictly_positive in P. lia.
  - apply (IH s1 s' S1 T1); auto.
Qed.

Lemma turns_complete : forall t ks s s' r, st n s -> tsat n (cell s) t ->
  (forall k, In k ks -> node n k) -> g_gp_turns p s ks = Ret (s', r) -> r = Propagated.
Proof.
  intros t. induction ks as [|k ks IH]; intros s s' r S T H E; simpl in E.
  - injection E as <- <-. auto.
  - assert (Nk : node n k) by (apply H; simpl; auto). pose proof S as (_ & Sz & V). rewrite Sz in E.
    destruct (g_gp_rows p s k (zrange 0 n)) as [(s1 & ok)| | |] eqn:Q; try discriminate.
    cbn [bind] in E.
    assert (R : forall i, In i (zrange 0 n) -> node n i) by (intros i I; apply zrange_in in I; auto).
    destruct ok.
    + assert (X : st n s1 /\ tsat n (cell s1) t).
      { apply (turns_tsat t [k] s); auto. intros k' [<-|[]]; auto.
        simpl. rewrite Sz, Q. auto. }
      apply (IH s1 s'); auto; [apply X|apply X|]. intros; apply H; simpl; auto.
    + exfalso. apply (rows_dsat k t Nk (zrange 0 n) s s1); auto.
      intros x Nx. split; [|split; apply T; auto].
      destruct (T x x Nx Nx); unfold oo in *; lia.
Qed.

(** ** [propagate_lower_bound] *)

Lemma plb_row_bad : forall k x s s' j, st n s -> node n k -> node n x -> bad k x (cell s) -> node n j ->
  ofold (fun g i => b <- g_lower p g k i ;; val <- tv_add (cell s j k) b ;; g_raise p g j i val)
    s (zrange 0 n) = Ret s' -> j <> x /\ st n s' /\ bad k x (cell s').
Proof.
  intros k x s s' j S Nk Nx B Nj E. set (a := cell s j k) in *.
  set (I := fun s => st n s /\ bad k x (cell s) /\ cell s j k = a).
  assert (ST : forall i s s', In i (zrange 0 n) -> I s ->
    (b <- g_lower p s k i ;; val <- tv_add a b ;; g_raise p s j i val) = Ret s' ->
    ~ (j = x /\ i = x) /\ I s').
  { intros i s1 s2 Ii (S1 & B1 & A1) E1. apply zrange_in in Ii. pose proof S1 as (M1 & Z1 & _).
    rewrite !g_lower_ok in E1 by (auto; rewrite Z1; auto). cbn [bind] in E1. rewrite <- A1 in E1.
    destruct (step_bad k x s1 s2 j i) as (H1 & H2 & H3 & H4); auto. split; auto.
    split; auto. split; auto. congruence. }
  assert (I0 : I s) by (split; auto).
  split.
  - intros ->. destruct (ofold_reach _ _ _ I _ _ _ x I0
      (fun j s s' Ij Is Es => proj2 (ST j s s' Ij Is Es)) E) as (s1 & s2 & I1 & E1).
    + apply zrange_in. auto.
    + destruct (ST x s1 s2) as (H & _); auto. apply zrange_in. auto.
  - destruct (ofold_inv _ _ _ I _ _ _ I0 (fun j s s' Ij Is Es => proj2 (ST j s s' Ij Is Es)) E)
      as (H1 & H2 & _). auto.
Qed.
Lemma plb_row_tsat : forall k t s s' j, st n s -> node n k -> tsat n (cell s) t -> nok k (cell s) ->
  node n j ->
  ofold (fun g i => b <- g_lower p g k i ;; val <- tv_add (cell s j k) b ;; g_raise p g j i val)
    s (zrange 0 n) = Ret s' -> st n s' /\ tsat n (cell s') t /\ nok k (cell s').
Proof.
  intros k t s s' j S Nk T O Nj E. set (a := cell s j k) in *.
  set (I := fun s => st n s /\ tsat n (cell s) t /\ nok k (cell s) /\ cell s j k = a).
  assert (I0 : I s) by (split; auto).
  apply (ofold_inv _ _ _ I _ _ _ I0) in E; [destruct E as (E1 & E2 & E3 & _); auto|].
  intros i s1 s2 Ii (S1 & T1 & O1 & A1) E1. apply zrange_in in Ii. pose proof S1 as (M1 & Z1 & _).
  rewrite !g_lower_ok in E1 by (auto; rewrite Z1; auto). cbn [bind] in E1. rewrite <- A1 in E1.
  destruct (step_tsat k t s1 s2 j i) as (H1 & H2 & H3 & H4); auto.
  split; auto. split; auto. split; auto. congruence.
Qed.

Lemma plb_tsat : forall t g g' io jo, st n g -> node n io -> node n jo -> tsat n (cell g) t ->
  (forall i, node n i -> cell g i io < oo) -> g_plb p g io jo = Ret g' ->
  st n g' /\ tsat n (cell g') t /\ (forall i, node n i -> cell g' i jo < oo).
Proof.
  intros t g g' io jo S Ni Nj T Cio E. pose proof S as (M & Sz & V).
  unfold g_plb in E. rewrite g_lower_ok in E by (auto; rewrite Sz; auto). cbn [bind] in E.
  rewrite Sz in E. set (w := cell g io jo) in *. pose proof (V io jo Ni Nj) as Vw. fold w in Vw.
  destruct (ofold _ g (zrange 0 n)) as [g1| | |] eqn:E1; try discriminate. cbn [bind] in E.
  (* the new bound is not +oo *)
  assert (Ww : w < oo).
  { unfold valid in Vw. destruct (Z.eq_dec w oo) as [e|e]; [|lia]. exfalso.
    assert (Nij : io <> jo).
    { intros ->. destruct (T jo jo Nj Nj) as [X|X]; unfold w, oo in *; lia. }
    assert (B0 : cell g jo io = - oo).
    { pose proof (V jo io Nj Ni). unfold valid in *.
      destruct (T jo io Nj Ni); auto. destruct (T io jo Ni Nj); unfold w in e; unfold oo in *; lia. }
    set (I := fun s => st n s /\ cell s jo io = - oo).
    assert (ST : forall i s s', In i (zrange 0 n) -> I s ->
      (a <- g_lower p s i io ;; val <- tv_add a w ;; g_raise p s i jo val) = Ret s' -> I s').
    { intros i s s' Ii (S1 & B1) Q. apply zrange_in in Ii. pose proof S1 as (M1 & Z1 & V1).
      rewrite g_lower_ok in Q by (auto; rewrite Z1; auto). cbn [bind] in Q.
      destruct (step_ret s s' i jo _ _ S1 Ii Nj (V1 i io Ii Ni) Vw Q) as (v & _ & S2 & C).
      split; auto. rewrite C by auto. unfold upd2.
      replace ((jo =? i) && (io =? jo)) with false by lia. auto. }
    destruct (ofold_reach _ _ _ I _ _ _ jo (conj S B0) ST E1) as (s1 & s2 & (S1 & B1) & Q).
    - apply zrange_in. auto.
    - pose proof S1 as (M1 & Z1 & V1).
      rewrite g_lower_ok in Q by (auto; rewrite Z1; auto). cbn [bind] in Q.
      destruct (step_ret s1 s2 jo jo _ _ S1 Nj Nj (V1 jo io Nj Ni) Vw Q) as (v & Qv & _).
      destruct (tv_add_ret _ _ _ (V1 jo io Nj Ni) Vw Qv) as (_ & _ & X & _). lia. }
  (* first loop *)
  assert (H1 : st n g1 /\ tsat n (cell g1) t).
  { set (I := fun s => st n s /\ tsat n (cell s) t /\ (forall i, node n i -> cell s i io < oo)).
    apply (ofold_inv _ _ _ I) in E1; [destruct E1 as (X1 & X2 & _); auto|split; auto|].
    intros i s s' Ii (S1 & T1 & C1) Q. apply zrange_in in Ii. pose proof S1 as (M1 & Z1 & V1).
    rewrite g_lower_ok in Q by (auto; rewrite Z1; auto). cbn [bind] in Q.
    destruct (step_ret s s' i jo _ _ S1 Ii Nj (V1 i io Ii Ni) Vw Q) as (v & Qv & S2 & C).
    destruct (tv_add_ret _ _ _ (V1 i io Ii Ni) Vw Qv) as (Vv & P1 & P2 & P3 & P4 & P5 & P6).
    split; auto. split.
    - intros x y Nx Ny. rewrite C by auto. unfold upd2.
      destruct ((x =? i) && (y =? jo)) eqn:X; auto. assert (x = i /\ y = jo) as (-> & ->) by lia.
      assert (Sv : v = - oo \/ v <= t jo - t i).
      { destruct (P4 (C1 i Ii) Ww) as [?|P]; auto.
        destruct (T1 i io Ii Ni) as [e|A]; [left; apply P3; auto|].
        destruct (T io jo Ni Nj) as [e|B]; [left; apply P3; auto|]. fold w in B. lia. }
      pose proof (V1 i jo Ii Nj). unfold valid in *. destruct (T1 i jo Ii Nj), Sv; lia.
    - intros x Nx. rewrite C by auto. unfold upd2.
      destruct ((x =? i) && (io =? jo)) eqn:X; auto. assert (x = i /\ io = jo) as (-> & ->) by lia.
      pose proof (C1 i Ii). destruct (T jo jo Nj Nj); unfold w, oo in *; lia. }
  destruct H1 as (S1 & T1). pose proof S1 as (M1 & Z1 & V1). rewrite Z1 in E.
  set (F := fun g j => _ <- _ ;; _) in E.
  assert (FE : forall s j, st n s -> node n j -> F s j =
    ofold (fun g i => b <- g_lower p g jo i ;; val <- tv_add (cell s j jo) b ;; g_raise p g j i val)
      s (zrange 0 n)).
  { intros s j S2 N2. unfold F. pose proof S2 as (M2 & Z2 & _).
    rewrite g_lower_ok by (auto; rewrite Z2; auto). cbn [bind]. rewrite Z2. auto. }
  assert (O1 : nok jo (cell g1)).
  { apply (bad_or_nok jo t); auto. intros x Nx B.
    set (I := fun s => st n s /\ bad jo x (cell s)).
    assert (ST : forall j s s', In j (zrange 0 n) -> I s -> F s j = Ret s' -> j <> x /\ I s').
    { intros j s s' Ij (S2 & B2) Q. apply zrange_in in Ij. rewrite FE in Q by auto.
      destruct (plb_row_bad jo x s s' j) as (X1 & X2 & X3); auto. split; auto. split; auto. }
    destruct (ofold_reach _ _ _ I _ _ _ x (conj S1 B)
      (fun j s s' Ij Is Es => proj2 (ST j s s' Ij Is Es)) E) as (s1 & s2 & I1 & E2).
    - apply zrange_in. auto.
    - destruct (ST x s1 s2) as (H & _); auto. apply zrange_in. auto. }
  set (I := fun s => st n s /\ tsat n (cell s) t /\ nok jo (cell s)).
  apply (ofold_inv _ _ _ I) in E.
  - destruct E as (X1 & X2 & X3). split; auto. split; auto. intros i Hi. apply X3; auto.
  - split; auto.
  - intros j s s' Ij (S2 & T2 & O2) Q. apply zrange_in in Ij. rewrite FE in Q by auto.
    destruct (plb_row_tsat jo t s s' j) as (X1 & X2 & X3); auto. split; auto.
Qed.
End Step.

Lemma global_tsat : forall p g g' t, mem_ok g -> vcells (g_size g) (cell g) ->
  msat (g_size g) (cell g) t -> g_global p g = Ret (g', Propagated) ->
  msat (g_size g) (cell g') t.
Proof.
  intros p g g' t M V S E. apply tsat_msat. apply tsat_msat in S. unfold g_global in E.
  apply (turns_tsat p (g_size g) t _ g g') in E; auto.
  - apply E.
  - split; auto.
  - intros k I. apply zrange_in in I. auto.
Qed.

Lemma propagate_tsat : forall p g k g' t, mem_ok g -> vcells (g_size g) (cell g) -> kvalid k ->
  node (g_size g) (k_from k) -> node (g_size g) (k_to k) ->
  (forall i, node (g_size g) i -> cell g i (k_from k) < oo /\ cell g i (k_to k) < oo) ->
  msat (g_size g) (cell g) t -> ksat k t ->
  g_propagate p g k = Ret (g', Propagated) -> msat (g_size g) (cell g') t.
Proof.
  intros p g k g' t M V (_ & _ & Vl & Vu) Nf Nt O S K E. apply tsat_msat. apply tsat_msat in S.
  unfold g_propagate in E. destruct (k_empty k); [discriminate|]. cbv zeta in E.
  set (f := k_from k) in *. set (u := k_to k) in *. set (n := g_size g) in *.
  replace (n <=? Z.max f u) with false in E by (unfold node in *; lia).
  rewrite !g_lower_ok in E by auto. cbn [bind] in E. unfold tv_neg in E.
  assert (K1 : k_lo k = - oo \/ k_lo k <= t u - t f) by apply K.
  assert (K2 : - k_up k = - oo \/ - k_up k <= t f - t u).
  { destruct K as (_ & K). simpl in K. fold u f in K. lia. }
  assert (Vn : valid (- k_up k)) by (unfold valid in *; lia).
  assert (ST : forall s a b v, st n s -> tsat n (cell s) t -> node n a -> node n b -> valid v ->
    (v = - oo \/ v <= t b - t a) -> (forall i, node n i -> cell s i a < oo) ->
    exists s', g_set p s a b v = Ret s' /\ st n s' /\ tsat n (cell s') t /\
      (forall i, node n i -> cell s' i a < oo)).
  { intros s a b v (Ms & Zs & Vs) Ts Na Nb Vv Sv Oa. rewrite <- Zs in Na, Nb.
    destruct (g_set_ok p s a b v Ms Na Nb) as (s' & Es & Sh & C). rewrite Zs in *.
    assert (C' : forall x y, node n x -> node n y ->
      cell s' x y = if (x =? a) && (y =? b) then v else cell s x y).
    { intros x y (Nx & _) (Ny & _). apply C; auto. }
    exists s'. split; auto. split; [|split].
    - split; [eapply same_shape_mem; eauto|]. split; [rewrite <- Zs; apply Sh|].
      intros x y Nx Ny. rewrite C' by auto. destruct (_ && _); auto.
    - intros x y Nx Ny. rewrite C' by auto. destruct ((x =? a) && (y =? b)) eqn:X; auto.
      assert (x = a /\ y = b) as (-> & ->) by lia. auto.
    - intros x Nx. rewrite C' by auto. destruct ((x =? a) && (a =? b)) eqn:X; auto.
      assert (a = b) by lia. subst b. unfold oo in *. lia. }
  assert (S0 : st n g) by (split; auto).
  destruct (k_lo k <=? cell g f u) eqn:T1.
  - destruct (- k_up k <=? cell g u f) eqn:T2; [discriminate|].
    destruct (k_up k <? cell g f u) eqn:T3; [discriminate|].
    destruct (ST g u f (- k_up k)) as (g1 & E1 & S1 & T4 & C1); auto; [intros; apply O; auto|].
    rewrite E1 in E. cbn [bind] in E.
    destruct (g_plb p g1 u f) as [g2| | |] eqn:E2; try discriminate. injection E as <-.
    apply (plb_tsat p n t) in E2; auto. apply E2.
  - destruct (- k_lo k <? cell g u f) eqn:T2; [discriminate|].
    destruct (ST g f u (k_lo k)) as (g1 & E1 & S1 & T4 & C1); auto; [intros; apply O; auto|].
    rewrite E1 in E. cbn [bind] in E.
    destruct (g_plb p g1 f u) as [g2| | |] eqn:E2; try discriminate. cbn [bind] in E.
    apply (plb_tsat p n t) in E2; auto. destruct E2 as (S2 & T5 & C2).
    destruct (g_lower p g2 u f) as [tf| | |]; try discriminate. cbn [bind] in E.
    destruct (tf <? - k_up k); [|injection E as <-; auto].
    destruct (ST g2 u f (- k_up k)) as (g3 & E3 & S3 & T6 & C3); auto.
    rewrite E3 in E. cbn [bind] in E.
    destruct (g_plb p g3 u f) as [g4| | |] eqn:E4; try discriminate. injection E as <-.
    apply (plb_tsat p n t) in E4; auto. apply E4.
Qed.

Lemma global_complete : forall p g g' r t, mem_ok g -> vcells (g_size g) (cell g) ->
  msat (g_size g) (cell g) t -> g_global p g = Ret (g', r) -> r = Propagated.
Proof.
  intros p g g' r t M V S E. apply tsat_msat in S. unfold g_global in E.
  apply (turns_complete p (g_size g) t _ g g') in E; auto.
  - split; auto.
  - intros k I. apply zrange_in in I. auto.
Qed.

Lemma propagate_complete : forall p g k g' r t, mem_ok g -> vcells (g_size g) (cell g) -> kvalid k ->
  k_empty k = false -> msat (g_size g) (cell g) t -> ksat k t ->
  g_propagate p g k = Ret (g', r) -> accepted r.
Proof.
  intros p g k g' r t M V (If & It & Vl & Vu) Em S K E. apply tsat_msat in S.
  unfold g_propagate in E. rewrite Em in E. cbv zeta in E.
  set (f := k_from k) in *. set (u := k_to k) in *. set (n := g_size g) in *.
  destruct (n <=? Z.max f u) eqn:T0.
  { destruct (add32 p _ _) as [w| | |]; try discriminate. cbn [bind] in E.
    destruct (g_resize _ _ _) as [g1| | |]; try discriminate. cbn [bind] in E.
    destruct (g_set p g1 f u _) as [g2| | |]; try discriminate. cbn [bind] in E.
    destruct (g_set p g2 u f _) as [g3| | |]; try discriminate. cbn [bind] in E.
    injection E as <- <-. right. auto. }
  assert (Nf : node n f) by (unfold node; lia). assert (Nt : node n u) by (unfold node; lia).
  rewrite !g_lower_ok in E by auto. cbn [bind] in E. unfold tv_neg in E.
  destruct K as (K1 & K2). simpl in K1, K2. fold f u in K1, K2.
  pose proof (V f u Nf Nt) as V1. pose proof (V u f Nt Nf) as V2. unfold valid in *.
  destruct (S f u Nf Nt) as [A|A], (S u f Nt Nf) as [B|B];
  (destruct (k_lo k <=? cell g f u) eqn:T1;
   [destruct (- k_up k <=? cell g u f) eqn:T2; [injection E as <- <-; unfold accepted; auto|];
    destruct (k_up k <? cell g f u) eqn:T3; [exfalso; lia|];
    destruct (g_set _ _ _ _ _) as [g1| | |]; try discriminate; cbn [bind] in E;
    destruct (g_plb _ _ _ _) as [g2| | |]; try discriminate; injection E as <- <-; unfold accepted; auto
   |destruct (- k_lo k <? cell g u f) eqn:T2; [exfalso; lia|];
    destruct (g_set _ _ _ _ _) as [g1| | |]; try discriminate; cbn [bind] in E;
    destruct (g_plb _ _ _ _) as [g2| | |]; try discriminate; cbn [bind] in E;
    destruct (g_lower _ _ _ _) as [d| | |]; try discriminate; cbn [bind] in E;
    destruct (d <? - k_up k); [|injection E as <- <-; unfold accepted; auto];
    destruct (g_set _ _ _ _ _) as [g3| | |]; try discriminate; cbn [bind] in E;
    destruct (g_plb _ _ _ _) as [g4| | |]; try discriminate; injection E as <- <-; unfold accepted; auto]).
Qed.
