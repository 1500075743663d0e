(** Difference constraints over the integers: (max,+) matrices, walks, closure.  Pure
    mathematics, independent of the model of the code.

    [D i j] is the greatest known lower bound of [t j - t i], [- oo] meaning none.  To
    avoid case analyses on [- oo], a matrix is mostly used through [ent D i j w]: "the
    matrix says that [t j - t i >= w]". *)
From Verif Require Import Machine Spec.

Definition mat := Z -> Z -> Z.
Definition ent (D : mat) (i j w : Z) : Prop := D i j <> - oo /\ w <= D i j.
Definition node (n i : Z) : Prop := 0 <= i < n.
Definition zero_diag (n : Z) (D : mat) : Prop := forall i, node n i -> D i i = 0.
Definition triangle (n : Z) (D : mat) : Prop :=
  forall i k j a b, node n i -> node n k -> node n j ->
    ent D i k a -> ent D k j b -> ent D i j (a + b).
Definition closed (n : Z) (D : mat) : Prop := zero_diag n D /\ triangle n D.
Definition msat (n : Z) (D : mat) (t : Z -> Z) : Prop :=
  forall i j w, node n i -> node n j -> ent D i j w -> w <= t j - t i.

(** ** Extending a partial solution *)

Lemma max_of : forall (l : list Z), l <> [] -> exists m, In m l /\ forall x, In x l -> x <= m.
Proof.
  induction l as [|x r IH]; intros N; [congruence|].
  destruct r as [|y s].
  - exists x. split; [left; auto|]. intros z [<-|[]]. lia.
  - destruct IH as (m & I & M); [congruence|].
    exists (Z.max x m). split.
    + destruct (Z.max_spec x m) as [[_ ->]|[_ ->]]; [right; auto | left; auto].
    + intros z [<-|J]; [lia|]. specialize (M z J). lia.
Qed.

Lemma min_of : forall (l : list Z), l <> [] -> exists m, In m l /\ forall x, In x l -> m <= x.
Proof.
  intros l N. destruct (max_of (map Z.opp l)) as (m & I & M).
  { destruct l; simpl; congruence. }
  apply in_map_iff in I. destruct I as (y & <- & I).
  exists y. split; auto. intros x J.
  specialize (M (- x) (in_map Z.opp l x J)). lia.
Qed.

(** A point between all the [lo] and all the [hi] *)
Lemma between : forall lo hi : list Z,
  (forall a b, In a lo -> In b hi -> a <= b) ->
  exists z, (forall a, In a lo -> a <= z) /\ (forall b, In b hi -> z <= b).
Proof.
  intros lo hi H. destruct lo as [|a lo'] eqn:E.
  - destruct hi as [|b hi'] eqn:E2.
    + exists 0. split; intros ? [].
    + destruct (min_of (b :: hi')) as (m & I & M); [congruence|].
      exists m. split; [intros ? []|]. auto.
  - destruct (max_of (a :: lo')) as (m & I & M); [congruence|].
    exists m. split; auto.
Qed.

Definition psat (D : mat) (S : list Z) (t : Z -> Z) : Prop :=
  forall i j w, In i S -> In j S -> ent D i j w -> w <= t j - t i.

Definition upd (t : Z -> Z) (x v : Z) : Z -> Z := fun y => if y =? x then v else t y.

Lemma extend_one : forall n D S x t,
  closed n D -> Forall (node n) S -> node n x -> ~ In x S -> psat D S t ->
  exists v, psat D (x :: S) (upd t x v).
Proof.
  intros n D S x t (Z0 & T) NS Nx NI P.
  assert (NS' : forall s, In s S -> node n s) by (rewrite Forall_forall in NS; auto).
  set (fl := filter (fun s => negb (D s x =? - oo)) S).
  set (fh := filter (fun s => negb (D x s =? - oo)) S).
  destruct (between (map (fun s => t s + D s x) fl) (map (fun s => t s - D x s) fh))
    as (z & L & H).
  { intros a b Ia Ib. apply in_map_iff in Ia. apply in_map_iff in Ib.
    destruct Ia as (i & <- & Ii). destruct Ib as (j & <- & Ij).
    apply filter_In in Ii. apply filter_In in Ij.
    destruct Ii as (Ii & Fi). destruct Ij as (Ij & Fj).
    apply negb_true_iff, Z.eqb_neq in Fi. apply negb_true_iff, Z.eqb_neq in Fj.
    assert (E : ent D i j (D i x + D x j)).
    { apply (T i x j); auto; split; auto; lia. }
    specialize (P i j _ Ii Ij E). lia. }
  exists z. intros i j w Ii Ij E. unfold upd.
  destruct (i =? x) eqn:Ei; destruct (j =? x) eqn:Ej.
  - apply Z.eqb_eq in Ei. apply Z.eqb_eq in Ej. subst.
    destruct E as (_ & E). rewrite (Z0 x Nx) in E. lia.
  - apply Z.eqb_eq in Ei. apply Z.eqb_neq in Ej. subst i.
    destruct Ij as [Ij|Ij]; [congruence|].
    assert (K : z <= t j - D x j).
    { apply H. apply (in_map (fun s => t s - D x s)). apply filter_In. split; auto.
      apply negb_true_iff, Z.eqb_neq. apply E. }
    destruct E. lia.
  - apply Z.eqb_neq in Ei. apply Z.eqb_eq in Ej. subst j.
    destruct Ii as [Ii|Ii]; [congruence|].
    assert (K : t i + D i x <= z).
    { apply L. apply (in_map (fun s => t s + D s x)). apply filter_In. split; auto.
      apply negb_true_iff, Z.eqb_neq. apply E. }
    destruct E. lia.
  - apply Z.eqb_neq in Ei. apply Z.eqb_neq in Ej.
    destruct Ii as [Ii|Ii]; [congruence|]. destruct Ij as [Ij|Ij]; [congruence|]. eauto.
Qed.

Lemma extend_many : forall n D rest S t,
  closed n D -> Forall (node n) S -> Forall (node n) rest -> psat D S t ->
  exists t', (forall s, In s S -> t' s = t s) /\ psat D (rest ++ S) t'.
Proof.
  intros n D rest. induction rest as [|x r IH]; intros S t C NS NR P.
  - exists t. split; auto.
  - inversion NR as [|? ? Nx Nr]; subst.
    destruct (IH S t C NS Nr P) as (t1 & A & P1).
    destruct (in_dec Z.eq_dec x (r ++ S)) as [I|I].
    + exists t1. split; auto. intros i j w Ii Ij.
      apply P1; [destruct Ii as [<-|]|destruct Ij as [<-|]]; auto.
    + destruct (extend_one n D (r ++ S) x t1) as (v & Pv); auto.
      { apply Forall_app; auto. }
      exists (upd t1 x v). split; [|exact Pv].
      intros s Is. unfold upd. destruct (s =? x) eqn:E; auto.
      apply Z.eqb_eq in E. subst. exfalso. apply I, in_app_iff; auto.
Qed.

Definition nodes (n : Z) : list Z := map Z.of_nat (seq 0 (Z.to_nat n)).
Lemma nodes_in : forall n i, In i (nodes n) <-> node n i.
Proof.
  intros n i. unfold nodes, node. rewrite in_map_iff. split.
  - intros (k & <- & I). apply in_seq in I. lia.
  - intros H. exists (Z.to_nat i). split; [lia|]. apply in_seq. lia.
Qed.

(** Any partial solution of a closed matrix extends to a full one. *)
Theorem closed_extends : forall n D S t,
  closed n D -> Forall (node n) S -> psat D S t ->
  exists t', (forall s, In s S -> t' s = t s) /\ msat n D t'.
Proof.
  intros n D S t C NS P.
  destruct (extend_many n D (nodes n) S t) as (t' & A & P'); auto.
  { apply Forall_forall. intros x. apply nodes_in. }
  exists t'. split; auto. intros i j w Ni Nj E.
  apply P'; auto; apply in_app_iff; left; apply nodes_in; auto.
Qed.

(** Every value between the two bounds of a pair is realised by a solution. *)
Theorem closed_minimal : forall n D i j v,
  closed n D -> node n i -> node n j ->
  (forall w, ent D i j w -> w <= v) -> (forall w, ent D j i w -> v <= - w) ->
  exists t, msat n D t /\ t j - t i = v.
Proof.
  intros n D i j v C Ni Nj L U.
  destruct C as (Z0 & T).
  destruct (Z.eq_dec i j) as [->|N].
  - assert (V : v = 0).
    { assert (E : ent D j j 0).
      { unfold ent. rewrite Z0; auto. unfold oo. lia. }
      specialize (L 0 E). specialize (U 0 E). lia. }
    destruct (closed_extends n D [] (fun _ => 0)) as (t & _ & S); auto.
    { split; auto. }
    { intros a b w []. }
    exists t. split; auto. lia.
  - destruct (closed_extends n D [i; j] (fun x => if x =? j then v else 0)) as (t & A & S).
    { split; auto. }
    { constructor; [auto|constructor; auto]. }
    { intros a b w Ia Ib E. simpl in Ia, Ib.
      assert (Eij : (i =? j) = false) by (apply Z.eqb_neq; auto).
      destruct Ia as [<-|[<-|[]]]; destruct Ib as [<-|[<-|[]]];
        rewrite ?Z.eqb_refl, ?Eij.
      - destruct E as (_ & E). rewrite (Z0 i Ni) in E. lia.
      - specialize (L w E). lia.
      - specialize (U w E). lia.
      - destruct E as (_ & E). rewrite (Z0 j Nj) in E. lia. }
    exists t. split; auto.
    rewrite (A j), (A i) by (simpl; auto).
    rewrite Z.eqb_refl. replace (i =? j) with false by (symmetry; apply Z.eqb_neq; auto). lia.
Qed.

Corollary closed_consistent : forall n D, closed n D -> exists t, msat n D t.
Proof.
  intros n D C. destruct (closed_extends n D [] (fun _ => 0)) as (t & _ & S); eauto.
  intros a b w [].
Qed.

(** ** Adding one edge *)

(** [D'] is [D] with the constraint [t jo - t io >= w] and its consequences. *)
Definition added (n : Z) (D : mat) (io jo w : Z) (D' : mat) : Prop :=
  forall i j c, node n i -> node n j ->
    (ent D' i j c <->
     ent D i j c \/ exists a b, ent D i io a /\ ent D jo j b /\ c <= a + w + b).

Lemma ent_mono : forall D i j a b, ent D i j a -> b <= a -> ent D i j b.
Proof. intros D i j a b (A & B) L. split; auto. lia. Qed.

Lemma ent_diag : forall n D i w, zero_diag n D -> node n i -> (ent D i i w <-> w <= 0).
Proof.
  intros n D i w Z0 N. unfold ent. rewrite (Z0 i N). split; [lia|].
  intros L. split; [unfold oo; lia | lia].
Qed.

Lemma ent_eq : forall D D' i j i' j', (forall w, ent D i j w <-> ent D' i' j' w) ->
  (- oo <= D i j) -> (- oo <= D' i' j') -> D i j = D' i' j'.
Proof.
  intros D D' i j i' j' H L L'.
  destruct (Z.eq_dec (D i j) (- oo)) as [E|E]; destruct (Z.eq_dec (D' i' j') (- oo)) as [E'|E'].
  - lia.
  - destruct (proj2 (H (D' i' j'))) as (A & _); [split; auto; lia|]. congruence.
  - destruct (proj1 (H (D i j))) as (A & _); [split; auto; lia|]. congruence.
  - destruct (proj2 (H (D' i' j'))) as (_ & A); [split; auto; lia|].
    destruct (proj1 (H (D i j))) as (_ & B); [split; auto; lia|]. lia.
Qed.

Lemma added_closed : forall n D io jo w D',
  closed n D -> node n io -> node n jo ->
  (forall x, ent D jo io x -> w + x <= 0) ->
  added n D io jo w D' -> closed n D'.
Proof.
  intros n D io jo w D' (Z0 & T) Ni Nj Cons A. split.
  - intros i N.
    assert (Lo : ent D' i i 0).
    { apply A; auto. left. apply (ent_diag n D); auto. lia. }
    assert (Up : forall c, ent D' i i c -> c <= 0).
    { intros c E. apply A in E; auto. destruct E as [E|(a & b & Ea & Eb & L)].
      - apply (ent_diag n D) in E; auto.
      - pose proof (T jo i io b a Nj N Ni Eb Ea) as E. specialize (Cons _ E). lia. }
    destruct Lo as (F & L). specialize (Up (D' i i)). unfold ent in Up. lia.
  - intros i k j x y N1 N2 N3 E1 E2.
    apply A in E1; auto. apply A in E2; auto. apply A; auto.
    destruct E1 as [E1|(a & b & Ea & Eb & L)]; destruct E2 as [E2|(a' & b' & Ea' & Eb' & L')].
    + left. eauto.
    + right. exists (x + a'), b'. repeat split; try apply Eb'.
      * destruct (T i k io x a' N1 N2 Ni E1 Ea'). auto.
      * destruct (T i k io x a' N1 N2 Ni E1 Ea'). auto.
      * lia.
    + right. exists a, (b + y). split; [auto|]. split; [|lia].
      apply (T jo k j); auto.
    + right. exists a, b'. split; [auto|]. split; [auto|].
      pose proof (T jo k io b a' Nj N2 Ni Eb Ea') as E. specialize (Cons _ E). lia.
Qed.

Lemma added_msat : forall n D io jo w D' t,
  zero_diag n D -> node n io -> node n jo -> added n D io jo w D' ->
  (msat n D' t <-> msat n D t /\ w <= t jo - t io).
Proof.
  intros n D io jo w D' t Z0 Ni Nj A. split.
  - intros S. split.
    + intros i j c N1 N2 E. apply S; auto. apply A; auto.
    + apply S; auto. apply A; auto. right. exists 0, 0.
      rewrite !(ent_diag n D) by auto. lia.
  - intros (S & W) i j c N1 N2 E. apply A in E; auto.
    destruct E as [E|(a & b & Ea & Eb & L)]; [auto|].
    specialize (S _ _ _ N1 Ni Ea) as S1. specialize (S _ _ _ Nj N2 Eb) as S2. lia.
Qed.

(** ** Walks *)

Lemma NoDup_suffix : forall A (l m : list A), NoDup (l ++ m) -> NoDup m.
Proof.
  induction l as [|x l IH]; intros m N; simpl in N; auto. inversion N; auto.
Qed.

Section Walks.
  Variable E : Z -> Z -> Z -> Prop.   (* edges: from, to, weight *)

  (** a walk: start, intermediate nodes, end, total weight *)
  Inductive walk : Z -> list Z -> Z -> Z -> Prop :=
  | walk_one i j w : E i j w -> walk i [] j w
  | walk_cons i x j l w1 w2 : E i x w1 -> walk x l j w2 -> walk i (x :: l) j (w1 + w2).

  Lemma walk_app : forall i l1 x w1, walk i l1 x w1 -> forall l2 j w2, walk x l2 j w2 ->
    walk i (l1 ++ x :: l2) j (w1 + w2).
  Proof.
    induction 1 as [i x w1 H|i y x l w w' H W IH]; intros l2 j w2 W2; simpl.
    - constructor; auto.
    - rewrite <- Z.add_assoc. constructor; auto.
  Qed.

  Lemma walk_split : forall l1 i x l2 j w, walk i (l1 ++ x :: l2) j w ->
    exists w1 w2, walk i l1 x w1 /\ walk x l2 j w2 /\ w = w1 + w2.
  Proof.
    induction l1 as [|y l1 IH]; intros i x l2 j w W; simpl in W; inversion W; subst.
    - exists w1, w2. split; [constructor; auto|]. auto.
    - destruct (IH y x l2 j w2) as (a & b & A & B & ->); auto.
      exists (w1 + a), b. split; [constructor; auto|]. split; auto. lia.
  Qed.

  (** When cycles weigh at most 0 there is a walk without repetition that weighs at least
      as much.  [Q] holds of the ends, [P] of the intermediate nodes. *)
  Lemma walk_simple : forall (P Q : Z -> Prop),
    (forall x, P x -> Q x) ->
    (forall x l w, Q x -> Forall P l -> walk x l x w -> w <= 0) ->
    forall m l i j w, (length l <= m)%nat -> Q i -> Q j -> Forall P l -> i <> j ->
    walk i l j w ->
    exists l' w', walk i l' j w' /\ w <= w' /\ NoDup (i :: l' ++ [j]) /\ Forall P l'.
  Proof.
    intros P Q PQ Cyc. induction m as [|m IH]; intros l i j w Lm Pi Pj Pl Nij W.
    - destruct l; simpl in Lm; [|lia]. exists [], w. split; auto. split; [lia|].
      split; auto. simpl. repeat constructor; simpl; intuition.
    - destruct (in_dec Z.eq_dec i l) as [Ii|Ii].
      { apply in_split in Ii. destruct Ii as (l1 & l2 & ->).
        apply walk_split in W. destruct W as (w1 & w2 & W1 & W2 & ->).
        apply Forall_app in Pl. destruct Pl as (Pl1 & Pl2). inversion Pl2; subst.
        specialize (Cyc i l1 w1 Pi Pl1 W1).
        destruct (IH l2 i j w2) as (l' & w' & W' & L & N & Pl'); auto.
        { rewrite app_length in Lm. simpl in Lm. lia. }
        exists l', w'. repeat split; auto. lia. }
      destruct (in_dec Z.eq_dec j l) as [Ij|Ij].
      { apply in_split in Ij. destruct Ij as (l1 & l2 & ->).
        apply walk_split in W. destruct W as (w1 & w2 & W1 & W2 & ->).
        apply Forall_app in Pl. destruct Pl as (Pl1 & Pl2). inversion Pl2; subst.
        assert (C2 : w2 <= 0) by (apply (Cyc j l2); auto).
        destruct (IH l1 i j w1) as (l' & w' & W' & L & N & Pl'); auto.
        { rewrite app_length in Lm. simpl in Lm. lia. }
        exists l', w'. repeat split; auto. lia. }
      inversion W as [|? x ? l0 w1 w2 H W2]; subst.
      + exists [], w. split; auto. split; [lia|]. split; auto.
        simpl. repeat constructor; simpl; intuition.
      + inversion Pl; subst.
        destruct (IH l0 x j w2) as (l' & w' & W' & L & N & Pl'); auto.
        { simpl in Lm. lia. }
        { intros ->. apply Ij. left; auto. }
        destruct (in_dec Z.eq_dec i l') as [Iil|Iil].
        * (* i reappears: cut *)
          apply in_split in Iil. destruct Iil as (l1 & l2 & ->).
          apply walk_split in W'. destruct W' as (u1 & u2 & U1 & U2 & ->).
          apply Forall_app in Pl'. destruct Pl' as (Pa & Pb). inversion Pb; subst.
          assert (C1 : w1 + u1 <= 0).
          { apply (Cyc i (x :: l1)); auto. constructor; auto. }
          exists l2, u2. split; auto. split; [lia|]. split; [|auto].
          inversion N as [|? ? _ N']; subst.
          rewrite <- app_assoc in N'. simpl in N'. eapply NoDup_suffix; eauto.
        * exists (x :: l'), (w1 + w'). split; [constructor; auto|]. split; [lia|].
          split; [|constructor; auto].
          simpl. constructor.
          -- simpl. intros [->|J]; [apply Ii; left; auto|].
             apply in_app_iff in J. destruct J as [J|[J|[]]]; auto.
          -- exact N.
  Qed.

  Lemma walk_nodes : forall n, (forall i j w, E i j w -> node n i /\ node n j) ->
    forall i l j w, walk i l j w -> node n i /\ node n j /\ Forall (node n) l.
  Proof.
    intros n H i l j w. induction 1 as [i j w X|i x j l w1 w2 X W IH].
    - destruct (H _ _ _ X). auto.
    - destruct (H _ _ _ X). destruct IH as (A & B & C). auto.
  Qed.

  Lemma walk_weight : forall B, (forall i j w, E i j w -> - B <= w <= B) ->
    forall i l j w, walk i l j w ->
      - (Z.of_nat (length l) + 1) * B <= w <= (Z.of_nat (length l) + 1) * B.
  Proof.
    intros B H i l j w. induction 1 as [i j w X|i x j l w1 w2 X W IH].
    - specialize (H _ _ _ X). cbn [length]. change (Z.of_nat 0) with 0. lia.
    - specialize (H _ _ _ X). cbn [length]. rewrite Nat2Z.inj_succ.
      replace ((Z.succ (Z.of_nat (length l)) + 1) * B)
        with ((Z.of_nat (length l) + 1) * B + B) by ring.
      replace (- (Z.succ (Z.of_nat (length l)) + 1) * B)
        with (- (Z.of_nat (length l) + 1) * B - B) by ring. lia.
  Qed.

  Lemma walk_msat : forall t, (forall i j w, E i j w -> w <= t j - t i) ->
    forall i l j w, walk i l j w -> w <= t j - t i.
  Proof.
    intros t H i l j w. induction 1 as [i j w X|i x j l w1 w2 X W IH].
    - auto.
    - specialize (H _ _ _ X). lia.
  Qed.

  Lemma walk_ent : forall n D, triangle n D ->
    (forall i j w, E i j w -> node n i /\ node n j /\ ent D i j w) ->
    forall i l j w, walk i l j w -> ent D i j w.
  Proof.
    intros n D T H i l j w W.
    assert (Hn : forall i j w, E i j w -> node n i /\ node n j).
    { intros a b c X. destruct (H _ _ _ X) as (A & B & _). auto. }
    induction W as [i j w X|i x j l w1 w2 X W IH].
    - apply H; auto.
    - destruct (H _ _ _ X) as (A & B & C).
      destruct (walk_nodes n Hn _ _ _ _ W) as (_ & D' & _).
      apply (T i x j); auto.
  Qed.
End Walks.

Lemma walk_mono : forall (E E' : Z -> Z -> Z -> Prop),
  (forall i j w, E i j w -> E' i j w) ->
  forall i l j w, walk E i l j w -> walk E' i l j w.
Proof. intros E E' H i l j w. induction 1; constructor; auto. Qed.

Lemma walk_trans : forall (E E' : Z -> Z -> Z -> Prop),
  (forall i j w, E' i j w -> exists l u, walk E i l j u /\ w <= u) ->
  forall i l j w, walk E' i l j w -> exists l' u, walk E i l' j u /\ w <= u.
Proof.
  intros E E' H i l j w. induction 1 as [i j w X|i x j l w1 w2 X W IH].
  - auto.
  - destruct (H _ _ _ X) as (l1 & u1 & W1 & L1). destruct IH as (l2 & u2 & W2 & L2).
    exists (l1 ++ x :: l2), (u1 + u2). split; [|lia]. apply walk_app; auto.
Qed.

(** ** The closure of a set of edges *)

Definition withdiag (n : Z) (E : Z -> Z -> Z -> Prop) (i j w : Z) : Prop :=
  E i j w \/ (node n i /\ i = j /\ w = 0).

(** [D] is the tightest matrix implied by the edges *)
Definition tight (n : Z) (E : Z -> Z -> Z -> Prop) (D : mat) : Prop :=
  closed n D /\
  (forall i j w, E i j w -> node n i /\ node n j /\ ent D i j w) /\
  (forall i j c, node n i -> node n j -> ent D i j c ->
     exists l w, walk (withdiag n E) i l j w /\ c <= w).

Lemma withdiag_mono : forall n (E E' : Z -> Z -> Z -> Prop),
  (forall i j w, E i j w -> E' i j w) ->
  forall i j w, withdiag n E i j w -> withdiag n E' i j w.
Proof. intros n E E' H i j w [X|X]; [left; auto|right; auto]. Qed.

Lemma withdiag_ent : forall n (E : Z -> Z -> Z -> Prop) D, zero_diag n D ->
  (forall i j w, E i j w -> node n i /\ node n j /\ ent D i j w) ->
  forall i j w, withdiag n E i j w -> node n i /\ node n j /\ ent D i j w.
Proof.
  intros n E D Z0 H i j w [X|(N & <- & ->)]; [auto|].
  split; auto. split; auto. apply (ent_diag n); auto. lia.
Qed.

Lemma tight_le : forall n E D E' D', tight n E D -> tight n E' D' ->
  (forall i j w, E i j w -> E' i j w) ->
  forall i j c, node n i -> node n j -> ent D i j c -> ent D' i j c.
Proof.
  intros n E D E' D' (C & H1 & H2) ((Z0' & T') & H1' & H2') S i j c Ni Nj X.
  destruct (H2 _ _ _ Ni Nj X) as (l & w & W & L).
  apply ent_mono with (a := w); [|lia].
  eapply (walk_ent _ n D' T' (withdiag_ent n E' D' Z0' H1')).
  eapply walk_mono; [|exact W]. apply withdiag_mono. auto.
Qed.

Theorem tight_unique : forall n E D E' D', tight n E D -> tight n E' D' ->
  (forall i j w, E i j w <-> E' i j w) ->
  forall i j c, node n i -> node n j -> (ent D i j c <-> ent D' i j c).
Proof.
  intros n E D E' D' T T' S i j c Ni Nj.
  split; eapply tight_le; eauto; intros; apply S; auto.
Qed.

Theorem tight_bound : forall n E D B, tight n E D -> 0 <= B ->
  (forall i j w, E i j w -> - B <= w <= B) ->
  forall i j, node n i -> node n j -> D i j <> - oo ->
    - ((n - 1) * B) <= D i j <= (n - 1) * B.
Proof.
  intros n E D B ((Z0 & T) & H1 & H2) B0 HB i j Ni Nj F.
  destruct (Z.eq_dec i j) as [->|Nij].
  { rewrite (Z0 j Nj). unfold node in Nj. nia. }
  assert (X : ent D i j (D i j)) by (split; auto; lia).
  destruct (H2 _ _ _ Ni Nj X) as (l & w & W & L).
  assert (WD : forall i j w, withdiag n E i j w -> node n i /\ node n j).
  { intros a b c [Y|(Y & <- & _)]; [|auto]. destruct (H1 _ _ _ Y) as (A & A' & _). auto. }
  assert (WE : forall i l j w, walk (withdiag n E) i l j w -> ent D i j w).
  { apply (walk_ent _ n D T). apply withdiag_ent; auto. }
  destruct (walk_simple (withdiag n E) (node n) (node n)) with (m := length l) (l := l) (i := i) (j := j) (w := w)
    as (l' & w' & W' & L' & ND & F'); auto.
  { intros x l0 w0 Nx _ W0. apply WE in W0. apply (ent_diag n D) in W0; auto. }
  { apply (walk_nodes _ n WD) in W. apply W. }
  assert (HB' : forall i j w, withdiag n E i j w -> - B <= w <= B).
  { intros a b c [Y|(Y & _ & ->)]; [eauto|lia]. }
  pose proof (walk_weight _ B HB' _ _ _ _ W') as WW.
  assert (Len : (Z.of_nat (length l') + 2 <= n)).
  { assert (I : incl (i :: l' ++ [j]) (nodes n)).
    { intros x [<-|I]; [apply nodes_in; auto|]. apply in_app_iff in I.
      destruct I as [I|[<-|[]]]; apply nodes_in; auto.
      rewrite Forall_forall in F'. auto. }
    pose proof (NoDup_incl_length ND I) as K.
    unfold nodes in K. rewrite map_length, seq_length in K. cbn [length] in K.
    rewrite app_length in K. cbn [length] in K. lia. }
  apply WE in W'. destruct W' as (_ & W'). nia.
Qed.

Theorem tight_msat : forall n E D t, tight n E D ->
  (msat n D t <-> forall i j w, E i j w -> w <= t j - t i).
Proof.
  intros n E D t ((Z0 & T) & H1 & H2). split.
  - intros S i j w X. destruct (H1 _ _ _ X) as (A & B & C). apply S; auto.
  - intros S i j w Ni Nj X. destruct (H2 _ _ _ Ni Nj X) as (l & u & W & L).
    assert (u <= t j - t i); [|lia].
    eapply walk_msat; [|exact W]. intros a b c [Y|(_ & <- & ->)]; [auto|lia].
Qed.

Lemma tight_ext : forall n E D E' D',
  (forall i j w, E i j w <-> E' i j w) ->
  (forall i j c, node n i -> node n j -> (ent D i j c <-> ent D' i j c)) ->
  (forall i, node n i -> D i i = D' i i) ->
  tight n E D -> tight n E' D'.
Proof.
  intros n E D E' D' HE HD HZ ((Z0 & T) & H1 & H2). split; [split|split].
  - intros i N. rewrite <- HZ; auto.
  - intros i k j a b N1 N2 N3 A B. apply HD; auto. apply (T i k j); auto; apply HD; auto.
  - intros i j w X. apply HE in X. destruct (H1 _ _ _ X) as (A & B & C).
    split; auto. split; auto. apply HD; auto.
  - intros i j c N1 N2 X. apply HD in X; auto. destruct (H2 _ _ _ N1 N2 X) as (l & w & W & L).
    exists l, w. split; auto.
    eapply walk_mono; [|exact W]. apply withdiag_mono. intros; apply HE; auto.
Qed.

(** The edges [E] and one more *)
Definition plus_edge (E : Z -> Z -> Z -> Prop) (a b c : Z) (i j w : Z) : Prop :=
  E i j w \/ (i = a /\ j = b /\ w = c).

Theorem added_tight : forall n E D io jo w D',
  tight n E D -> node n io -> node n jo ->
  (forall x, ent D jo io x -> w + x <= 0) ->
  added n D io jo w D' -> tight n (plus_edge E io jo w) D'.
Proof.
  intros n E D io jo w D' TD Ni Nj Cons A.
  pose proof TD as ((Z0 & T) & H1 & H2).
  split; [|split].
  - apply (added_closed n D io jo w D'); auto. split; auto.
  - intros i j c [X|(-> & -> & ->)].
    + destruct (H1 _ _ _ X) as (P & Q & R). split; auto. split; auto. apply A; auto.
    + split; auto. split; auto. apply A; auto. right. exists 0, 0.
      rewrite !(ent_diag n D) by auto. lia.
  - assert (Lift : forall i j c, node n i -> node n j -> ent D i j c ->
      exists l u, walk (withdiag n (plus_edge E io jo w)) i l j u /\ c <= u).
    { intros i j c N1 N2 X. destruct (H2 _ _ _ N1 N2 X) as (l & u & W & L).
      exists l, u. split; auto.
      eapply walk_mono; [|exact W]. apply withdiag_mono. intros; left; auto. }
    intros i j c N1 N2 X. apply A in X; auto. destruct X as [X|(a & b & Xa & Xb & L)].
    + auto.
    + destruct (Lift _ _ _ N1 Ni Xa) as (l1 & u1 & W1 & L1).
      destruct (Lift _ _ _ Nj N2 Xb) as (l2 & u2 & W2 & L2).
      exists (l1 ++ io :: jo :: l2), (u1 + (w + u2)). split; [|lia].
      apply walk_app; auto. constructor; auto. left. right. auto.
Qed.

(** ** Floyd-Warshall *)

(** The matrix as edges *)
Definition medge (n : Z) (M : mat) (i j w : Z) : Prop :=
  node n i /\ node n j /\ M i j <> - oo /\ w = M i j.
(** After the turns below [k]: the best walks through nodes below [k] *)
Definition fwinv (n : Z) (M : mat) (k : Z) (L : mat) : Prop :=
  forall i j c, node n i -> node n j ->
    (ent L i j c <->
     exists l w, walk (medge n M) i l j w /\ Forall (fun x => x < k) l /\ c <= w).
(** One turn *)
Definition fwstep (n k : Z) (L L' : mat) : Prop :=
  forall i j c, node n i -> node n j ->
    (ent L' i j c <-> ent L i j c \/ exists a b, ent L i k a /\ ent L k j b /\ c <= a + b).

Lemma medge_node : forall n M i j w, medge n M i j w -> node n i /\ node n j.
Proof. intros n M i j w (A & B & _). auto. Qed.

Lemma fwinv_0 : forall n M, fwinv n M 0 M.
Proof.
  intros n M i j c Ni Nj. split.
  - intros (X & Y). exists [], (M i j). split; [|split; [constructor|lia]].
    constructor. unfold medge. auto.
  - intros (l & w & W & F & L).
    destruct W as [i j w (_ & _ & X & ->)|i x j l w1 w2 (_ & (N & _) & _) W].
    + split; auto.
    + exfalso. inversion F; subst. lia.
Qed.

Lemma fwinv_step : forall n M k L L', node n k -> L k k = 0 ->
  fwinv n M k L -> fwstep n k L L' -> fwinv n M (k + 1) L'.
Proof.
  intros n M k L L' Nk Dk I St i j c Ni Nj.
  assert (Lt : forall l, Forall (fun x => x < k) l -> Forall (fun x => x < k + 1) l).
  { intros l. apply Forall_impl. intros. lia. }
  rewrite (St i j c Ni Nj). split.
  - intros [X|(a & b & Xa & Xb & Lc)].
    + apply I in X; auto. destruct X as (l & w & W & F & Lw). exists l, w. auto.
    + apply I in Xa; auto. apply I in Xb; auto.
      destruct Xa as (l1 & w1 & W1 & F1 & L1). destruct Xb as (l2 & w2 & W2 & F2 & L2).
      exists (l1 ++ k :: l2), (w1 + w2). split; [apply walk_app; auto|].
      split; [|lia]. apply Forall_app. split; auto. constructor; auto. lia.
  - intros (l & w & W & F & Lw).
    (* by induction on the length: cut at the first visit of [k] *)
    assert (G : forall m l i j w, (length l <= m)%nat -> node n i -> node n j ->
      walk (medge n M) i l j w -> Forall (fun x => x < k + 1) l ->
      ent L i j w \/ exists a b, ent L i k a /\ ent L k j b /\ w <= a + b).
    { clear - Nk Dk I. intros m. induction m as [|m IH]; intros l i j w Lm Ni Nj W F.
      - left. destruct l; simpl in Lm; [|lia]. apply I; auto. exists [], w.
        split; auto. split; [constructor|lia].
      - destruct (in_dec Z.eq_dec k l) as [K|K].
        + apply in_split in K. destruct K as (l1 & l2 & ->).
          pose proof W as W0. apply walk_split in W.
          destruct W as (w1 & w2 & W1 & W2 & ->).
          apply Forall_app in F. destruct F as (F1 & F2). inversion F2; subst.
          rewrite app_length in Lm. simpl in Lm.
          assert (A : exists a, ent L i k a /\ w1 <= a).
          { destruct (IH l1 i k w1) as [X|(a & b & Xa & Xb & Le)]; auto; [lia| |].
            - exists w1. split; auto. lia.
            - destruct Xb as (_ & Xb). rewrite Dk in Xb. exists a. split; auto. lia. }
          assert (B : exists b, ent L k j b /\ w2 <= b).
          { destruct (IH l2 k j w2) as [X|(a & b & Xa & Xb & Le)]; auto; [lia| |].
            - exists w2. split; auto. lia.
            - destruct Xa as (_ & Xa). rewrite Dk in Xa. exists b. split; auto. lia. }
          destruct A as (a & Xa & La). destruct B as (b & Xb & Lb).
          right. exists a, b. split; auto. split; auto. lia.
        + left. apply I; auto. exists l, w. split; auto. split; [|lia].
          rewrite Forall_forall in F |- *. intros x Ix. specialize (F x Ix).
          assert (x <> k) by (intros ->; auto). lia. }
    destruct (G (length l) l i j w) as [X|(a & b & Xa & Xb & Le)]; auto.
    + left. eapply ent_mono; eauto.
    + right. exists a, b. split; auto. split; auto. lia.
Qed.

Lemma fw_bound : forall n M k L C, fwinv n M k L -> zero_diag n L -> 0 <= C ->
  (forall i j, node n i -> node n j -> M i j <> - oo -> - C <= M i j <= C) ->
  forall i j, node n i -> node n j -> L i j <> - oo ->
    - ((n - 1) * C) <= L i j <= (n - 1) * C.
Proof.
  intros n M k L C I Z0 C0 HM i j Ni Nj F.
  destruct (Z.eq_dec i j) as [->|Nij].
  { rewrite (Z0 j Nj). unfold node in Nj. nia. }
  assert (X : ent L i j (L i j)) by (split; auto; lia).
  apply I in X; auto. destruct X as (l & w & W & Fl & Lw).
  set (P := fun x => node n x /\ x < k).
  assert (Pn : forall l i j w, walk (medge n M) i l j w -> Forall (fun x => x < k) l -> Forall P l).
  { intros l0 i0 j0 w0 W0 F0. apply (walk_nodes _ n (medge_node n M)) in W0.
    destruct W0 as (_ & _ & W0). rewrite Forall_forall in *. intros x Ix. split; auto. }
  assert (Pl : forall l, Forall P l -> Forall (fun x => x < k) l).
  { intros l0. apply Forall_impl. intros x (_ & H). auto. }
  destruct (walk_simple (medge n M) P (node n)) with (m := length l) (l := l) (i := i) (j := j) (w := w)
    as (l' & w' & W' & L' & ND & F'); auto.
  { intros x (H & _). auto. }
  { intros x l0 w0 Nx F0 W0. assert (E : ent L x x w0).
    { apply I; auto. exists l0, w0. split; auto. split; auto. lia. }
    apply (ent_diag n L) in E; auto. }
  { eapply Pn; eauto. }
  assert (HB : forall i j w, medge n M i j w -> - C <= w <= C).
  { intros a b c (A & B & D & ->). auto. }
  pose proof (walk_weight _ C HB _ _ _ _ W') as WW.
  assert (Len : (Z.of_nat (length l') + 2 <= n)).
  { assert (Inc : incl (i :: l' ++ [j]) (nodes n)).
    { intros x [<-|J]; [apply nodes_in; auto|]. apply in_app_iff in J.
      destruct J as [J|[<-|[]]]; apply nodes_in; auto.
      rewrite Forall_forall in F'. apply F'. auto. }
    pose proof (NoDup_incl_length ND Inc) as K.
    unfold nodes in K. rewrite map_length, seq_length in K. cbn [length] in K.
    rewrite app_length in K. cbn [length] in K. lia. }
  assert (E : ent L i j w').
  { apply I; auto. exists l', w'. split; auto. split; auto. lia. }
  destruct E as (_ & E). nia.
Qed.

(** The last turn gives the closure of the edges the matrix was made of. *)
Theorem fw_tight : forall n M L (E : Z -> Z -> Z -> Prop), fwinv n M n L -> zero_diag n L ->
  (forall i j w, E i j w -> node n i /\ node n j /\ ent M i j w) ->
  (forall i j c, node n i -> node n j -> ent M i j c ->
     exists l w, walk (withdiag n E) i l j w /\ c <= w) ->
  tight n E L.
Proof.
  intros n M L E I Z0 H1 H2.
  assert (Low : forall i l j w, walk (medge n M) i l j w -> Forall (fun x => x < n) l).
  { intros i l j w W. apply (walk_nodes _ n (medge_node n M)) in W.
    destruct W as (_ & _ & W). eapply Forall_impl; [|exact W]. intros a (_ & ?). auto. }
  split; [split; auto|split].
  - intros i k j a b N1 N2 N3 A B. apply I in A; auto. apply I in B; auto. apply I; auto.
    destruct A as (l1 & w1 & W1 & F1 & L1). destruct B as (l2 & w2 & W2 & F2 & L2).
    exists (l1 ++ k :: l2), (w1 + w2).
    assert (W : walk (medge n M) i (l1 ++ k :: l2) j (w1 + w2)) by (apply walk_app; auto).
    split; auto. split; [eauto|lia].
  - intros i j w X. destruct (H1 _ _ _ X) as (A & B & (C & D)). split; auto. split; auto.
    apply I; auto. exists [], (M i j). split; [|split; [constructor|lia]].
    constructor. unfold medge. auto.
  - intros i j c N1 N2 X. apply I in X; auto. destruct X as (l & w & W & _ & Lc).
    destruct (walk_trans (withdiag n E) (medge n M)) with (i := i) (l := l) (j := j) (w := w)
      as (l' & u & W' & L'); auto.
    + intros a b d (A & B & D & ->). apply H2; auto. split; auto. lia.
    + exists l', u. split; auto. lia.
Qed.

(** A positive diagonal on the way proves that there is no solution. *)
Lemma fw_positive : forall n M k L i c t, fwinv n M k L -> node n i ->
  ent L i i c -> 0 < c -> msat n M t -> False.
Proof.
  intros n M k L i c t I N X P S. apply I in X; auto. destruct X as (l & w & W & _ & Lc).
  assert (w <= t i - t i); [|lia].
  eapply walk_msat; [|exact W]. intros a b d (A & B & D & ->). apply S; auto.
  split; auto. lia.
Qed.
