(** The operators and the chained iterators compute the same (property C89). *)
From Verif Require Import Machine TimeValue Interval Iter TimeSet Spec SpecSets Tac TimeValueProofs
  SetProofs SetOpsProofs Prop_Interval Prop_TimeSet.

(** Expressions with sets: [!e], [e | f], [e & f] and [e & !f] *)
Inductive expr := Atom (l : tset) | Not (e : expr) | Or (e f : expr) | And (e f : expr) | Minus (e f : expr).
(** with the operators: each result is collected in a set *)
Fixpoint by_ops (e : expr) : outcome tset :=
  match e with
  | Atom l => Ret l
  | Not e => x <- by_ops e ;; Ret (set_not x)
  | Or e f => x <- by_ops e ;; y <- by_ops f ;; set_or x y
  | And e f => x <- by_ops e ;; y <- by_ops f ;; set_and x y
  | Minus e f => x <- by_ops e ;; y <- by_ops f ;; set_and x (set_not y)
  end.
(** with the iterators [complementary], [union], [intersection] and [exclusion]: nothing is collected *)
Fixpoint by_iter (e : expr) : outcome (list interval) :=
  match e with
  | Atom l => Ret l
  | Not e => x <- by_iter e ;; compl_list x
  | Or e f => x <- by_iter e ;; y <- by_iter f ;; union_list x y
  | And e f => x <- by_iter e ;; y <- by_iter f ;; inter_list x y
  | Minus e f => x <- by_iter e ;; y <- by_iter f ;; excl_list x y
  end.
(** The dates of an expression *)
Fixpoint dates (e : expr) (x : Z) : Prop :=
  match e with
  | Atom l => In_set x l
  | Not e => finite x /\ ~ dates e x
  | Or e f => dates e x \/ dates f x
  | And e f => dates e x /\ dates f x
  | Minus e f => dates e x /\ ~ dates f x
  end.
(** Canonical sets, and no two operands of an intersection side by side *)
Fixpoint tame (e : expr) : Prop :=
  match e with
  | Atom l => canonical l
  | Not e => tame e
  | Or e f => tame e /\ tame f
  | And e f => tame e /\ tame f /\ forall a b, by_ops e = Ret a -> by_ops f = Ret b -> never_adjacent a b
  | Minus e f => tame e /\ tame f /\ forall a b, by_ops e = Ret a -> by_ops f = Ret b -> never_adjacent a (set_not b)
  end.
(** The same except at the root *)
Definition tame_inside (e : expr) : Prop :=
  match e with And e f | Minus e f => tame e /\ tame f | _ => tame e end.
(** No union loses dates (see C23). *)
Fixpoint lossless (e : expr) : Prop :=
  match e with
  | Atom _ => True
  | Not e => lossless e
  | And e f | Minus e f => lossless e /\ lossless f
  | Or e f => lossless e /\ lossless f /\
      forall a b, by_ops e = Ret a -> by_ops f = Ret b -> b = [] \/ Forall (fun i => upper i < set_upper b) (removelast a)
  end.

Lemma tame_value e : tame e -> exists s, by_ops e = Ret s /\ by_iter e = Ret s /\ canonical s /\
  (lossless e -> forall x, In_set x s <-> dates e x).
Proof.
  induction e as [l|e IH|e IH f JH|e IH f JH|e IH f JH]; cbn [tame by_ops by_iter lossless dates].
  - intros C. exists l. repeat split; auto.
  - intros T. destruct (IH T) as (s & -> & -> & C & D). cbn [bind]. destruct (set_not_spec s C) as (C' & D').
    exists (set_not s). rewrite compl_list_not by auto. split; auto. split; auto. split; auto. intros L x. rewrite D', (D L). tauto.
  - intros (T & U). destruct (IH T) as (a & Ea & -> & Ca & Da), (JH U) as (b & Eb & -> & Cb & Db). rewrite Ea, Eb. cbn [bind].
    destruct (C23_or_partial a b Ca Cb) as (s & E1 & E2 & C & _ & _ & Q). exists s. split; auto. split; auto. split; auto.
    intros (La & Lb & W) x. rewrite (Q (W a b eq_refl eq_refl)), (Da La), (Db Lb). tauto.
  - intros (T & U & N). destruct (IH T) as (a & Ea & -> & Ca & Da), (JH U) as (b & Eb & -> & Cb & Db). rewrite Ea, Eb. cbn [bind].
    destruct (C24_and_points a b Ca Cb) as (s & E1 & E2 & Q). exists s. split; auto. split; auto.
    split; [apply (C24_and_canonical_partial a b s Ca Cb E1); auto|]. intros (La & Lb) x. rewrite Q, (Da La), (Db Lb). tauto.
  - intros (T & U & N). destruct (IH T) as (a & Ea & -> & Ca & Da), (JH U) as (b & Eb & -> & Cb & Db). rewrite Ea, Eb. cbn [bind].
    destruct (set_not_spec b Cb) as (C' & D'). unfold excl_list. rewrite compl_list_not by auto. cbn [bind].
    destruct (C24_and_points a (set_not b) Ca C') as (s & E1 & E2 & Q). exists s. split; auto. split; auto.
    split; [apply (C24_and_canonical_partial a (set_not b) s Ca C' E1); auto|]. intros (La & Lb) x. rewrite Q, D', (Da La), (Db Lb).
    split; [tauto|]. intros (H1 & H2). split; auto. split; auto. apply (Da La) in H1. exact (In_set_finite _ _ H1).
Qed.

(** Both give the same intervals, without panic, so that [is_empty] and [is_none] agree.  Full
    statement: for all expressions on canonical sets (refuted).  Proved: for those in which the
    intersections, but for the one at the root, have no operands side by side. *)
Theorem C89_agree_partial : forall e, tame_inside e -> exists s, by_ops e = Ret s /\ by_iter e = Ret s.
Proof.
  intros [l|e|e f|e f|e f] T.
  - destruct (tame_value (Atom l) T) as (s & ? & ? & _). eauto.
  - destruct (tame_value (Not e) T) as (s & ? & ? & _). eauto.
  - destruct (tame_value (Or e f) T) as (s & ? & ? & _). eauto.
  - destruct T as (T & U). destruct (tame_value e T) as (a & Ea & Ia & Ca & _), (tame_value f U) as (b & Eb & Ib & Cb & _).
    cbn [by_ops by_iter]. rewrite Ea, Eb, Ia, Ib. cbn [bind]. destruct (C24_and_points a b Ca Cb) as (s & E1 & E2 & _). eauto.
  - destruct T as (T & U). destruct (tame_value e T) as (a & Ea & Ia & Ca & _), (tame_value f U) as (b & Eb & Ib & Cb & _).
    cbn [by_ops by_iter]. rewrite Ea, Eb, Ia, Ib. cbn [bind]. destruct (set_not_spec b Cb) as (C' & _). unfold excl_list.
    rewrite compl_list_not by auto. cbn [bind]. destruct (C24_and_points a (set_not b) Ca C') as (s & E1 & E2 & _). eauto.
Qed.
(** If moreover no union loses dates, the value of the expression is right, and so is its emptiness. *)
Theorem C89_right_partial : forall e, tame e -> lossless e -> exists s, by_ops e = Ret s /\ by_iter e = Ret s /\
  canonical s /\ (forall x, In_set x s <-> dates e x) /\ (set_is_empty s = true <-> forall x, ~ dates e x).
Proof.
  intros e T L. destruct (tame_value e T) as (s & E1 & E2 & C & D). exists s. split; auto. split; auto. split; auto. split; auto.
  split.
  - intros N x H. apply (D L) in H. destruct s; [|discriminate N]. destruct H as (i & [] & _).
  - intros N. destruct s as [|i r]; auto. exfalso. pose proof (canonical_In _ _ C (or_introl eq_refl)) as W.
    apply (N (Z.max (lower i) (- oo + 1))), (D L). exists i. split; [cbn; auto|]. iv. lia.
Qed.
(** The example of the README: [((I | J) & K).is_empty()] and
    [I.into_iter().union(J).intersection(K).is_none()] agree for all canonical sets; both answer yes
    exactly if each date of [I | J] is at least two ticks away from those of [K]. *)
Theorem C89_readme : forall i j k, canonical i -> canonical j -> canonical k -> exists u s,
  set_or i j = Ret u /\ by_ops (And (Or (Atom i) (Atom j)) (Atom k)) = Ret s /\ by_iter (And (Or (Atom i) (Atom j)) (Atom k)) = Ret s /\
  (set_is_empty s = true <-> s = []) /\
  (set_is_empty s = true <-> forall x y, In_set x u -> In_set y k -> 1 < Z.abs (x - y)).
Proof.
  intros i j k Ci Cj Ck. destruct (C23_or_partial i j Ci Cj) as (u & E1 & E2 & Cu & _). exists u.
  destruct (C24_and_points u k Cu Ck) as (s & F1 & F2 & _). exists s. cbn [by_ops by_iter bind]. rewrite E1, E2. cbn [bind].
  split; auto. split; auto. split; auto. split; [destruct s; cbn; split; congruence|].
  apply (C24_and_canonical_partial u k s Cu Ck F1).
Qed.
Example C89_case :
  let e := And (Or (Atom [mkI 1 5]) (Atom [mkI 10 20])) (Not (Minus (Atom [mkI 0 30]) (Atom [mkI 4 40]))) in
  tame e /\ tame_inside e /\ lossless e /\ by_ops e = Ret [mkI 4 5; mkI 10 20].
Proof.
  assert (T : tame (Not (Minus (Atom [mkI 0 30]) (Atom [mkI 4 40])))).
  { cbn [tame]. split; [cbn; iv; lia|]. split; [cbn; iv; lia|]. intros a b [= <-] [= <-] x.
    change (set_not [mkI 4 40]) with [mkI (- oo) 3; mkI 41 oo]. rewrite !In_set_cons, !In_set_nil. iv. lia. }
  assert (U : tame (Or (Atom [mkI 1 5]) (Atom [mkI 10 20]))) by (cbn; iv; lia).
  cbv zeta. split.
  { split; [exact U|]. split; [exact T|]. intros a b Ea Eb. vm_compute in Ea, Eb. injection Ea as <-. injection Eb as <-. intros x.
    rewrite !In_set_cons, !In_set_nil. iv. lia. }
  split; [split; [exact U|exact T]|]. split; [|vm_compute; reflexivity].
  cbn. repeat split. intros a b [= <-] [= <-]. right. constructor.
Qed.
(** Finding: with an intersection of sets side by side inside, operators and iterators differ. *)
Theorem C89_agree_refuted : exists a b e s t, canonical a /\ canonical b /\
  e = And (Atom set_all) (Not (And (Atom a) (Atom b))) /\ by_ops e = Ret s /\ by_iter e = Ret t /\ s <> t.
Proof.
  exists [mkI 7 8], [mkI 9 9]. do 3 eexists. split; [cbn; iv; lia|]. split; [cbn; iv; lia|]. split; [reflexivity|].
  split; [vm_compute; reflexivity|]. split; [vm_compute; reflexivity|]. discriminate.
Qed.
(** Finding: the test of the README answers no although the sets have no common date. *)
Theorem C89_readme_refuted : exists i j k s, canonical i /\ canonical j /\ canonical k /\
  by_ops (And (Or (Atom i) (Atom j)) (Atom k)) = Ret s /\ set_is_empty s = false /\
  forall x, ~ ((In_set x i \/ In_set x j) /\ In_set x k).
Proof.
  exists [mkI 1 5], [], [mkI 6 8], [mkI 6 5]. split; [cbn; iv; lia|]. split; [cbn; auto|]. split; [cbn; iv; lia|].
  split; [reflexivity|]. split; [reflexivity|]. intros x. rewrite !In_set_cons, !In_set_nil. iv. lia.
Qed.

Print Assumptions C89_agree_partial.
Print Assumptions C89_right_partial.
Print Assumptions C89_readme.
Print Assumptions C89_agree_refuted.
Print Assumptions C89_readme_refuted.
