(** Equality, order and hash keep the contracts of the standard traits (property C87), and the
    derived serialisation (property C88). *)
From Verif Require Import Machine TimeValue Interval Iter TimeSet Relns Spec SpecSets Tac TimeValueProofs
  SetProofs SetOpsProofs Prop_Interval Prop_TimeSet Derive.
Require Import String.

(** ** C87 the traits [PartialEq], [Eq], [PartialOrd] and [Hash]

    The operators compare intervals and sets with each other in all four ways. *)
Inductive comparable := VI (i : interval) | VS (l : tset).
Definition win (a : comparable) : window := match a with VI i => WCx (CIv i) | VS l => WSet l end.
Definition v_eq (a b : comparable) : bool := match a with VI i => iv_eq i (win b) | VS l => set_eq l (win b) end.
Definition v_lt (a b : comparable) : bool := match a with VI i => iv_lt i (win b) | VS l => set_lt l (win b) end.
Definition v_le (a b : comparable) : bool := match a with VI i => iv_le i (win b) | VS l => set_le l (win b) end.
Definition v_gt (a b : comparable) : bool := match a with VI i => iv_gt i (win b) | VS l => set_gt l (win b) end.
Definition v_ge (a b : comparable) : bool := match a with VI i => iv_ge i (win b) | VS l => set_ge l (win b) end.
Definition v_cmp (a b : comparable) : option comparison :=
  match a with VI i => iv_partial_cmp i (win b) | VS l => set_partial_cmp l (win b) end.
(** Values as the constructors make them *)
Definition v_ok (a : comparable) : Prop := match a with VI i => proper_iv i | VS l => canonical l end.
Definition v_strict (a : comparable) : Prop := match a with VI i => strict_ends [i] | VS l => strict_ends l end.
Definition In_v (x : Z) (a : comparable) : Prop := match a with VI i => In_iv x i | VS l => In_set x l end.
Definition v_some (a : comparable) : Prop := exists x, In_v x a.
(** The pieces of a value *)
Definition pieces (a : comparable) : list interval :=
  match a with VI i => if iv_is_empty i then [] else [i] | VS l => l end.
Lemma iv_same i : mkI (lower i) (upper i) = i. Proof. now destruct i. Qed.
Lemma emptiness i : proper_iv i -> (iv_is_empty i = true /\ i = iv_empty) \/ (iv_is_empty i = false /\ wf_iv i).
Proof.
  intros [W|W]; [right|left]; (split; [|auto]).
  - unfold iv_is_empty, is_future_infinite. iv. lia.
  - unfold iv_is_empty, is_future_infinite. iv. lia.
  - apply iv_ext; iv; lia.
Qed.
Lemma v_eq_pieces a b : v_ok a -> v_ok b -> (v_eq a b = true <-> pieces a = pieces b).
Proof.
  destruct a as [i|l], b as [j|m]; cbn [v_ok v_eq win pieces]; intros A B.
  - rewrite (proj1 (C18_eq_interval i j)). destruct (emptiness i A) as [(-> & ->)|(-> & W)], (emptiness j B) as [(-> & ->)|(-> & W')];
      split; intros E; try congruence; exfalso; apply (f_equal lower) in E; unfold wf_iv in *; cbn in E; pts; lia.
  - destruct (emptiness i A) as [(E1 & ->)|(E1 & W)]; rewrite E1.
    + destruct m as [|j [|k r]]; [split; reflexivity| |].
      2:{ split; [|congruence]. intros E. unfold iv_eq, w_is_convex, set_is_convex, set_convex_count in E. cbn [List.length] in E. lia. }
      split; [|congruence]. intros E. apply canonical_In with (i := j) in B; [|cbn; auto]. unfold iv_eq in E. cbn in E. iv. lia.
    + destruct m as [|j [|k r]]; [|unfold iv_eq; cbn [w_is_convex set_is_convex w_lower w_upper set_lower set_upper last_opt]|].
      * split; [|congruence]. intros E. unfold iv_eq in E. cbn in E. iv. lia.
      * split; [intros E; f_equal; apply iv_ext; lia|]. intros [= ->]. now rewrite !Z.eqb_refl.
      * split; [|congruence]. intros E. unfold iv_eq, w_is_convex, set_is_convex, set_convex_count in E. cbn [List.length] in E. lia.
  - rewrite C33_set_eq_convex. cbn [cx_is_empty cx_lower cx_upper]. rewrite iv_same. reflexivity.
  - apply C33_set_eq.
Qed.
Lemma pieces_canonical a : v_ok a -> canonical (pieces a).
Proof.
  destruct a as [i|l]; cbn [v_ok pieces]; auto. intros A. destruct (emptiness i A) as [(-> & _)|(-> & W)]; cbn; auto.
Qed.
Lemma pieces_points a x : v_ok a -> (In_v x a <-> In_set x (pieces a)).
Proof.
  destruct a as [i|l]; cbn [v_ok pieces In_v]; [|tauto]. intros A. unfold In_set.
  destruct (emptiness i A) as [(-> & ->)|(-> & W)]; split.
  - intros H. exfalso. iv. lia.
  - intros (? & [] & _).
  - intros H. exists i. cbn. auto.
  - intros (? & [<-|[]] & H). exact H.
Qed.
Lemma v_bounds a : v_ok a -> w_lower (win a) = set_lower (pieces a) /\ w_upper (win a) = set_upper (pieces a).
Proof.
  destruct a as [i|l]; cbn [v_ok pieces win w_lower w_upper]; auto. intros A.
  destruct (emptiness i A) as [(-> & ->)|(-> & W)]; cbn; auto.
Qed.
Lemma some_pieces a : v_ok a -> v_some a -> pieces a <> [].
Proof. intros A (x & H) E. apply pieces_points in H; auto. rewrite E in H. now destruct H as (? & [] & _). Qed.
Lemma some_bounds a : v_ok a -> v_some a -> w_lower (win a) <= w_upper (win a).
Proof.
  intros A S. destruct (v_bounds a A) as (-> & ->).
  destruct (C33_bounds _ (pieces_canonical a A) (some_pieces a A S)) as (_ & _ & _ & _ & _ & _ & _ & L & _). lia.
Qed.
Lemma lt_is a b : v_lt a b = (w_upper (win a) <? w_lower (win b)).
Proof. destruct a; reflexivity. Qed.
Lemma gt_is a b : v_gt a b = (w_upper (win b) <? w_lower (win a)).
Proof. destruct a; reflexivity. Qed.
Lemma le_is a b : v_le a b = v_lt a b || v_eq a b.
Proof. destruct a; reflexivity. Qed.
Lemma ge_is a b : v_ge a b = v_gt a b || v_eq a b.
Proof. destruct a; reflexivity. Qed.
Lemma cmp_is a b : v_cmp a b = if v_lt a b then Some Lt else if v_gt a b then Some Gt else if v_eq a b then Some Eq else None.
Proof. destruct a; reflexivity. Qed.
Lemma eq_bounds a b : v_ok a -> v_ok b -> v_eq a b = true ->
  w_lower (win a) = w_lower (win b) /\ w_upper (win a) = w_upper (win b).
Proof.
  intros A B E. apply v_eq_pieces in E; auto. destruct (v_bounds a A) as (-> & ->), (v_bounds b B) as (-> & ->). now rewrite E.
Qed.

(** [==] is an equivalence, also between intervals and sets, and means the same points. *)
Theorem C87_equivalence : forall a b c, v_ok a -> v_ok b -> v_ok c ->
  v_eq a a = true /\ v_eq a b = v_eq b a /\ (v_eq a b = true -> v_eq b c = true -> v_eq a c = true).
Proof.
  intros a b c A B C. split; [now apply v_eq_pieces|]. split.
  - apply Bool.eq_iff_eq_true. rewrite !v_eq_pieces by auto. split; congruence.
  - rewrite !v_eq_pieces by auto. congruence.
Qed.
Theorem C87_points : forall a b, v_ok a -> v_ok b -> (v_eq a b = true -> forall x, In_v x a <-> In_v x b) /\
  (v_strict a -> v_strict b -> (forall x, In_v x a <-> In_v x b) -> v_eq a b = true).
Proof.
  intros a b A B. rewrite v_eq_pieces by auto. split.
  - intros E x. rewrite !pieces_points by auto. now rewrite E.
  - intros Sa Sb E. apply (proj1 (C33_set_eq (pieces a) (pieces b))), (proj2 (C33_set_eq (pieces a) (pieces b))); auto using pieces_canonical.
    + destruct a; cbn [pieces v_strict] in *; auto. destruct (iv_is_empty i); auto. constructor.
    + destruct b; cbn [pieces v_strict] in *; auto. destruct (iv_is_empty i); auto. constructor.
    + intros x. rewrite <- !pieces_points by auto. apply E.
Qed.
(** Two values of one type, whatever their content, are equal exactly if they are the same, and the
    same is written to the hash state; different values write different numbers, none being the
    beginning of the other. *)
Theorem C87_hash : (forall i j, v_eq (VI i) (VI j) = true <-> hash_iv i = hash_iv j) /\
  (forall l m, v_eq (VS l) (VS m) = true <-> hash_set l = hash_set m) /\
  (forall i j r s, (hash_iv i ++ r = hash_iv j ++ s -> i = j /\ r = s)%list) /\
  (forall l m r s, (hash_set l ++ r = hash_set m ++ s -> l = m /\ r = s)%list).
Proof.
  assert (Hi : forall i j r s, (hash_iv i ++ r = hash_iv j ++ s -> i = j /\ r = s)%list).
  { intros i j r s [= A B C]. split; auto. apply iv_ext; auto. }
  assert (Hs : forall l m r s, (hash_set l ++ r = hash_set m ++ s -> l = m /\ r = s)%list).
  { intros l m r s [= E H]. apply Nat2Z.inj in E. revert m E H. induction l as [|i l IH]; intros [|j m] E H; try discriminate E.
    - auto.
    - cbn [map List.concat] in H. rewrite <- !app_assoc in H. apply Hi in H as (-> & H). injection E as E.
      destruct (IH m E H) as (-> & ->). auto. }
  split; [|split; [|split; [exact Hi|exact Hs]]].
  - intros i j. cbn [v_eq win]. rewrite (proj1 (C18_eq_interval i j)). split; [congruence|]. intros E. apply (Hi i j [] []). now rewrite E.
  - intros l m. cbn [v_eq win]. rewrite (proj1 (C33_set_eq l m)). split; [congruence|]. intros E. apply (Hs l m [] []). now rewrite E.
Qed.
(** The contract of [PartialOrd], for values with a point, also between intervals and sets *)
Theorem C87_order : forall a b c, v_ok a -> v_ok b -> v_ok c -> v_some a -> v_some b -> v_some c ->
  (v_eq a b = true <-> v_cmp a b = Some Eq) /\ (v_lt a b = true <-> v_cmp a b = Some Lt) /\ (v_gt a b = true <-> v_cmp a b = Some Gt) /\
  (v_le a b = true <-> v_cmp a b = Some Lt \/ v_cmp a b = Some Eq) /\
  (v_ge a b = true <-> v_cmp a b = Some Gt \/ v_cmp a b = Some Eq) /\
  v_cmp b a = option_map CompOpp (v_cmp a b) /\
  (v_lt a b = true -> v_lt b c = true -> v_lt a c = true) /\
  (v_le a b = true -> v_le b c = true -> v_le a c = true) /\
  (v_le a b = true -> v_le b a = true -> v_eq a b = true).
Proof.
  intros a b c A B C Sa Sb Sc. pose proof (some_bounds a A Sa) as La. pose proof (some_bounds b B Sb) as Lb. pose proof (some_bounds c C Sc) as Lc.
  destruct (C87_equivalence a b c A B C) as (_ & Sy & Tr).
  pose proof (eq_bounds a b A B) as Eab. pose proof (eq_bounds b c B C) as Ebc.
  rewrite !le_is, ge_is, !cmp_is, <- Sy. rewrite !lt_is, !gt_is.
  revert La Lb Lc Eab Ebc Tr. generalize (v_eq a b) (v_eq b c) (v_eq a c) (w_lower (win a)) (w_upper (win a))
    (w_lower (win b)) (w_upper (win b)) (w_lower (win c)) (w_upper (win c)). intros e1 e2 e3 la ua lb ub lc uc La Lb Lc Eab Ebc Tr.
  destruct (Z.ltb_spec ua lb), (Z.ltb_spec ub la), e1; try (specialize (Eab eq_refl)); try lia; cbn [orb option_map CompOpp];
    (repeat split; intros; try (intuition congruence); try lia);
    destruct e2; try (specialize (Ebc eq_refl)); cbn [orb] in *; rewrite ?Bool.orb_false_r, ?Bool.orb_true_r in *; try reflexivity; try discriminate; try lia;
    try (rewrite Tr by reflexivity; apply Bool.orb_true_r); apply Bool.orb_true_iff; left; lia.
Qed.
Example C87_case : v_ok (VI (mkI 1 5)) /\ v_ok (VS [mkI 1 5]) /\ v_ok (VS [mkI 7 8; mkI 12 oo]) /\
  v_some (VI (mkI 1 5)) /\ v_some (VS [mkI 1 5]) /\ v_some (VS [mkI 7 8; mkI 12 oo]) /\
  v_strict (VI (mkI 1 5)) /\ v_strict (VS [mkI 1 5]) /\
  v_eq (VI (mkI 1 5)) (VS [mkI 1 5]) = true /\ v_eq (VS [mkI 1 5]) (VI (mkI 1 5)) = true /\
  v_cmp (VS [mkI 1 5]) (VS [mkI 7 8; mkI 12 oo]) = Some Lt /\ v_cmp (VI (mkI 1 7)) (VS [mkI 7 8; mkI 12 oo]) = None /\
  hash_set [mkI 7 8; mkI 12 oo] = [2; 7; 8; 12; oo].
Proof.
  assert (P : forall x i l, In_iv x i -> In i l -> In_set x l) by (intros x i l ? ?; exists i; auto).
  split; [left; iv; lia|]. split; [cbn; iv; lia|]. split; [cbn; iv; lia|].
  split; [exists 3; cbn; iv; lia|]. split; [exists 3; apply (P 3 (mkI 1 5)); [iv; lia|cbn; auto]|].
  split; [exists 7; apply (P 7 (mkI 7 8)); [iv; lia|cbn; auto]|].
  split; [constructor; [pts; cbn; lia|constructor]|]. split; [constructor; [pts; cbn; lia|constructor]|].
  vm_compute. auto.
Qed.
(** Finding: [TimeSet::singleton] of an infinite date equals the empty interval in one order only, so
    that [==] is neither symmetric nor transitive; the empty interval equals itself, but [partial_cmp]
    answers that it is less. *)
Theorem C87_refuted : exists a, let s := VS (set_singleton a) in valid a /\
  v_eq (VI iv_empty) s = true /\ v_eq s (VI iv_empty) = false /\
  v_eq (VS set_empty) (VI iv_empty) = true /\ v_eq (VS set_empty) s = false /\
  v_eq (VI iv_empty) (VI iv_empty) = true /\ v_cmp (VI iv_empty) (VI iv_empty) = Some Lt.
Proof. exists oo. split; [unfold valid, oo; lia|]. vm_compute. auto 6. Qed.

(** ** C88 serialisation *)

(** What was written is read again, for all values in 64 bits. *)
Theorem C88_round_trip : (forall t, - 2 ^ 63 <= t < 2 ^ 63 -> de_tv (ser_tv t) = Some t) /\
  (forall i, - 2 ^ 63 <= lower i < 2 ^ 63 -> - 2 ^ 63 <= upper i < 2 ^ 63 -> de_iv (ser_iv i) = Some i) /\
  (forall l, Forall (fun i => - 2 ^ 63 <= lower i < 2 ^ 63 /\ - 2 ^ 63 <= upper i < 2 ^ 63) l -> de_set (ser_set l) = Some l).
Proof.
  assert (T : forall t, - 2 ^ 63 <= t < 2 ^ 63 -> de_tv (ser_tv t) = Some t).
  { intros t H. unfold de_tv, ser_tv. replace (in_i64 t) with true; auto. unfold in_i64, i64_min, i64_max. lia. }
  assert (I : forall i, - 2 ^ 63 <= lower i < 2 ^ 63 -> - 2 ^ 63 <= upper i < 2 ^ 63 -> de_iv (ser_iv i) = Some i).
  { intros i L U. cbn [de_iv ser_iv de_fields String.eqb]. cbn. fold (ser_tv (lower i)) (ser_tv (upper i)).
    change (if in_i64 (lower i) then Some (lower i) else None) with (de_tv (ser_tv (lower i))).
    change (if in_i64 (upper i) then Some (upper i) else None) with (de_tv (ser_tv (upper i))). rewrite !T by auto. now destruct i. }
  split; [exact T|]. split; [exact I|]. intros l H. cbn [de_set ser_set]. induction H as [|i l (L & U) H IH]; auto.
  cbn [map de_all]. now rewrite I, IH.
Qed.
(** An interval is read from a structure exactly if it has each of the two fields once, with a number
    of 64 bits; the order and the other fields do not matter. *)
Definition field (n : string) (fs : list (string * ser)) : list ser :=
  map snd (filter (fun f => String.eqb (fst f) n) fs).
Theorem C88_fields : forall fs i, de_iv (SRec fs) = Some i <->
  - 2 ^ 63 <= lower i < 2 ^ 63 /\ - 2 ^ 63 <= upper i < 2 ^ 63 /\
  field "lower" fs = [SInt (lower i)] /\ field "upper" fs = [SInt (upper i)].
Proof.
  assert (D : forall v z, de_tv v = Some z <-> v = SInt z /\ - 2 ^ 63 <= z < 2 ^ 63).
  { intros [x| |] z; cbn; try (split; [discriminate|intros ([=] & _)]). unfold in_i64, i64_min, i64_max. tests.
    - split; [intros [= ->]; split; [auto|lia]|intros ([= ->] & _); auto].
    - split; [discriminate|intros ([= ->] & ?); lia]. }
  assert (G : forall fs lo up i, de_fields lo up fs = Some i <->
    match lo with Some z => lower i = z /\ field "lower" fs = [] | None => field "lower" fs = [SInt (lower i)] /\ - 2 ^ 63 <= lower i < 2 ^ 63 end /\
    match up with Some z => upper i = z /\ field "upper" fs = [] | None => field "upper" fs = [SInt (upper i)] /\ - 2 ^ 63 <= upper i < 2 ^ 63 end).
  { induction fs as [|(n & v) fs IH]; intros lo up i; cbn [de_fields].
    - unfold field; cbn. destruct lo as [l|], up as [u|]; split; try discriminate; try (intros ((E & _) & (F & _)); discriminate).
      + intros [= <-]. auto.
      + intros ((<- & _) & (<- & _)). now destruct i.
    - unfold field in *; cbn [filter fst].
      destruct (String.eqb_spec n "lower") as [->|N1].
      + destruct (String.eqb_spec "lower" "upper") as [X|_]; [discriminate X|]. cbn [map snd]. destruct lo as [l|].
        { split; [discriminate|intros ((_ & X) & _); discriminate X]. }
        destruct (de_tv v) as [z|] eqn:E.
        * apply D in E as (-> & R). rewrite IH. split.
          -- intros ((<- & ->) & U). auto.
          -- intros (([= ->] & L) & U). auto.
        * split; [discriminate|]. intros (([= -> _] & L) & U). assert (X : de_tv (SInt (lower i)) = Some (lower i)) by (apply D; auto). congruence.
      + destruct (String.eqb_spec n "upper") as [->|N2].
        * cbn [map snd]. destruct up as [u|].
          { split; [discriminate|intros (_ & (_ & X)); discriminate X]. }
          destruct (de_tv v) as [z|] eqn:E.
          -- apply D in E as (-> & R). rewrite IH. split.
             ++ intros (L & (<- & ->)). auto.
             ++ intros (L & ([= ->] & U)). auto.
          -- split; [discriminate|]. intros (L & ([= -> _] & U)). assert (X : de_tv (SInt (upper i)) = Some (upper i)) by (apply D; auto). congruence.
        * apply IH. }
  intros fs i. cbn [de_iv]. rewrite (G fs None None i). tauto.
Qed.
(** A set is read exactly if each of its pieces is; an interval also from two numbers. *)
Theorem C88_pieces : (forall s l, de_set s = Some l <-> exists xs, s = SSeq xs /\ Forall2 (fun x i => de_iv x = Some i) xs l) /\
  (forall xs i, de_iv (SSeq xs) = Some i <->
    xs = [SInt (lower i); SInt (upper i)] /\ - 2 ^ 63 <= lower i < 2 ^ 63 /\ - 2 ^ 63 <= upper i < 2 ^ 63) /\
  (forall s t, de_tv s = Some t <-> s = SInt t /\ - 2 ^ 63 <= t < 2 ^ 63) /\ (forall z, de_iv (SInt z) = None).
Proof.
  assert (D : forall v z, de_tv v = Some z <-> v = SInt z /\ - 2 ^ 63 <= z < 2 ^ 63).
  { intros [x| |] z; cbn; try (split; [discriminate|intros ([=] & _)]). unfold in_i64, i64_min, i64_max. tests.
    - split; [intros [= ->]; split; [auto|lia]|intros ([= ->] & _); auto].
    - split; [discriminate|intros ([= ->] & ?); lia]. }
  assert (A : forall xs l, de_all xs = Some l <-> Forall2 (fun x i => de_iv x = Some i) xs l).
  { induction xs as [|x xs IH]; intros l; cbn [de_all].
    - split; [intros [= <-]; constructor|intros H; inversion H; auto].
    - split.
      + destruct (de_iv x) as [i|] eqn:E; [|discriminate]. destruct (de_all xs) as [m|] eqn:F; [|discriminate].
        intros [= <-]. constructor; auto. now apply IH.
      + intros H. inversion H as [|? i ? m E F]; subst. apply IH in F. now rewrite E, F. }
  split; [|split; [|split; [exact D|reflexivity]]].
  - intros [z|fs|xs] l; cbn [de_set]; try (split; [discriminate|intros (? & [=] & _)]).
    rewrite A. split; [intros H; eauto|]. intros (ys & [= <-] & H). exact H.
  - intros xs i. destruct xs as [|a [|b [|c r]]]; cbn [de_iv]; try (split; [discriminate|intros ([=] & _)]). split.
    + destruct (de_tv a) as [lo|] eqn:E; [|discriminate]. destruct (de_tv b) as [up|] eqn:F; [|discriminate].
      apply D in E as (-> & E), F as (-> & F). intros [= <-]. auto.
    + intros ([= -> ->] & L & U). rewrite (proj2 (D _ (lower i))), (proj2 (D _ (upper i))) by auto. now destruct i.
Qed.
Local Open Scope string_scope.
Example C88_case : de_iv (SRec [("upper", SInt 5); ("unit", SSeq []); ("lower", SInt 1)]) = Some (mkI 1 5) /\
  de_set (ser_set [mkI 1 5; mkI 8 oo]) = Some [mkI 1 5; mkI 8 oo] /\
  de_iv (SRec [("upper", SInt 5); ("upper", SInt 5); ("lower", SInt 1)]) = None /\ de_tv (SInt (2 ^ 63)) = None /\
  de_iv (SSeq [SInt 1; SInt 5]) = Some (mkI 1 5) /\ de_set (SSeq [SSeq [SInt 1; SInt 5]; SInt 7]) = None.
Proof. vm_compute. auto 7. Qed.
(** Finding: what is read is not checked.  A set may be out of order, and then [contains] misses one of
    its dates; an interval may have crossed bounds, no date, and not be reported empty; a duration may
    be [i64::MIN], for which the queries panic in debug. *)
Theorem C88_refuted : (exists s l x, de_set s = Some l /\ ~ canonical l /\ In_set x l /\ set_contains_cx l (CPoint x) = false) /\
  (exists s i, de_iv s = Some i /\ (forall x, ~ In_iv x i) /\ iv_is_empty i = false) /\
  (exists s t, de_tv s = Some t /\ ~ valid t /\ is_past_infinite_m Debug t = Panic).
Proof.
  split; [|split].
  - exists (ser_set [mkI 10 20; mkI 1 5]), [mkI 10 20; mkI 1 5], 3. split; [reflexivity|]. split; [cbn; iv; lia|].
    split; [exists (mkI 1 5); split; [cbn; auto|iv; lia]|reflexivity].
  - exists (ser_iv (mkI 5 2)), (mkI 5 2). split; [reflexivity|]. split; [intros x H; iv; lia|reflexivity].
  - exists (SInt (- 2 ^ 63)), (- 2 ^ 63). split; [reflexivity|]. split; [unfold valid, oo; lia|reflexivity].
Qed.

Print Assumptions C87_equivalence.
Print Assumptions C87_points.
Print Assumptions C87_hash.
Print Assumptions C87_order.
Print Assumptions C87_refuted.
Print Assumptions C88_round_trip.
Print Assumptions C88_fields.
Print Assumptions C88_pieces.
Print Assumptions C88_refuted.
