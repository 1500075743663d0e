(** C11-C18, C21: single intervals and convex windows. *)
From Verif Require Import Machine TimeValue Spec Tac TimeValueProofs Interval Iter TimeSet Relns
  SpecSets SetProofs.

Ltac iv := unfold proper_iv, valid_cx, In_cx, valid_iv, In_iv, wf_iv, is_empty_repr, iv_new,
  iv_after, iv_before, iv_singleton, iv_empty, iv_all, cx_into, cx_lower, cx_upper in *;
  cbn in *; unfold iv_singleton, iv_empty, iv_all in *; pts.
Ltac tests_all := repeat (match goal with
  | H : context [if ?b then _ else _] |- _ =>
      lazymatch b with context [if _ then _ else _] => fail | _ => idtac end;
      let E := fresh "T" in destruct b eqn:E
  end; cbn in * ).
Ltac ivt := iv; tests; cbn in *; intuition (tests_all; try congruence; try lia).

(** ** C11 constructors and ranges *)

Theorem C11_new : forall a b x, valid a -> valid b ->
  (In_iv x (iv_new a b) <-> finite x /\ a <= x <= b).
Proof.
  intros a b x Va Vb. unfold iv_new.
  destruct (Z.compare_spec a b); ivt.
Qed.
Example C11_new_case : In_iv 4 (iv_new 3 5) /\ ~ In_iv 6 (iv_new 3 5) /\ ~ In_iv 4 (iv_new 5 3).
Proof. vm_compute. intuition congruence. Qed.

Theorem C11_simple_constructors : forall t x, valid t ->
  (In_iv x (iv_singleton t) <-> finite x /\ x = t) /\
  (In_iv x (iv_after t) <-> finite x /\ t <= x) /\
  (In_iv x (iv_before t) <-> finite x /\ x <= t) /\
  (In_iv x iv_all <-> finite x) /\
  ~ In_iv x iv_empty.
Proof. intros t x V. repeat split; ivt. Qed.
Example C11_simple_case : In_iv 7 (iv_after 7) /\ ~ In_iv 6 (iv_after 7) /\ In_iv 6 (iv_before 7).
Proof. vm_compute. intuition congruence. Qed.

(** Every interval constructor returns a non-empty interval with ordered bounds or the
    documented empty interval. *)
Theorem C11_constructors_proper : forall a b, valid a -> valid b ->
  proper_iv (iv_new a b) /\ proper_iv (iv_singleton a) /\ proper_iv (iv_after a) /\
  proper_iv (iv_before a) /\ proper_iv iv_all /\ proper_iv iv_empty.
Proof.
  intros a b Va Vb. repeat split; try (ivt; fail).
  unfold iv_new. destruct (Z.compare_spec a b); ivt.
Qed.

(** The bounds of a point, an interval or a range delimit exactly its points, and so does
    its conversion to an interval. *)
Theorem C11_convex_bounds : forall c x, valid_cx c ->
  (In_cx x c <-> finite x /\ cx_lower c <= x <= cx_upper c) /\
  (In_iv x (cx_into c) <-> In_cx x c).
Proof. intros c x V. destruct c; split; ivt. Qed.
Example C11_range_case : (* 3..6 is [3,5], ..6 is ]-oo,5], 3..=6 is [3,6] *)
  cx_into (CRange 3 6) = mkI 3 5 /\ cx_into (CRangeTo 6) = mkI (- oo) 5 /\
  cx_into (CRangeIncl 3 6) = mkI 3 6 /\ cx_into (CRangeFrom 3) = mkI 3 oo.
Proof. vm_compute. auto. Qed.

(** [is_empty] never lies when it says yes; it is exact for intervals, and for points and
    ranges whose ends are finite.  Full statement: the equivalence for every valid [c]
    (refuted below at the infinities). *)
Definition finite_cx (c : convex) : Prop :=
  match c with
  | CPoint t => finite t
  | CIv i => proper_iv i
  | CRange a b => finite a /\ valid b
  | CRangeIncl a b => finite a /\ valid b
  | CRangeFrom a => - oo <= a < oo
  | CRangeTo b => - oo + 1 < b <= oo
  | CRangeToIncl b => - oo < b <= oo
  end.
(** Partial: the converse is false for windows reduced to an infinite date, hence [finite_cx] (C11_is_empty_refuted). *)
Theorem C11_is_empty_partial : forall c, valid_cx c ->
  (cx_is_empty c = true -> forall x, ~ In_cx x c) /\
  (finite_cx c -> ((forall x, ~ In_cx x c) <-> cx_is_empty c = true)).
Proof.
  intros c V.
  assert (S : cx_is_empty c = true -> forall x, ~ In_cx x c).
  { intros E x H. destruct c; cbn in E; unfold iv_is_empty in E; iv; lia. }
  split; auto. intros F. split; auto. intros N.
  destruct (cx_is_empty c) eqn:E; auto. exfalso.
  destruct c as [t|i|a b|a|a b|b|b].
  - apply (N t). iv. lia.
  - destruct F as [W|W].
    + destruct (wf_nonempty i W) as [x Hx]. apply (N x). iv. lia.
    + cbn in E. unfold iv_is_empty in E. iv. lia.
  - apply (N a). iv. lia.
  - apply (N (Z.max a (- oo + 1))). iv. lia.
  - apply (N a). iv. lia.
  - apply (N (- oo + 1)). iv. lia.
  - apply (N (- oo + 1)). iv. lia.
Qed.
Example C11_is_empty_case : finite_cx (CRange 5 5) /\ cx_is_empty (CRange 5 5) = true /\
  finite_cx (CRange 5 6) /\ cx_is_empty (CRange 5 6) = false.
Proof. vm_compute. intuition congruence. Qed.

(** Finding: ranges next to an infinity hold no point and say they are not empty. *)
Theorem C11_is_empty_refuted : exists c, valid_cx c /\ cx_is_empty c = false /\
  (forall x, ~ In_cx x c) /\ c = CRangeTo (- oo).
Proof. exists (CRangeTo (- oo)). repeat split; auto; iv; lia. Qed.

(** The other queries on a non-empty interval with infinite ends written as such. *)
Theorem C11_interval_queries : forall i, wf_iv i -> strict_ends [i] ->
  (finite (lower i) -> finite (upper i) ->
   (iv_is_singleton i = true <-> exists x, forall y, In_iv y i <-> y = x)) /\
  (iv_is_singleton i = true -> exists x, forall y, In_iv y i <-> y = x) /\
  (iv_is_low_bounded i = true <-> exists x, finite x /\ (forall y, In_iv y i -> x < y)) /\
  (iv_is_up_bounded i = true <-> exists x, finite x /\ (forall y, In_iv y i -> y < x)) /\
  (iv_is_all i = true <-> forall x, finite x -> In_iv x i) /\
  iv_convex_count i = 1.
Proof.
  intros i W S. unfold strict_ends in S. inv S. clear H2. destruct H1 as [S1 S2].
  destruct (wf_nonempty i W) as [z Hz].
  unfold iv_is_singleton, iv_is_all, iv_is_low_bounded, iv_is_up_bounded, iv_convex_count,
    iv_is_empty.
  assert (E1 : (lower i =? upper i) = true -> exists x, forall y, In_iv y i <-> y = x).
  { intros E. exists (lower i). intros y. iv. lia. }
  split; [|split; [|split; [|split; [|split]]]]; auto.
  - intros Fl Fu. split; auto.
    + intros [x Hx]. assert (z = x) by (apply Hx; auto). subst x.
      assert (A : ~ In_iv (z - 1) i) by (intros H; apply Hx in H; lia).
      assert (B : ~ In_iv (z + 1) i) by (intros H; apply Hx in H; lia).
      iv. lia.
  - split.
    + intros E. exists (lower i - 1). iv. split; [lia|]. intros; lia.
    + intros (x & Fx & H). assert (A : ~ In_iv x i) by (intros A; apply H in A; lia).
      pose proof (H z Hz). iv. lia.
  - split.
    + intros E. exists (upper i + 1). iv. split; [lia|]. intros; lia.
    + intros (x & Fx & H). assert (A : ~ In_iv x i) by (intros A; apply H in A; lia).
      pose proof (H z Hz). iv. lia.
  - split.
    + intros E x Fx. iv. lia.
    + intros H. pose proof (H (- oo + 1) ltac:(unfold finite, oo; lia)).
      pose proof (H (oo - 1) ltac:(unfold finite, oo; lia)). iv. lia.
  - iv. tests; lia.
Qed.
Example C11_queries_case : wf_iv (mkI 3 oo) /\ strict_ends [mkI 3 oo] /\
  iv_is_low_bounded (mkI 3 oo) = true /\ iv_is_up_bounded (mkI 3 oo) = false.
Proof. repeat split; try (constructor; [|constructor]); iv; try lia; auto. Qed.

(** Finding: the documentation says the boundedness tests return [false] on an empty
    window; on the empty interval they return [true]. *)
Theorem C11_bounded_on_empty_refuted :
  iv_is_empty iv_empty = true /\ iv_is_bounded iv_empty = true.
Proof. vm_compute. auto. Qed.

(** ** C12 emptiness *)

(** On an interval as built by the constructors, [is_empty] is exact.  Full statement:
    for all intervals obtained from the API, including [&] (refuted below). *)
Theorem C12_is_empty_partial : forall i, proper_iv i ->
  (iv_is_empty i = true <-> forall x, ~ In_iv x i).
Proof.
  intros i P. split.
  - intros E x H. unfold iv_is_empty in E. destruct P; iv; lia.
  - intros N. destruct P as [W|W].
    + destruct (wf_nonempty i W) as [x Hx]. destruct (N x Hx).
    + unfold iv_is_empty. iv. lia.
Qed.
Example C12_case : proper_iv (iv_new 5 3) /\ iv_is_empty (iv_new 5 3) = true /\
  iv_is_empty (iv_new 3 5) = false.
Proof. split; [right; vm_compute; auto|vm_compute; auto]. Qed.

(** Exactly when [a & b] says it is empty: when an operand is. *)
Theorem C12_and_is_empty : forall i c, proper_iv i -> valid_cx c -> proper_iv (cx_into c) ->
  iv_is_empty (iv_and i c) = (iv_is_empty i || iv_is_empty (cx_into c)).
Proof.
  intros i c Pi Vc Pc. unfold iv_and, iv_is_empty; cbn [lower upper].
  clear Vc. generalize dependent (cx_into c). intros j Pc. destruct Pi, Pc; iv; lia.
Qed.
Example C12_and_is_empty_case :
  iv_is_empty (iv_and (mkI 1 2) (CIv (mkI 5 6))) = false /\
  iv_is_empty (iv_and iv_empty (CIv (mkI 5 6))) = true.
Proof. vm_compute. auto. Qed.

(** Finding: the intersection of two disjoint intervals says it is not empty. *)
Theorem C12_is_empty_refuted : exists i j, wf_iv i /\ wf_iv j /\
  (forall x, ~ In_iv x (iv_and i (CIv j))) /\ iv_is_empty (iv_and i (CIv j)) = false.
Proof.
  exists (mkI 1 2), (mkI 5 6). split; [iv; lia|]. split; [iv; lia|]. split; [|reflexivity].
  intros x H. unfold iv_and in H. iv. lia.
Qed.

(** ** C13 intersection of intervals *)

Theorem C13_and : forall i c x, valid_cx c ->
  (In_iv x (iv_and i c) <-> In_iv x i /\ In_cx x c).
Proof.
  intros i c x V. pose proof (proj2 (C11_convex_bounds c x V)) as E.
  rewrite <- E. unfold iv_and, In_iv, finite. generalize (cx_into c). intros j. cbn [lower upper]. lia.
Qed.
Theorem C13_and_assign : forall i c x, valid_cx c ->
  (In_iv x (iv_and_assign i c) <-> In_iv x i /\ In_cx x c).
Proof.
  intros i c x V. rewrite (proj1 (C11_convex_bounds c x V)).
  unfold iv_and_assign, In_iv, finite. generalize (cx_lower c) (cx_upper c). intros a b. cbn [lower upper].
  tests; lia.
Qed.
Theorem C13_point_and : forall t c x, valid t -> valid_cx c ->
  (In_iv x (pt_and t c) <-> finite x /\ x = t /\ In_cx x c).
Proof.
  intros t c x Vt Vc. unfold pt_and. rewrite C13_and by auto.
  rewrite (proj1 (C11_simple_constructors t x Vt)). tauto.
Qed.
(** [&=] gives the very same bounds as [&], except with an infinite time point. *)
Theorem C13_assign_agrees : forall i c, valid_cx c ->
  (forall t, c = CPoint t -> finite t) -> iv_and_assign i c = iv_and i c.
Proof.
  intros i c V F. unfold iv_and_assign, iv_and.
  assert (L : lower (cx_into c) = cx_lower c /\ upper (cx_into c) = cx_upper c).
  { destruct c; cbn; auto. specialize (F t eq_refl). iv. tests; cbn; lia. }
  destruct L as [-> ->]. apply iv_ext; cbn; tests; lia.
Qed.
Theorem C13_laws : forall i j k,
  iv_and i (CIv j) = iv_and j (CIv i) /\
  iv_and i (CIv (iv_and j (CIv k))) = iv_and (iv_and i (CIv j)) (CIv k) /\
  iv_and i (CIv i) = i.
Proof. intros. repeat split; unfold iv_and; apply iv_ext; cbn; lia. Qed.
Example C13_case : iv_and (mkI 1 8) (CRange 5 20) = mkI 5 8 /\
  iv_and_assign (mkI 1 8) (CRange 5 20) = mkI 5 8 /\ In_iv 6 (mkI 5 8).
Proof. vm_compute. intuition congruence. Qed.

(** ** C14 union of intervals *)

(** Full statement: for every valid [c].  Proved for every [c] that holds a point or says
    it is empty; an infinite time point is refuted below. *)
Theorem C14_or_partial : forall i c, proper_iv i -> valid_cx c ->
  cx_is_empty c = true \/ (exists x, In_cx x c) ->
  canonical (iv_or i c) /\ (length (iv_or i c) <= 2)%nat /\
  forall x, In_set x (iv_or i c) <-> In_iv x i \/ In_cx x c.
Proof.
  intros i c Pi Vc Hc.
  assert (D : forall x, In_cx x c <-> finite x /\ cx_lower c <= x <= cx_upper c)
    by (intros; apply C11_convex_bounds; auto).
  assert (Wc : cx_is_empty c = false -> wf_iv (mkI (cx_lower c) (cx_upper c)) /\
               cx_into c = mkI (cx_lower c) (cx_upper c)).
  { intros E. destruct Hc as [Hc|[x Hx]]; [congruence|].
    pose proof (proj1 (D x) Hx) as Hd. split.
    - assert (valid (cx_lower c) /\ valid (cx_upper c)).
      { destruct c; iv; tests; lia. }
      iv. lia.
    - destruct c; cbn; auto; [|now rewrite iv_eta].
      iv. tests; auto. lia. }
  assert (Ec : cx_is_empty c = true -> forall x, ~ In_cx x c).
  { apply (proj1 (C11_is_empty_partial c Vc)). }
  unfold iv_or. destruct (iv_is_empty i) eqn:Ei.
  - assert (Ni : forall x, ~ In_iv x i).
    { intros x H. unfold iv_is_empty in Ei. destruct Pi; iv; lia. }
    unfold set_of_convex. destruct (cx_is_empty c) eqn:E.
    + split; [exact I|]. split; [cbn; lia|]. intros x. rewrite In_set_nil.
      specialize (Ni x). specialize (Ec eq_refl x). tauto.
    + destruct (Wc eq_refl) as [W _]. split; [cbn; auto|]. split; [cbn; lia|].
      intros x. rewrite In_set_one. specialize (Ni x). specialize (D x).
      unfold In_iv in *; cbn in *. tauto.
  - assert (Wi : wf_iv i).
    { destruct Pi as [|P]; auto. unfold iv_is_empty in Ei. iv. lia. }
    destruct (cx_is_empty c) eqn:E.
    + unfold set_of_convex. cbn [cx_is_empty cx_lower cx_upper]. rewrite Ei, iv_eta.
      split; [cbn; auto|]. split; [cbn; lia|]. intros x. rewrite In_set_one.
      specialize (Ec eq_refl x). tauto.
    + destruct (Wc eq_refl) as [W ->].
      rewrite gap_test by (auto; unfold wf_iv in W; cbn in W; lia).
      replace (just_before (cx_lower c)) with (just_before (lower (mkI (cx_lower c) (cx_upper c))))
        by reflexivity.
      rewrite gap_test by (auto; unfold wf_iv in Wi; lia). cbn [lower].
      destruct (cx_upper c + 1 <? lower i) eqn:G1; [|destruct (upper i + 1 <? cx_lower c) eqn:G2].
      * split; [|split; [cbn; lia|]].
        -- cbn. repeat split; auto; try lia; unfold wf_iv in *; cbn in *; lia.
        -- intros x. rewrite In_set_cons, In_set_one. specialize (D x).
           unfold In_iv in *; cbn in *. tauto.
      * split; [|split; [cbn; lia|]].
        -- cbn. repeat split; auto; try lia; unfold wf_iv in *; cbn in *; lia.
        -- intros x. rewrite In_set_cons, In_set_one. specialize (D x).
           unfold In_iv in *; cbn in *. tauto.
      * split; [|split; [cbn; lia|]].
        -- cbn. unfold wf_iv in *; cbn in *; lia.
        -- intros x. rewrite In_set_one, (D x). clear - Wi W G1 G2.
           unfold In_iv, wf_iv, finite in *; cbn [lower upper] in *. lia.
Qed.
(** Partial: false for the windows without element that do not report to be empty (C14_or_refuted). *)
Theorem C14_point_or_partial : forall t c, valid t -> valid_cx c ->
  cx_is_empty c = true \/ (exists x, In_cx x c) ->
  canonical (pt_or t c) /\
  forall x, In_set x (pt_or t c) <-> (finite x /\ x = t) \/ In_cx x c.
Proof.
  intros t c Vt Vc Hc. unfold pt_or.
  destruct (C14_or_partial (iv_singleton t) c) as (C & _ & D); auto.
  { apply C11_constructors_proper with (b := t); auto. }
  split; auto. intros x. rewrite D.
  now rewrite (proj1 (C11_simple_constructors t x Vt)).
Qed.
Example C14_case : (* disjoint, adjacent, overlapping *)
  iv_or (mkI 5 6) (CIv (mkI 1 2)) = [mkI 1 2; mkI 5 6] /\
  iv_or (mkI 3 6) (CIv (mkI 1 2)) = [mkI 1 6] /\
  iv_or (mkI 1 4) (CRange 3 10) = [mkI 1 9].
Proof. vm_compute. auto. Qed.

(** Finding: the union with an infinite time point stores an empty interval. *)
Theorem C14_or_refuted : exists i t, wf_iv i /\ valid t /\
  iv_or i (CPoint t) = [i; iv_empty] /\ ~ canonical (iv_or i (CPoint t)).
Proof.
  exists (mkI 1 2), oo. split; [iv; lia|]. split; [iv; lia|]. split; [reflexivity|].
  vm_compute. intuition congruence.
Qed.

(** ** C15 complement of a point, of an interval *)

Theorem C15_point_not : forall t, valid t ->
  canonical (pt_not t) /\ forall x, In_set x (pt_not t) <-> finite x /\ x <> t.
Proof.
  intros t V.
  assert (E : pt_not t = if (t =? oo) || (t =? - oo) then [iv_all]
              else if t =? oo - 1 then [mkI (- oo) (oo - 2)]
              else if t =? - oo + 1 then [mkI (- oo + 2) oo]
              else [mkI (- oo) (t - 1); mkI (t + 1) oo]).
  { destruct (Z.eq_dec t oo) as [->|]; [reflexivity|].
    destruct (Z.eq_dec t (- oo)) as [->|]; [reflexivity|].
    destruct (Z.eq_dec t (oo - 1)) as [->|]; [reflexivity|].
    destruct (Z.eq_dec t (- oo + 1)) as [->|]; [reflexivity|].
    unfold pt_not, iv_before, iv_after, iv_is_empty.
    rewrite just_before_spec, just_after_spec by auto.
    unfold is_past_infinite, is_future_infinite, INF, i64_max.
    pts. tests; cbn [lower] in *; auto; lia. }
  rewrite E. clear E. split.
  - tests; cbn [canonical]; repeat split; unfold iv_all; cbn [lower upper]; pts; lia.
  - intros x. tests; rewrite ?In_set_cons, ?In_set_nil; unfold In_iv, iv_all; cbn [lower upper];
      pts; lia.
Qed.
Example C15_point_case : pt_not 5 = [mkI (- oo) 4; mkI 6 oo] /\ pt_not oo = [iv_all] /\
  pt_not (oo - 1) = [mkI (- oo) (oo - 2)].
Proof. vm_compute. auto. Qed.

Theorem C15_interval_not : forall i, proper_iv i ->
  canonical (iv_not i) /\ forall x, In_set x (iv_not i) <-> finite x /\ ~ In_iv x i.
Proof.
  intros i P. unfold iv_not. destruct (iv_is_empty i) eqn:E.
  - assert (Ni : forall x, ~ In_iv x i).
    { intros x H. unfold iv_is_empty in E. destruct P; iv; lia. }
    split; [cbn [canonical]; repeat split; iv; lia|]. intros x. rewrite In_set_one.
    specialize (Ni x). iv. lia.
  - assert (W : wf_iv i).
    { destruct P as [|P]; auto. unfold iv_is_empty in E. iv. lia. }
    clear P E. destruct i as [a b]. cbn [lower upper] in *.
    rewrite just_before_spec, just_after_spec by (iv; lia).
    destruct (is_past_infinite (if (a =? oo) || (a =? - oo) then a else a - 1)) eqn:E1;
      destruct (is_future_infinite (if (b =? oo) || (b =? - oo) then b else b + 1)) eqn:E2;
      (split; [cbn; repeat split|intros x; rewrite ?In_set_cons, ?In_set_nil]);
      unfold is_past_infinite, is_future_infinite in *;
      tests_in E1; tests_in E2; iv; tests; cbn in *; try lia.
Qed.
Example C15_interval_case : iv_not (mkI 3 5) = [mkI (- oo) 2; mkI 6 oo] /\
  iv_not iv_empty = [iv_all] /\ iv_not iv_all = [] /\ iv_not (mkI 3 oo) = [mkI (- oo) 2].
Proof. vm_compute. auto. Qed.

(** Finding: the complement of the intersection of two disjoint intervals is not canonical:
    its two pieces overlap. *)
Theorem C15_not_of_and_refuted : exists i j, wf_iv i /\ wf_iv j /\
  ~ canonical (iv_not (iv_and i (CIv j))).
Proof.
  exists (mkI 1 2), (mkI 5 6). split; [iv; lia|]. split; [iv; lia|].
  vm_compute. intuition congruence.
Qed.

(** ** C16 truncation of an interval *)

Theorem C16_interval_truncate_before : forall i t x, proper_iv i -> valid t ->
  (In_iv x (fst (iv_truncate_before i t)) <-> In_iv x i /\ t <= x) /\
  (snd (iv_truncate_before i t) = true <-> fst (iv_truncate_before i t) <> i).
Proof.
  intros i t x P V. unfold iv_truncate_before. destruct i as [a b]. cbn [lower upper].
  destruct (t <=? a) eqn:E1; [|destruct (b <? t) eqn:E2]; cbn [fst snd]; split.
  - iv. lia.
  - split; congruence.
  - iv. lia.
  - split; auto. intros _ H. inv H. iv. lia.
  - iv. lia.
  - split; auto. intros _ H. inv H. lia.
Qed.
Theorem C16_interval_truncate_after : forall i t x, proper_iv i -> valid t ->
  (In_iv x (fst (iv_truncate_after i t)) <-> In_iv x i /\ x <= t) /\
  (snd (iv_truncate_after i t) = true <-> fst (iv_truncate_after i t) <> i).
Proof.
  intros i t x P V. unfold iv_truncate_after. destruct i as [a b]. cbn [lower upper].
  destruct (b <=? t) eqn:E1; [|destruct (t <? a) eqn:E2]; cbn [fst snd]; split.
  - iv. lia.
  - split; congruence.
  - iv. lia.
  - split; auto. intros _ H. inv H. iv. lia.
  - iv. lia.
  - split; auto. intros _ H. inv H. lia.
Qed.
(** The result is again a proper interval when cutting at a finite time.  Full statement:
    at any time (refuted). *)
Theorem C16_interval_truncate_proper_partial : forall i t, proper_iv i -> finite t ->
  proper_iv (fst (iv_truncate_before i t)) /\ proper_iv (fst (iv_truncate_after i t)).
Proof.
  intros i t P V. unfold iv_truncate_before, iv_truncate_after. destruct i as [a b].
  split; ivt.
Qed.
Example C16_interval_case :
  iv_truncate_before (mkI 1 8) 5 = (mkI 5 8, true) /\ iv_truncate_before (mkI 1 8) 1 = (mkI 1 8, false)
  /\ iv_truncate_after (mkI 1 8) 0 = (iv_empty, true).
Proof. vm_compute. auto. Qed.
(** Finding: truncating at an infinity gives an interval with no point that says it is not
    empty. *)
Theorem C16_interval_truncate_refuted : exists i t, wf_iv i /\ valid t /\
  (forall x, ~ In_iv x (fst (iv_truncate_after i t))) /\
  iv_is_empty (fst (iv_truncate_after i t)) = false.
Proof.
  exists iv_all, (- oo). split; [iv; lia|]. split; [iv; lia|]. split; [|reflexivity].
  intros x H. change (In_iv x (mkI (- oo) (- oo))) in H. iv. lia.
Qed.

(** ** C17 contains, overlaps *)

Theorem C17_contains : forall i j, proper_iv i -> proper_iv j ->
  (cx_contains (CIv i) (WCx (CIv j)) = true -> forall x, In_iv x j -> In_iv x i) /\
  (strict_ends [i] -> iv_is_empty i = false ->
   (forall x, In_iv x j -> In_iv x i) -> cx_contains (CIv i) (WCx (CIv j)) = true) /\
  (is_empty_repr j -> cx_contains (CIv i) (WCx (CIv j)) = true).
Proof.
  intros i j Pi Pj. unfold cx_contains; cbn. split; [|split].
  - intros E x H. unfold In_iv, finite in *. lia.
  - intros S Ei H. unfold strict_ends in S. inv S. destruct H2 as [S1 S2]. clear H3.
    unfold iv_is_empty in Ei.
    destruct Pj as [W|W]; [|destruct Pi; iv; lia].
    destruct Pi as [Wi|Wi]; [|iv; lia].
    pose proof (wf_nonempty j W) as [z Hz].
    assert (Hl : In_iv (Z.max (lower j) (- oo + 1)) j) by (iv; lia).
    assert (Hu : In_iv (Z.min (upper j) (oo - 1)) j) by (iv; lia).
    apply H in Hl, Hu. iv. lia.
  - intros W. destruct Pi; iv; lia.
Qed.
Example C17_contains_case : cx_contains (CIv (mkI 1 8)) (WCx (CIv (mkI 2 8))) = true /\
  cx_contains (CIv (mkI 1 8)) (WCx (CIv (mkI 2 9))) = false.
Proof. vm_compute. auto. Qed.

(** exactly when [overlaps] answers yes *)
(** Partial: an empty interval overlaps the whole line, hence the last two cases (C17_overlaps_refuted). *)
Theorem C17_overlaps_partial : forall i j, proper_iv i -> proper_iv j ->
  (cx_overlaps (CIv i) (CIv j) = true <->
   (exists x, In_iv x i /\ In_iv x j) \/
   (is_empty_repr i /\ j = iv_all) \/ (is_empty_repr j /\ i = iv_all)).
Proof.
  intros i j Pi Pj. unfold cx_overlaps; cbn. split.
  - intros E. destruct Pi as [Wi|Wi], Pj as [Wj|Wj].
    + left. exists (Z.min (Z.max (Z.max (lower i) (lower j)) (- oo + 1)) (oo - 1)). iv. lia.
    + right. right. split; auto. apply iv_ext; iv; lia.
    + right. left. split; auto. apply iv_ext; iv; lia.
    + iv. lia.
  - intros [(x & H1 & H2)|[[H1 ->]|[H1 ->]]]; iv; lia.
Qed.
Example C17_overlaps_case : cx_overlaps (CIv (mkI 1 5)) (CIv (mkI 5 8)) = true /\
  cx_overlaps (CIv (mkI 1 4)) (CIv (mkI 5 8)) = false.
Proof. vm_compute. auto. Qed.
(** Finding: the full line overlaps the empty interval. *)
Theorem C17_overlaps_refuted : exists i j, proper_iv i /\ iv_is_empty j = true /\
  cx_overlaps (CIv i) (CIv j) = true /\ forall x, ~ In_iv x j.
Proof.
  exists iv_all, iv_empty. split; [left; iv; lia|]. repeat split; auto.
  intros x H. iv. lia.
Qed.

(** ** C18 comparison of intervals *)

(** For non-empty intervals, [<] is "every point of [i] is before every point of [j]". *)
Theorem C18_lt_interval : forall i j, wf_iv i -> wf_iv j ->
  (iv_lt i (WCx (CIv j)) = true <-> forall x y, In_iv x i -> In_iv y j -> x < y).
Proof.
  intros i j Wi Wj. unfold iv_lt, bd_lt; cbn. split.
  - intros E x y Hx Hy. unfold In_iv in *. lia.
  - intros H.
    assert (Hu : In_iv (Z.min (upper i) (oo - 1)) i) by (iv; lia).
    assert (Hl : In_iv (Z.max (lower j) (- oo + 1)) j) by (iv; lia).
    specialize (H _ _ Hu Hl). iv. lia.
Qed.
Theorem C18_order_laws : forall i j k, wf_iv i -> wf_iv j -> wf_iv k ->
  iv_lt i (WCx (CIv i)) = false /\
  (iv_lt i (WCx (CIv j)) = true -> iv_lt j (WCx (CIv i)) = false) /\
  (iv_lt i (WCx (CIv j)) = true -> iv_lt j (WCx (CIv k)) = true -> iv_lt i (WCx (CIv k)) = true) /\
  iv_gt i (WCx (CIv j)) = iv_lt j (WCx (CIv i)).
Proof.
  intros i j k Wi Wj Wk. unfold iv_lt, iv_gt, bd_lt, bd_gt; cbn. iv. lia.
Qed.
Theorem C18_partial_cmp : forall i w, w_lower w <= w_upper w -> wf_iv i ->
  match iv_partial_cmp i w with
  | Some Lt => iv_lt i w = true /\ iv_gt i w = false /\ iv_eq i w = false
  | Some Gt => iv_lt i w = false /\ iv_gt i w = true /\ iv_eq i w = false
  | Some Eq => iv_lt i w = false /\ iv_gt i w = false /\ iv_eq i w = true
  | None => iv_lt i w = false /\ iv_gt i w = false /\ iv_eq i w = false
  end /\
  (iv_le i w = true <-> iv_partial_cmp i w = Some Lt \/ iv_partial_cmp i w = Some Eq) /\
  (iv_ge i w = true <-> iv_partial_cmp i w = Some Gt \/ iv_partial_cmp i w = Some Eq).
Proof.
  intros i w L W. unfold iv_partial_cmp, iv_le, iv_ge, bd_partial_cmp.
  fold (iv_lt i w). fold (iv_gt i w).
  assert (A : iv_lt i w = true -> iv_gt i w = false /\ iv_eq i w = false).
  { unfold iv_lt, iv_gt, iv_eq, bd_lt, bd_gt. iv. lia. }
  assert (B : iv_gt i w = true -> iv_eq i w = false).
  { unfold iv_gt, iv_eq, bd_gt. iv. lia. }
  destruct (iv_lt i w), (iv_gt i w), (iv_eq i w); cbn; intuition congruence.
Qed.
Theorem C18_eq_interval : forall i j,
  (iv_eq i (WCx (CIv j)) = true <-> i = j) /\ iv_eq i (WCx (CIv i)) = true.
Proof.
  intros i j. unfold iv_eq; cbn. split; [|lia]. split.
  - intros E. apply iv_ext; lia.
  - intros ->. lia.
Qed.
Example C18_case : iv_lt (mkI 1 3) (WCx (CIv (mkI 4 5))) = true /\
  iv_lt (mkI 1 4) (WCx (CIv (mkI 4 5))) = false /\
  iv_partial_cmp (mkI 7 8) (WCx (CIv (mkI 4 5))) = Some Gt /\
  iv_partial_cmp (mkI 1 4) (WCx (CIv (mkI 4 5))) = None.
Proof. vm_compute. auto. Qed.
(** Finding: with an empty interval [<] is not asymmetric, nor irreflexive. *)
Theorem C18_lt_empty_refuted : exists i j, wf_iv i /\ is_empty_repr j /\
  iv_lt i (WCx (CIv j)) = true /\ iv_lt j (WCx (CIv i)) = true /\
  iv_lt j (WCx (CIv j)) = true.
Proof. exists (mkI 1 2), iv_empty. split; [iv; lia|]. split; [iv; lia|]. vm_compute. auto. Qed.

(** ** C21 centered, enlarge, negation, duration *)

Theorem C21_centered : forall o d, finite o -> finite d ->
  iv_centered o d = Ret (if 0 <=? d then Some (mkI (clamp (o - d)) (clamp (o + d))) else None).
Proof.
  intros o d Ho Hd. unfold iv_centered.
  rewrite tv_sub_finite, tv_add_finite by auto. cbn. reflexivity.
Qed.
Theorem C21_centered_points : forall o d i x, finite o -> finite d ->
  iv_centered o d = Ret (Some i) -> (In_iv x i <-> finite x /\ Z.abs (x - o) <= d).
Proof.
  intros o d i x Ho Hd. rewrite C21_centered by auto. intros E. tests_in E; inv E. iv. lia.
Qed.
(** Finding: with an infinite delta, the origin at the same infinity panics. *)
Theorem C21_centered_infinite_refuted : exists o d, valid o /\ valid d /\ 0 <= d /\
  iv_centered o d = Panic.
Proof. exists oo, oo. vm_compute. intuition congruence. Qed.

(** Each bound moves by [d]; [None] exactly when the moved bounds cross. *)
Theorem C21_enlarge : forall i d, valid_iv i -> finite d ->
  iv_enlarge i d =
    Ret (if shift (lower i) (- d) <=? shift (upper i) d
         then Some (mkI (shift (lower i) (- d)) (shift (upper i) d)) else None).
Proof.
  intros i d [Vl Vu] F. unfold iv_enlarge.
  rewrite tv_sub_shift, tv_add_shift by auto. reflexivity.
Qed.
(** the points of an enlarged interval (away from saturation) *)
Theorem C21_enlarge_points : forall i d k x, wf_iv i -> 0 <= d < oo ->
  iv_enlarge i d = Ret (Some k) ->
  (In_iv x k <-> finite x /\ (lower i = - oo \/ lower i - d <= x) /\ (upper i = oo \/ x <= upper i + d)).
Proof.
  intros i d k x W F E.
  rewrite C21_enlarge in E by (iv; lia). tests_in E; inv E.
  unfold In_iv, shift. cbn [lower upper]. unfold wf_iv in W. pts. tests; lia.
Qed.
Theorem C21_neg : forall i x, valid_iv i ->
  (In_iv x (iv_neg i) <-> In_iv (- x) i) /\ iv_neg (iv_neg i) = i /\
  (wf_iv i -> wf_iv (iv_neg i)) /\ (is_empty_repr i -> is_empty_repr (iv_neg i)).
Proof.
  intros i x V. unfold iv_neg. split; [iv; lia|]. split; [apply iv_ext; iv; lia|].
  split; iv; lia.
Qed.
Theorem C21_duration : forall i, finite (lower i) -> finite (upper i) ->
  iv_duration i = Ret (Z.min oo (Z.max 0 (upper i - lower i))).
Proof.
  intros i Fl Fu. unfold iv_duration, ts_sub_ts. tests.
  - f_equal. iv. lia.
  - rewrite tv_sub_finite by auto. f_equal. iv. lia.
Qed.
Theorem C21_duration_unbounded : forall i, wf_iv i -> (lower i = - oo \/ upper i = oo) ->
  iv_duration i = Ret oo.
Proof.
  intros i W H. unfold iv_duration, ts_sub_ts, tv_sub. tests; [iv; lia|].
  rewrite tv_add_spec by (iv; lia). iv. tests; auto; lia.
Qed.
Theorem C21_duration_empty : forall i, is_empty_repr i -> iv_duration i = Ret 0.
Proof. intros i W. unfold iv_duration. tests; auto. iv. lia. Qed.
(** It never panics, on whatever bounds. *)
Theorem C21_duration_total : forall i, valid_iv i ->
  exists d, iv_duration i = Ret d /\ 0 <= d <= oo /\ (d = 0 <-> upper i <= lower i).
Proof.
  intros i V. unfold iv_duration, ts_sub_ts, tv_sub. destruct (upper i <=? lower i) eqn:T.
  - exists 0. split; auto. iv. lia.
  - rewrite tv_add_spec by (iv; lia). iv. tests; try lia; eexists; (split; [reflexivity|]); lia.
Qed.
Example C21_case : iv_centered 10 3 = Ret (Some (mkI 7 13)) /\ iv_centered 10 (-3) = Ret None /\
  iv_enlarge (mkI 7 13) (-3) = Ret (Some (mkI 10 10)) /\ iv_enlarge (mkI 7 13) (-4) = Ret None /\
  iv_neg (mkI 7 13) = mkI (-13) (-7) /\ iv_duration (mkI 7 13) = Ret 6.
Proof. vm_compute. auto 10. Qed.
