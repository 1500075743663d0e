(** Queries on convex windows (C78) and adapters of convex iterators (C79). *)
From Verif Require Import Machine TimeValue Spec Tac Interval Iter TimeSet SpecSets SetProofs CollectProofs SetOpsProofs Prop_Interval Prop_TimeSet Adapt.

(** ** C78 *)

(** The answers are right for any convex window with some point, as long as an infinite end is written as an
    infinity ([strict_ends], as in C11_interval_queries).
    Partial: windows without point (see below). *)
Theorem C78_queries_partial : forall c, valid_cx c -> (exists x, In_cx x c) -> strict_ends [mkI (cx_lower c) (cx_upper c)] ->
  (cx_is_low_bounded c = true <-> exists x, finite x /\ forall y, In_cx y c -> x < y) /\
  (cx_is_up_bounded c = true <-> exists x, finite x /\ forall y, In_cx y c -> y < x) /\
  (cx_is_bounded c = true <-> exists x z, finite x /\ finite z /\ forall y, In_cx y c -> x < y < z) /\
  (cx_is_bounded c = true -> (cx_is_singleton c = true <-> exists x, forall y, In_cx y c <-> y = x)) /\
  (cx_is_singleton c = true -> exists x, forall y, In_cx y c <-> y = x) /\
  (cx_is_all c = true <-> forall x, finite x -> In_cx x c) /\
  cx_convex_count c = 1 /\ (forall x, In_iv x (cx_envelope c) <-> In_cx x c).
Proof.
  intros c V Ne S. unfold strict_ends in S. inv S. clear H2. destruct H1 as (S1 & S2). cbn [lower upper] in *.
  assert (Eb : forall x, In_cx x c <-> finite x /\ cx_lower c <= x <= cx_upper c).
  { intros x. apply (C11_convex_bounds c x V). }
  assert (Le : - oo <= cx_lower c /\ cx_upper c <= oo).
  { destruct c as [t|i|a b|a|a b|b|b]; cbn in *; iv; unfold just_before; tests; lia. }
  destruct Ne as (z & Hz). pose proof (proj1 (Eb z) Hz) as (Fz & Lz).
  assert (B1 : cx_is_low_bounded c = negb (cx_lower c =? - oo)).
  { destruct c as [t|i|a b|a|a b|b|b]; cbn in *; clear Eb; unfold cx_is_empty, iv_is_low_bounded, iv_is_up_bounded, iv_is_bounded, iv_is_singleton, iv_is_empty in *; iv; unfold just_before in *; tests; lia. }
  assert (B2 : cx_is_up_bounded c = negb (cx_upper c =? oo)).
  { destruct c as [t|i|a b|a|a b|b|b]; cbn in *; clear Eb; unfold cx_is_empty, iv_is_low_bounded, iv_is_up_bounded, iv_is_bounded, iv_is_singleton, iv_is_empty in *; iv; unfold just_before in *; tests; try lia; try reflexivity. }
  assert (B3 : cx_is_bounded c = cx_is_low_bounded c && cx_is_up_bounded c).
  { destruct c as [t|i|a b|a|a b|b|b]; cbn in *; clear Eb; unfold cx_is_empty, iv_is_low_bounded, iv_is_up_bounded, iv_is_bounded, iv_is_singleton, iv_is_empty in *; iv; tests; try lia; try reflexivity. }
  assert (B4 : cx_is_singleton c = (cx_lower c =? cx_upper c)).
  { destruct c as [t|i|a b|a|a b|b|b]; cbn in *; clear Eb; unfold cx_is_empty, iv_is_low_bounded, iv_is_up_bounded, iv_is_bounded, iv_is_singleton, iv_is_empty in *; iv; unfold just_before in *; tests; try lia; try reflexivity. }
  assert (B5 : cx_is_empty c = false).
  { destruct c as [t|i|a b|a|a b|b|b]; cbn in *; clear Eb; unfold cx_is_empty, iv_is_low_bounded, iv_is_up_bounded, iv_is_bounded, iv_is_singleton, iv_is_empty in *; iv; unfold just_before in *; tests; try lia; try reflexivity. }
  unfold cx_is_all, cx_convex_count, cx_envelope. rewrite B3, B1, B2, B4, B5. clear B1 B2 B3 B4 B5.
  generalize dependent (cx_lower c). generalize dependent (cx_upper c). intros up S2 lo S1 Eb (L1 & L2) Lz.
  setoid_rewrite Eb. clear V Hz Eb. unfold In_iv, finite in *. cbn [lower upper].
  repeat match goal with |- _ /\ _ => split end.
  - split; [intros H; exists (lo - 1); split; [lia|intros; lia]|]. intros (x & Fx & H). destruct (Z.eq_dec lo (- oo)); [|lia].
    specialize (H (- oo + 1)). lia.
  - split; [intros H; exists (up + 1); split; [lia|intros; lia]|]. intros (x & Fx & H). destruct (Z.eq_dec up oo); [|lia].
    specialize (H (oo - 1)). lia.
  - split; [intros H; exists (lo - 1), (up + 1); repeat split; lia|]. intros (x & w & Fx & Fw & H).
    pose proof (H (- oo + 1)). pose proof (H (oo - 1)). lia.
  - intros F. split; [intros E; exists lo; intros y; lia|]. intros (x & H).
    pose proof (proj1 (H lo)). pose proof (proj1 (H up)). lia.
  - intros E. exists lo. intros y. lia.
  - split; [intros; lia|]. intros H. pose proof (H (- oo + 1)). pose proof (H (oo - 1)). unfold oo in *. lia.
  - reflexivity.
  - intros; lia.
Qed.
Example C78_case : valid_cx (CRange 3 5) /\ (exists x, In_cx x (CRange 3 5)) /\ strict_ends [mkI (cx_lower (CRange 3 5)) (cx_upper (CRange 3 5))] /\
  cx_is_bounded (CRange 3 5) = true /\ cx_is_singleton (CRange 3 5) = false /\ cx_is_singleton (CRange 3 4) = true /\
  cx_is_all (CRangeFrom (- oo)) = true /\ cx_is_bounded (CRangeFrom 3) = false.
Proof.
  split; [iv; lia|]. split; [exists 3; iv; lia|]. split; [apply Forall_cons; [split; vm_compute; discriminate|apply Forall_nil]|]. vm_compute. auto 10.
Qed.
(** On an empty range, as documented, no end is bounded and nothing is a singleton. *)
Theorem C78_empty_ranges : forall c, valid_cx c -> cx_is_empty c = true -> (forall i, c <> CIv i) ->
  cx_is_low_bounded c = false /\ cx_is_up_bounded c = false /\ cx_is_bounded c = false /\ cx_is_singleton c = false /\
  cx_convex_count c = 0 /\ cx_iter c = [] /\ is_empty_repr (cx_envelope c).
Proof.
  intros c V E N. unfold cx_convex_count, cx_iter, cx_envelope, is_empty_repr. rewrite E.
  destruct c as [t|i|a b|a|a b|b|b]; try discriminate E; [now destruct (N i)| |]; cbn in *; rewrite E; auto 10.
Qed.
Example C78_empty_case : valid_cx (CRange 5 3) /\ cx_is_empty (CRange 5 3) = true /\ forall i, CRange 5 3 <> CIv i.
Proof. split; [iv; lia|]. split; [reflexivity|discriminate]. Qed.
(** But an empty range, and an infinite date, say that they hold everything. *)
Theorem C78_all_refuted : exists c t, valid_cx c /\ cx_is_empty c = true /\ cx_is_all c = true /\
  valid t /\ (forall x, ~ In_cx x (CPoint t)) /\ cx_is_all (CPoint t) = true.
Proof.
  exists (CRange 5 3), oo. split; [iv; lia|]. split; [reflexivity|]. split; [reflexivity|]. split; [iv; lia|]. split; [|reflexivity].
  intros x (F & E). unfold finite in F. lia.
Qed.

(** ** C79 *)

(** A chain of adapters, each with any closure or number *)
Inductive adapted : list interval -> list interval -> Prop :=
| ad_same l : adapted l (it_same l)
| ad_filter st f (s : st) l m : adapted l m -> adapted l (it_filter st f s m)
| ad_skip_while st f (s : st) l m : adapted l m -> adapted l (it_skip_while st f s m)
| ad_take_while st f (s : st) l m : adapted l m -> adapted l (it_take_while st f s m)
| ad_skip n l m : adapted l m -> adapted l (it_skip n m)
| ad_take n l m : adapted l m -> adapted l (it_take n m)
| ad_step n l m k : adapted l m -> it_step_by n m = Ret k -> adapted l k.
(** Some items of a list, in the same order *)
Inductive sub {A} : list A -> list A -> Prop :=
| sub_nil l : sub [] l
| sub_keep x l m : sub l m -> sub (x :: l) (x :: m)
| sub_drop x l m : sub l m -> sub l (x :: m).

Lemma sub_refl : forall A (l : list A), sub l l.
Proof. induction l; [apply sub_nil|apply sub_keep; auto]. Qed.
Lemma sub_trans : forall A (l m k : list A), sub m k -> sub l m -> sub l k.
Proof.
  intros A l m k H. revert l. induction H as [k|x m k H IH|x m k H IH]; intros l L.
  - inv L. apply sub_nil.
  - inv L; [apply sub_nil|apply sub_keep; auto|apply sub_drop; auto].
  - apply sub_drop; auto.
Qed.
Lemma sub_in : forall A (l m : list A) x, sub l m -> In x l -> In x m.
Proof. intros A l m x H. induction H; intros I; [destruct I|destruct I; [left; auto|right; auto]|right; auto]. Qed.
Lemma sub_canon : forall l m, sub l m -> forall b, canon_from b m -> canon_from b l.
Proof.
  intros l m H. induction H as [m|i l m H IH|i l m H IH]; intros b C; [exact I| |]; cbn in C |- *.
  - destruct C as (B & W & C). auto.
  - destruct C as (B & W & C). apply IH. eapply canon_from_weaken; [|exact C]. unfold wf_iv in W. lia.
Qed.
Lemma sub_filter : forall st f l (s : st), sub (it_filter st f s l) l.
Proof. induction l as [|i l IH]; intros s; [apply sub_nil|]. cbn. destruct (snd (f s i)); [apply sub_keep|apply sub_drop]; auto. Qed.
Lemma sub_skip_while : forall st f l (s : st), sub (it_skip_while st f s l) l.
Proof. induction l as [|i l IH]; intros s; [apply sub_nil|]. cbn. destruct (snd (f s i)); [apply sub_drop; auto|apply sub_refl]. Qed.
Lemma sub_take_while : forall st f l (s : st), sub (it_take_while st f s l) l.
Proof. induction l as [|i l IH]; intros s; [apply sub_nil|]. cbn. destruct (snd (f s i)); [apply sub_keep; auto|apply sub_nil]. Qed.
Lemma sub_skipn : forall A n (l : list A), sub (skipn n l) l.
Proof. induction n as [|n IH]; intros [|x l]; cbn; try apply sub_nil; [apply sub_refl|apply sub_drop; auto]. Qed.
Lemma sub_firstn : forall A n (l : list A), sub (firstn n l) l.
Proof. induction n as [|n IH]; intros [|x l]; cbn; try apply sub_nil. apply sub_keep; auto. Qed.
Lemma sub_step : forall n l w, sub (step_items n w l) l.
Proof. induction l as [|i l IH]; intros w; [apply sub_nil|]. cbn. destruct w; [apply sub_keep|apply sub_drop]; auto. Qed.
Lemma adapted_sub : forall l m, adapted l m -> sub m l.
Proof.
  intros l m H. induction H as [l|st f s l m H IH|st f s l m H IH|st f s l m H IH|n l m H IH|n l m H IH|n l m k H IH E].
  - apply sub_refl.
  - eapply sub_trans; [exact IH|apply sub_filter].
  - eapply sub_trans; [exact IH|apply sub_skip_while].
  - eapply sub_trans; [exact IH|apply sub_take_while].
  - eapply sub_trans; [exact IH|apply sub_skipn].
  - eapply sub_trans; [exact IH|apply sub_firstn].
  - unfold it_step_by in E. destruct (negb (n =? 0)); inv E. eapply sub_trans; [exact IH|apply sub_step].
Qed.

(** Whatever the adapters, the items are still sorted, disjoint and not adjacent, they are some of the intervals of the
    source, and collecting them gives exactly them. *)
Theorem C79_contract : forall l m, canonical l -> adapted l m ->
  canonical m /\ (forall i, In i m -> In i l) /\ (forall x, In_set x m -> In_set x l) /\ from_iter m = Ret m.
Proof.
  intros l m C H. pose proof (adapted_sub l m H) as S.
  assert (Cm : canonical m) by (apply canonical_from_iff; eapply sub_canon; [exact S|]; now apply canonical_from_iff).
  split; auto. split; [intros i; now apply sub_in|]. split; [|now apply C30_collect_canonical_id].
  intros x (i & Ii & X). exists i. split; [eapply sub_in; eauto|auto].
Qed.
(** Which intervals remain, for each adapter *)
Theorem C79_filter : forall g l i, In i (it_filter unit (fun _ i => (tt, g i)) tt l) <-> In i l /\ g i = true.
Proof.
  intros g. induction l as [|j l IH]; intros i; cbn; [tauto|]. destruct (g j) eqn:E; cbn; rewrite IH; intuition congruence.
Qed.
Theorem C79_while : forall st f (s : st) l, it_take_while st f s l ++ it_skip_while st f s l = l.
Proof. intros st f s l. revert s. induction l as [|i l IH]; intros s; cbn; auto. destruct (snd (f s i)); cbn; [f_equal; auto|auto]. Qed.
Theorem C79_while_first : forall g l,
  Forall (fun i => g i = true) (it_take_while unit (fun _ i => (tt, g i)) tt l) /\
  match it_skip_while unit (fun _ i => (tt, g i)) tt l with [] => True | i :: _ => g i = false end.
Proof.
  intros g. induction l as [|i l (IH1 & IH2)]; cbn; [split; auto|]. destruct (g i) eqn:E; cbn; auto.
Qed.
Theorem C79_skip_take : forall n l x, 0 <= n -> In_set x l <-> In_set x (it_take n l) \/ In_set x (it_skip n l).
Proof.
  intros n l x Hn. unfold it_take, it_skip. rewrite <- (firstn_skipn (Z.to_nat n) l) at 1. unfold In_set.
  generalize (firstn (Z.to_nat n) l) (skipn (Z.to_nat n) l). intros a b. split.
  - intros (i & Ii & X). apply in_app_or in Ii. destruct Ii; [left|right]; eauto.
  - intros [(i & Ii & X)|(i & Ii & X)]; exists i; (split; [apply in_or_app; auto|exact X]).
Qed.
Theorem C79_step : forall n l m k, 0 < n -> it_step_by n l = Ret m -> nth_error m k = nth_error l (k * Z.to_nat n).
Proof.
  intros n l m k Hn E. unfold it_step_by in E. replace (n =? 0) with false in E by lia. inv E.
  destruct (Z.to_nat n) as [|d] eqn:D; [lia|]. clear n Hn D.
  assert (H : forall l w k, nth_error (step_items (Datatypes.S d) w l) k = nth_error l (w + k * Datatypes.S d)).
  { clear. induction l as [|i l IH]; intros w k; [destruct k, w; reflexivity|]. cbn [step_items]. destruct w as [|w].
    - destruct k as [|k]; [reflexivity|]. cbn [nth_error]. rewrite IH. cbn. f_equal. lia.
    - rewrite IH. reflexivity. }
  apply (H l 0%nat).
Qed.
Theorem C79_step_zero : forall l, it_step_by 0 l = Panic.
Proof. reflexivity. Qed.
Example C79_case : let l := [mkI (- oo) 0; mkI 2 4; mkI 16 20; mkI 30 30; mkI 40 oo] in canonical l /\
  adapted l [mkI 2 4; mkI 30 30] /\ it_step_by 2 l = Ret [mkI (- oo) 0; mkI 16 20; mkI 40 oo].
Proof.
  cbv zeta. split; [cbn [canonical]; unfold wf_iv, oo; cbn [lower upper]; lia|]. split; [|vm_compute; reflexivity].
  apply (ad_step 2 _ [mkI 2 4; mkI 16 20; mkI 30 30; mkI 40 oo]); [|vm_compute; reflexivity].
  apply (ad_skip_while unit (fun _ i => (tt, lower i <? 0)) tt _ [mkI (- oo) 0; mkI 2 4; mkI 16 20; mkI 30 30; mkI 40 oo]).
  apply ad_same.
Qed.
