(** C80: a program that does not panic in debug behaves alike in release. *)
From Coq Require Import String.
From Verif Require Import Machine TimeValue Convert Interval Iter TimeSet Relns Transl Scaling Seq Format
  Graph Scheduler GraphText.
Local Open Scope Z_scope.

(** What is claimed of an operation: unless it panics in a debug build, a release build has the
    same outcome (the same result, and no undefined behaviour of its own). *)
Definition release_agrees {A} (f : profile -> outcome A) : Prop := f Debug <> Panic -> f Release = f Debug.

Definition same {A} (d r : outcome A) : Prop := d <> Panic -> r = d.
Lemma same_refl A (o : outcome A) : same o o.
Proof. intro. auto. Qed.
Lemma same_bind A B (d r : outcome A) (f g : A -> outcome B) :
  same d r -> (forall x, same (f x) (g x)) -> same (bind d f) (bind r g).
Proof.
  intros H F N. destruct d as [x| | |]; simpl in *; try (rewrite H by discriminate; reflexivity).
  - rewrite H by discriminate. apply F. auto.
  - now elim N.
Qed.
Lemma same_omap A B (f : A -> B) (d r : outcome A) : same d r -> same (omap f d) (omap f r).
Proof. intros H N. destruct d; simpl in *; try (rewrite H by discriminate; reflexivity). now elim N. Qed.
Lemma same_fold A B (f g : A -> B -> outcome A) l : (forall s x, same (f s x) (g s x)) ->
  forall s, same (ofold f s l) (ofold g s l).
Proof.
  intros F. induction l as [|x l IH]; intros s; simpl; [apply same_refl|].
  apply same_bind; auto.
Qed.
Lemma same_omapM A B (f g : A -> outcome B) l : (forall x, same (f x) (g x)) ->
  same (omapM f l) (omapM g l).
Proof.
  intros F. induction l as [|x l IH]; simpl; [apply same_refl|].
  apply same_bind; auto. intros y. apply same_bind; auto. intros; apply same_refl.
Qed.
Lemma same_chk64 z : same (chk64 Debug z) (chk64 Release z).
Proof. unfold chk64. intro N. destruct (in_i64 z); auto. now elim N. Qed.
Lemma same_chk32 z : same (chk32 Debug z) (chk32 Release z).
Proof. unfold chk32. intro N. destruct (_ && _); auto. now elim N. Qed.
Lemma same_chkus z : same (chkus Debug z) (chkus Release z).
Proof. unfold chkus. intro N. destruct (_ && _); auto. now elim N. Qed.
Lemma same_assert c : same (debug_assert Debug c) (debug_assert Release c).
Proof. unfold debug_assert. intro N. destruct c; auto. now elim N. Qed.

Create HintDb same.
Ltac same :=
  repeat (intros; cbn beta iota zeta;
  match goal with
  | |- same ?x ?x => apply same_refl
  | |- same (bind _ _) (bind _ _) => apply same_bind
  | |- same (omap _ _) (omap _ _) => apply same_omap
  | |- same (ofold _ _ _) (ofold _ _ _) => apply same_fold
  | |- same (omapM _ _) (omapM _ _) => apply same_omapM
  | |- same (chk64 _ _) _ => apply same_chk64
  | |- same (chk32 _ _) _ => apply same_chk32
  | |- same (chkus _ _) _ => apply same_chkus
  | |- same (debug_assert _ _) _ => apply same_assert
  | |- same (add64 _ _ _) _ => unfold add64
  | |- same (sub64 _ _ _) _ => unfold sub64
  | |- same (mul64 _ _ _) _ => unfold mul64
  | |- same (neg64 _ _) _ => unfold neg64
  | |- same (abs64 _ _) _ => unfold abs64
  | |- same (add32 _ _ _) _ => unfold add32
  | |- same (sub32 _ _ _) _ => unfold sub32
  | |- same (mul32 _ _ _) _ => unfold mul32
  | |- same (addus _ _ _) _ => unfold addus
  | |- same (subus _ _ _) _ => unfold subus
  | |- same (mulus _ _ _) _ => unfold mulus
  | |- same (match ?x with _ => _ end) (match ?x with _ => _ end) => destruct x
  | |- same _ _ => solve [auto with same]
  end).
Tactic Notation "by_same" reference(f) := intros; unfold f; same.

(** ** Durations *)
Lemma s_fract t u : same (from_fract Debug t u) (from_fract Release t u).
Proof. by_same from_fract. Qed.
#[local] Hint Resolve s_fract : same.
Lemma s_millis t : same (from_millis Debug t) (from_millis Release t). Proof. by_same from_millis. Qed.
Lemma s_micros t : same (from_micros Debug t) (from_micros Release t). Proof. by_same from_micros. Qed.
Lemma s_nanos t : same (from_nanos Debug t) (from_nanos Release t). Proof. by_same from_nanos. Qed.
Lemma s_subsec t : same (subsec_nanos Debug t) (subsec_nanos Release t). Proof. by_same subsec_nanos. Qed.
Lemma s_floor t u : same (tv_floor Debug t u) (tv_floor Release t u). Proof. by_same tv_floor. Qed.
Lemma s_ceil t u : same (tv_ceil Debug t u) (tv_ceil Release t u). Proof. by_same tv_ceil. Qed.
#[local] Hint Resolve s_millis s_micros s_nanos s_subsec s_floor s_ceil : same.
Lemma s_finite_m t : same (is_finite_m Debug t) (is_finite_m Release t). Proof. by_same is_finite_m. Qed.
Lemma s_past_m t : same (is_past_infinite_m Debug t) (is_past_infinite_m Release t). Proof. by_same is_past_infinite_m. Qed.
#[local] Hint Resolve s_finite_m s_past_m : same.
Lemma s_trunc t u : same (trunc_unit Debug t u) (trunc_unit Release t u). Proof. by_same trunc_unit. Qed.
#[local] Hint Resolve s_trunc : same.

Ltac agrees := intros;
  match goal with |- release_agrees ?f => change (same (f Debug) (f Release)) end; cbn beta; same.
Ltac all_agree := repeat match goal with |- _ /\ _ => split end; agrees.

Theorem C80_durations : forall t u n,
  release_agrees (fun p => from_millis p t) /\ release_agrees (fun p => from_micros p t) /\
  release_agrees (fun p => from_nanos p t) /\
  release_agrees (fun p => subsec_millis p t) /\ release_agrees (fun p => subsec_micros p t) /\
  release_agrees (fun p => subsec_nanos p t) /\
  release_agrees (fun p => tv_floor p t u) /\ release_agrees (fun p => tv_ceil p t u) /\
  release_agrees (fun p => is_past_infinite_m p t) /\ release_agrees (fun p => is_finite_m p t) /\
  release_agrees (fun p => just_after_m p t) /\ release_agrees (fun p => just_before_m p t) /\
  release_agrees (fun p => tv_neg_m p t) /\ release_agrees (fun p => tv_add_m p t u) /\
  release_agrees (fun p => of_chrono p n) /\ release_agrees (fun p => of_std p t n) /\
  release_agrees (fun p => to_std p t) /\
  release_agrees (fun p => ts_to_datetime p t) /\ release_agrees (fun p => ts_of_datetime p t n) /\
  release_agrees (fun p => tv_years p t) /\ release_agrees (fun p => tv_months p t) /\
  release_agrees (fun p => tv_weeks p t) /\ release_agrees (fun p => tv_days p t) /\
  release_agrees (fun p => tv_hours p t) /\ release_agrees (fun p => tv_mins p t) /\
  release_agrees (fun p => tv_millis p t) /\ release_agrees (fun p => tv_micros p t) /\
  release_agrees (fun p => tv_nanos p t).
Proof.
  intros. unfold subsec_millis, subsec_micros, just_after_m, just_before_m, tv_neg_m, tv_add_m, of_chrono,
    of_std, to_std, ts_to_datetime, ts_of_datetime, tv_years, tv_months, tv_weeks, tv_days, tv_hours, tv_mins,
    tv_millis, tv_micros, tv_nanos.
  all_agree.
Qed.
(** The hypothesis is needed: rounding the smallest finite duration down overflows. *)
Example C80_durations_case :
  tv_floor Debug 1001 1000 = Ret 1000 /\ tv_floor Debug (1 - INF) 1000 = Panic /\
  tv_floor Release (1 - INF) 1000 = Ret 9223372036854775616.
Proof. repeat split. Qed.

(** ** Windows *)
Lemma s_checked lo up : same (iv_checked Debug lo up) (iv_checked Release lo up).
Proof. by_same iv_checked. Qed.
#[local] Hint Resolve s_checked : same.
Lemma s_add_v i v : same (iv_add_v Debug i v) (iv_add_v Release i v). Proof. by_same iv_add_v. Qed.
Lemma s_sub_v i v : same (iv_sub_v Debug i v) (iv_sub_v Release i v). Proof. by_same iv_sub_v. Qed.
Lemma s_add_span i j : same (iv_add_span Debug i j) (iv_add_span Release i j). Proof. by_same iv_add_span. Qed.
Lemma s_sub_span i j : same (iv_sub_span Debug i j) (iv_sub_span Release i j). Proof. by_same iv_sub_span. Qed.
Lemma s_ts_add t j : same (ts_add_span Debug t j) (ts_add_span Release t j). Proof. by_same ts_add_span. Qed.
Lemma s_ts_sub t j : same (ts_sub_span Debug t j) (ts_sub_span Release t j). Proof. by_same ts_sub_span. Qed.
#[local] Hint Resolve s_add_v s_sub_v s_add_span s_sub_span s_ts_add s_ts_sub : same.
Lemma s_span_sub_ts j t : same (span_sub_ts Debug j t) (span_sub_ts Release j t). Proof. by_same span_sub_ts. Qed.
#[local] Hint Resolve s_span_sub_ts : same.
Lemma s_set_add_span l j : same (set_add_span Debug l j) (set_add_span Release l j). Proof. by_same set_add_span. Qed.
#[local] Hint Resolve s_set_add_span : same.
Lemma s_transl l v : same (transl_list Debug l v) (transl_list Release l v).
Proof. induction l as [|i l IH]; simpl; same. Qed.
#[local] Hint Resolve s_transl : same.

Theorem C80_windows : forall i j v l m,
  release_agrees (fun p => iv_add_v p i v) /\ release_agrees (fun p => iv_sub_v p i v) /\
  release_agrees (fun p => v_sub_iv p v i) /\ release_agrees (fun p => iv_add_span p i j) /\
  release_agrees (fun p => iv_sub_span p i j) /\ release_agrees (fun p => ts_add_span p v j) /\
  release_agrees (fun p => ts_sub_span p v j) /\ release_agrees (fun p => span_sub_ts p j v) /\
  release_agrees (fun p => set_add_v p l v) /\ release_agrees (fun p => set_sub_v p l v) /\
  release_agrees (fun p => spans_add_ts p l v) /\ release_agrees (fun p => spans_sub_ts p l v) /\
  release_agrees (fun p => ts_sub_spans p v l) /\ release_agrees (fun p => set_add_span p l j) /\
  release_agrees (fun p => set_sub_span p l j) /\ release_agrees (fun p => set_add_spans p l m) /\
  release_agrees (fun p => set_sub_spans p l m) /\ release_agrees (fun p => transl_list p l v).
Proof.
  intros. unfold v_sub_iv, set_add_v, set_sub_v, spans_add_ts, spans_sub_ts, ts_sub_spans, set_sub_span,
    set_add_spans, set_sub_spans. all_agree.
Qed.
(** Without debug assertions the empty interval is translated to some empty interval. *)
Example C80_windows_case :
  iv_add_v Debug (mkI 3 8) 2 = Ret (mkI 5 10) /\
  iv_add_v Debug (mkI INF (- INF)) 2 = Panic /\ iv_add_v Release (mkI INF (- INF)) 2 = Ret (mkI INF (- INF)).
Proof. repeat split. Qed.

(** ** Sequences *)
Lemma s_fwd_len s : same (fwd_len Debug s) (fwd_len Release s). Proof. by_same fwd_len. Qed.
Lemma s_bwd_len s : same (bwd_len Debug s) (bwd_len Release s). Proof. by_same bwd_len. Qed.
#[local] Hint Resolve s_fwd_len s_bwd_len : same.
Theorem C80_sequences : forall s t u n,
  release_agrees (fun p => fwd_len p s) /\ release_agrees (fun p => bwd_len p s) /\
  release_agrees (fun p => fwd_size_hint p s) /\ release_agrees (fun p => bwd_size_hint p s) /\
  release_agrees (fun p => fwd_count p s) /\ release_agrees (fun p => bwd_count p s) /\
  release_agrees (fun p => fwd_last p s) /\ release_agrees (fun p => bwd_last p s) /\
  release_agrees (fun p => fwd_nth p s n) /\ release_agrees (fun p => bwd_nth p s n) /\
  release_agrees (fun p => ts_floor p t u) /\ release_agrees (fun p => ts_ceil p t u) /\
  release_agrees (fun p => forward_periods p t u) /\ release_agrees (fun p => backward_periods p t u).
Proof.
  intros. unfold fwd_size_hint, bwd_size_hint, fwd_count, bwd_count, fwd_last, bwd_last, fwd_nth, bwd_nth,
    ts_floor, ts_ceil, forward_periods, backward_periods, ts_ceil. all_agree.
Qed.
Example C80_sequences_case : fwd_nth Debug (mkQ 10 5) 3 = Ret (mkQ 25 5, Some 25).
Proof. reflexivity. Qed.

(** ** Texts *)
Lemma s_concat k f u : same (concat_unit Debug k f u) (concat_unit Release k f u). Proof. by_same concat_unit. Qed.
#[local] Hint Resolve s_concat : same.
Lemma s_fd t : same (format_duration Debug t) (format_duration Release t). Proof. by_same format_duration. Qed.
#[local] Hint Resolve s_fd : same.
Lemma s_disp t : same (tv_display Debug t) (tv_display Release t). Proof. by_same tv_display. Qed.
#[local] Hint Resolve s_disp : same.
Lemma s_ts_disp dt t : same (ts_display Debug dt t) (ts_display Release dt t). Proof. by_same ts_display. Qed.
Lemma s_iv_text n f g i : (forall t, same (f t) (g t)) -> same (iv_text n f i) (iv_text n g i).
Proof. by_same iv_text; auto. Qed.
#[local] Hint Resolve s_ts_disp s_iv_text : same.
Lemma s_set_text n f g l : (forall t, same (f t) (g t)) -> same (set_text n f l) (set_text n g l).
Proof. by_same set_text. Qed.
#[local] Hint Resolve s_set_text : same.
Lemma s_k_disp i j s : same (k_display Debug i j s) (k_display Release i j s).
Proof. intros; unfold k_display, iv_display; same. Qed.
#[local] Hint Resolve s_k_disp : same.

(** ** Graphs *)
Lemma s_idx i j : same (g_idx Debug i j) (g_idx Release i j). Proof. by_same g_idx. Qed.
#[local] Hint Resolve s_idx : same.
Lemma s_lower g i j : same (g_lower Debug g i j) (g_lower Release g i j). Proof. by_same g_lower. Qed.
Lemma s_set g i j v : same (g_set Debug g i j v) (g_set Release g i j v). Proof. by_same g_set. Qed.
#[local] Hint Resolve s_lower s_set : same.
Lemma s_reset g : same (g_reset Debug g) (g_reset Release g). Proof. by_same g_reset. Qed.
Lemma s_resize g n : same (g_resize Debug g n) (g_resize Release g n). Proof. by_same g_resize. Qed.
Lemma s_constrained g n : same (g_constrained Debug g n) (g_constrained Release g n). Proof. by_same g_constrained. Qed.
#[local] Hint Resolve s_reset s_resize s_constrained : same.
Lemma s_find g n : same (find_last Debug g n) (find_last Release g n).
Proof. induction n as [|n IH]; simpl; same. Qed.
#[local] Hint Resolve s_find : same.
Lemma s_k g i j : same (k_of_graph Debug g i j) (k_of_graph Release g i j). Proof. by_same k_of_graph. Qed.
Lemma s_related g i j : same (g_related Debug g i j) (g_related Release g i j). Proof. by_same g_related. Qed.
#[local] Hint Resolve s_k s_related : same.
Lemma s_constraint g i j : same (g_constraint Debug g i j) (g_constraint Release g i j). Proof. by_same g_constraint. Qed.
#[local] Hint Resolve s_constraint : same.
Lemma s_cloop g f : forall i j, same (citer_loop Debug g f i j) (citer_loop Release g f i j).
Proof. induction f as [|f IH]; intros; simpl; same. Qed.
#[local] Hint Resolve s_cloop : same.
Lemma s_cnext g s : same (citer_next Debug g s) (citer_next Release g s). Proof. by_same citer_next. Qed.
Lemma s_hint g s : same (citer_hint Debug g s) (citer_hint Release g s). Proof. by_same citer_hint. Qed.
Lemma s_search g f i : forall j, same (fiter_search Debug g f i j) (fiter_search Release g f i j).
Proof. induction f as [|f IH]; intros; simpl; same. Qed.
#[local] Hint Resolve s_cnext s_hint s_search : same.
Lemma s_fnext g s : same (fiter_next Debug g s) (fiter_next Release g s). Proof. by_same fiter_next. Qed.
#[local] Hint Resolve s_fnext : same.
Lemma s_collect n m f : (forall s, same (n s) (m s)) -> forall s, same (collect_pairs n f s) (collect_pairs m f s).
Proof. intros H. induction f as [|f IH]; intros; simpl; same. Qed.
Lemma s_iter g : same (g_iter Debug g) (g_iter Release g).
Proof. unfold g_iter. apply s_collect. same. Qed.
Lemma s_from g i : same (g_constraints_from Debug g i) (g_constraints_from Release g i).
Proof. unfold g_constraints_from. apply s_collect. same. Qed.
#[local] Hint Resolve s_iter s_from : same.
Lemma s_raise g i j v : same (g_raise Debug g i j v) (g_raise Release g i j v). Proof. by_same g_raise. Qed.
#[local] Hint Resolve s_raise : same.
Lemma s_plb g i j : same (g_plb Debug g i j) (g_plb Release g i j). Proof. by_same g_plb. Qed.
#[local] Hint Resolve s_plb : same.
Lemma s_propagate g k : same (g_propagate Debug g k) (g_propagate Release g k). Proof. by_same g_propagate. Qed.
Lemma s_row g k i : same (g_gp_row Debug g k i) (g_gp_row Release g k i). Proof. by_same g_gp_row. Qed.
#[local] Hint Resolve s_propagate s_row : same.
Lemma s_rows k is : forall g, same (g_gp_rows Debug g k is) (g_gp_rows Release g k is).
Proof. induction is as [|i is IH]; intros; simpl; same. Qed.
#[local] Hint Resolve s_rows : same.
Lemma s_turns ks : forall g, same (g_gp_turns Debug g ks) (g_gp_turns Release g ks).
Proof. induction ks as [|i is IH]; intros; simpl; same. Qed.
#[local] Hint Resolve s_turns : same.
Lemma s_global g : same (g_global Debug g) (g_global Release g). Proof. by_same g_global. Qed.
#[local] Hint Resolve s_global : same.
Lemma s_insert g k : same (g_insert Debug g k) (g_insert Release g k). Proof. by_same g_insert. Qed.
#[local] Hint Resolve s_insert : same.
Lemma s_extend g h ks : same (g_extend Debug g h ks) (g_extend Release g h ks). Proof. by_same g_extend. Qed.
#[local] Hint Resolve s_extend : same.

Theorem C80_graphs : forall g h i j v n k s o ks,
  release_agrees (fun p => g_lower p g i j) /\ release_agrees (fun p => g_set p g i j v) /\
  release_agrees (fun p => g_reset p g) /\ release_agrees (fun p => g_resize p g n) /\
  release_agrees (fun p => g_with_size p n) /\ release_agrees (fun p => g_shrink_to_fit p g) /\
  release_agrees (fun p => g_shrink_to p g n) /\ release_agrees (fun p => g_timespan p g i j) /\
  release_agrees (fun p => g_instant_cmp p g i j) /\ release_agrees (fun p => k_of_graph p g i j) /\
  release_agrees (fun p => g_constraint p g i j) /\ release_agrees (fun p => g_are_distinct p g i j) /\
  release_agrees (fun p => citer_next p g s) /\ release_agrees (fun p => citer_hint p g s) /\
  release_agrees (fun p => fiter_next p g s) /\ release_agrees (fun p => fiter_hint p g s) /\
  release_agrees (fun p => g_iter p g) /\ release_agrees (fun p => g_constraints_from p g i) /\
  release_agrees (fun p => g_constraints_to p g i) /\
  release_agrees (fun p => g_propagate p g k) /\ release_agrees (fun p => g_merge p g h) /\
  release_agrees (fun p => g_extend p g o ks) /\ release_agrees (fun p => g_extend_expect p g o ks) /\
  release_agrees (fun p => g_from_iter p o ks).
Proof.
  intros. unfold g_with_size, g_shrink_to_fit, g_shrink_to, g_timespan, g_instant_cmp, g_are_distinct, fiter_hint,
    g_constraints_to, g_merge, g_from_iter, g_extend_expect. all_agree.
Qed.
(** The hypothesis is needed: with 65536 instants the length of the table wraps to zero
    in release (see C37). *)
Example C80_graphs_case :
  g_propagate Debug g_default (mkK 0 1 false 3 8) = Ret (mkG 2 [0; -8; 0; 3], Propagated) /\
  mul32 Debug 65536 65536 = Panic /\ mul32 Release 65536 65536 = Ret 0.
Proof. repeat split. Qed.

(** ** Schedulers *)
Lemma s_step g i l a : same (sc_step Debug g i l a) (sc_step Release g i l a). Proof. by_same sc_step. Qed.
#[local] Hint Resolve s_step : same.
Lemma s_spropagate g l i : same (sc_propagate Debug g l i) (sc_propagate Release g l i). Proof. by_same sc_propagate. Qed.
#[local] Hint Resolve s_spropagate : same.
Lemma s_retain s i w : same (sc_retain Debug s i w) (sc_retain Release s i w). Proof. by_same sc_retain. Qed.
#[local] Hint Resolve s_retain : same.
Lemma s_retain_all s w : same (sc_retain_all Debug s w) (sc_retain_all Release s w).
Proof. unfold sc_retain_all. apply same_fold. intros [s1 r] n. same. Qed.
#[local] Hint Resolve s_retain_all : same.

Theorem C80_schedulers : forall s i w h d,
  release_agrees (fun p => sc_retain p s i w) /\ release_agrees (fun p => sc_remove p s i h) /\
  release_agrees (fun p => sc_set_deadline p s d) /\ release_agrees (fun p => sc_set_startline p s d).
Proof. intros. unfold sc_remove, sc_set_deadline, sc_set_startline. all_agree. Qed.
Example C80_schedulers_case :
  sc_retain Debug (sc_new (mkG 2 [0; -8; 0; 3])) 0 (WCx (CIv (mkI 10 20))) =
  Ret (mkS (mkG 2 [0; -8; 0; 3]) [[mkI 10 20]; [mkI 13 28]], Propagated).
Proof. reflexivity. Qed.

(** [dt] is the text of a date (see [Format]). *)
Theorem C80_texts : forall t dt i j s g sc,
  release_agrees (fun p => tv_format p t) /\ release_agrees (fun p => tv_display p t) /\
  release_agrees (fun p => ts_display p dt t) /\ release_agrees (fun p => k_display p i j s) /\
  release_agrees (fun p => iv_display (tv_display p) s) /\
  release_agrees (fun p => iv_display (ts_display p dt) s) /\
  release_agrees (fun p => g_debug p g) /\ release_agrees (fun p => g_display p g) /\
  release_agrees (fun p => sc_display p dt sc).
Proof.
  intros. unfold tv_format, iv_display, g_debug, g_debug_row, g_display, sc_display, set_display. all_agree.
Qed.
Example C80_texts_case : tv_display Debug (3 * 2 ^ 30) = Ret "3s"%string.
Proof. vm_compute. reflexivity. Qed.
