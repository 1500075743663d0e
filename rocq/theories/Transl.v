(** Model of [src/ops/transl.rs] and [src/iter/transl.rs]: translations.

    A [Timestamp] is a [TimeValue] since the origin and its arithmetic is the one of
    [TimeValue] (timestamp.rs:121-159), so the generic [T] is modelled once. *)
From Verif Require Import Machine TimeValue Interval Iter TimeSet.

(** The common end of the operators: [TimeInterval::new] then
    [debug_assert!(!tw.is_empty())] (e.g. transl.rs:12-14) *)
Definition iv_checked (p : profile) (lo up : Z) : outcome interval :=
  let tw := iv_new lo up in
  _ <- debug_assert p (negb (iv_is_empty tw)) ;; Ret tw.

(** transl.rs:7-16 [TimeInterval + TimeValue]; 51-56 [TimeValue + TimeInterval] *)
Definition iv_add_v (p : profile) (i : interval) (v : Z) : outcome interval :=
  lo <- tv_add (lower i) v ;; up <- tv_add (upper i) v ;; iv_checked p lo up.
(** transl.rs:18-27 [TimeInterval - TimeValue]; 151-159 [TimeSlot - Timestamp] *)
Definition iv_sub_v (p : profile) (i : interval) (v : Z) : outcome interval :=
  lo <- tv_sub (lower i) v ;; up <- tv_sub (upper i) v ;; iv_checked p lo up.
(** transl.rs:58-63 [TimeValue - TimeInterval] *)
Definition v_sub_iv (p : profile) (v : Z) (i : interval) : outcome interval :=
  iv_add_v p (iv_neg i) v.
(** transl.rs:65-74 [TimeInterval + TimeSpan] *)
Definition iv_add_span (p : profile) (i j : interval) : outcome interval :=
  lo <- tv_add (lower i) (lower j) ;; up <- tv_add (upper i) (upper j) ;; iv_checked p lo up.
(** transl.rs:76-85 [TimeInterval - TimeSpan]; 141-149 [TimeSlot - TimeSlot] *)
Definition iv_sub_span (p : profile) (i j : interval) : outcome interval :=
  lo <- tv_sub (lower i) (upper j) ;; up <- tv_sub (upper i) (lower j) ;; iv_checked p lo up.
(** transl.rs:109-117 [Timestamp + TimeSpan]; 129-133 [TimeSpan + Timestamp] *)
Definition ts_add_span (p : profile) (t : Z) (j : interval) : outcome interval :=
  lo <- ts_add_tv t (lower j) ;; up <- ts_add_tv t (upper j) ;; iv_checked p lo up.
(** transl.rs:119-127 [Timestamp - TimeSpan]; 161-169 [Timestamp - TimeSlot] *)
Definition ts_sub_span (p : profile) (t : Z) (j : interval) : outcome interval :=
  lo <- ts_sub_tv t (upper j) ;; up <- ts_sub_tv t (lower j) ;; iv_checked p lo up.
(** transl.rs:135-139 [TimeSpan - Timestamp] *)
Definition span_sub_ts (p : profile) (j : interval) (t : Z) : outcome interval :=
  ts_add_span p (ts_neg t) j.

(** The assertion of the assigning operators (transl.rs:36, 47, 94, 105) *)
Definition iv_asserted (lo up : Z) : outcome interval :=
  _ <- assert_ (negb (lo =? up) || negb (is_finite lo)) ;; Ret (mkI lo up).
(** transl.rs:29-38 [TimeInterval += TimeValue] *)
Definition iv_add_assign_v (i : interval) (v : Z) : outcome interval :=
  lo <- tv_add (lower i) v ;; up <- tv_add (upper i) v ;; iv_asserted lo up.
(** transl.rs:40-49 [TimeInterval -= TimeValue] *)
Definition iv_sub_assign_v (i : interval) (v : Z) : outcome interval :=
  lo <- tv_sub (lower i) v ;; up <- tv_sub (upper i) v ;; iv_asserted lo up.
(** transl.rs:87-96 [TimeInterval += TimeSpan] *)
Definition iv_add_assign_span (i j : interval) : outcome interval :=
  lo <- tv_add (lower i) (lower j) ;; up <- tv_add (upper i) (upper j) ;; iv_asserted lo up.
(** transl.rs:98-107 [TimeInterval -= TimeSpan] *)
Definition iv_sub_assign_span (i j : interval) : outcome interval :=
  lo <- tv_sub (lower i) (upper j) ;; up <- tv_sub (upper i) (lower j) ;; iv_asserted lo up.

(** ** Sets *)

(** transl.rs:173-183 [TimeSet + TimeValue] *)
Definition set_add_v (p : profile) (l : tset) (v : Z) : outcome tset :=
  omapM (fun tw => iv_add_v p tw v) l.
(** transl.rs:185-195 [TimeSet - TimeValue] *)
Definition set_sub_v (p : profile) (l : tset) (v : Z) : outcome tset :=
  omapM (fun tw => iv_sub_v p tw v) l.
(** transl.rs:197-206 [TimeSet += TimeValue] *)
Definition set_add_assign_v (l : tset) (v : Z) : outcome tset :=
  omapM (fun tw => iv_add_assign_v tw v) l.
(** transl.rs:208-217 [TimeSet -= TimeValue] *)
Definition set_sub_assign_v (l : tset) (v : Z) : outcome tset :=
  omapM (fun tw => iv_sub_assign_v tw v) l.
(** transl.rs:219-228 [TimeSpans + Timestamp]; 241-246 [Timestamp + TimeSpans] *)
Definition spans_add_ts (p : profile) (l : tset) (t : Z) : outcome tset :=
  omapM (fun tw => ts_add_span p t tw) l.
(** transl.rs:230-239 [TimeSpans - Timestamp] *)
Definition spans_sub_ts (p : profile) (l : tset) (t : Z) : outcome tset :=
  omapM (fun tw => span_sub_ts p tw t) l.
(** transl.rs:248-258 [Timestamp - TimeSpans] *)
Definition ts_sub_spans (p : profile) (t : Z) (l : tset) : outcome tset :=
  omapM (fun tw => ts_sub_span p t tw) (rev l).
(** transl.rs:260-271 [TimeSet + TimeSpan]; 287-296 [+=]; iter/transl.rs:51-61 *)
Definition set_add_span (p : profile) (l : tset) (j : interval) : outcome tset :=
  ofold (fun r i => x <- iv_add_span p i j ;; set_or_cx r (CIv x)) [] l.
(** transl.rs:273-285 [TimeSet - TimeSpan]; 298-307 [-=] *)
Definition set_sub_span (p : profile) (l : tset) (j : interval) : outcome tset :=
  ofold (fun r i => x <- iv_sub_span p i j ;; set_or_cx r (CIv x)) [] l.
(** transl.rs:309-324 [TimeSet + TimeSpans]; 343-352 [+=].  The sums are computed before
    they are collected; the code interleaves both, which only matters for which panic
    comes first. *)
Definition set_add_spans (p : profile) (l m : tset) : outcome tset :=
  s <- omapM (fun '(a, b) => iv_add_span p a b) (list_prod l m) ;; from_iter s.
(** transl.rs:326-341 [TimeSet - TimeSpans]; 354-363 [-=] *)
Definition set_sub_spans (p : profile) (l m : tset) : outcome tset :=
  s <- omapM (fun '(a, b) => iv_sub_span p a b) (list_prod l m) ;; from_iter s.

(** iter/transl.rs:30-40: the translating iterator, collected until its first [None] *)
Fixpoint transl_list (p : profile) (l : list interval) (v : Z) : outcome (list interval) :=
  match l with
  | [] => Ret []
  | i :: r =>
    x <- iv_add_v p i v ;;
    if iv_is_empty x then Ret []
    else xs <- transl_list p r v ;; Ret (x :: xs)
  end.
