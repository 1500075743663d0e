(** Model of [src/wins/timeinterval.rs], [src/ops/range.rs] and of the parts of
    [src/ops/{intersect,union,compl}.rs] that deal with single convex windows.

    [TimeInterval<T>] is generic in the time point [T] (TimeValue or Timestamp, both
    newtypes over [i64]): it is modelled once, over [Z]. *)
From Verif Require Import Machine TimeValue.

(** timeinterval.rs:19 *)
Record interval := mkI { lower : Z; upper : Z }.

(** timeinterval.rs:67-72 [empty]; also [Default], 22-25 *)
Definition iv_empty : interval := mkI INF (- INF).
(** timeinterval.rs:78-85 [singleton] *)
Definition iv_singleton (t : Z) : interval := if is_finite t then mkI t t else iv_empty.
(** timeinterval.rs:38-45 [new]; also [From<(T,T)>], 212-217 *)
Definition iv_new (lo up : Z) : interval :=
  match Z.compare lo up with
  | Lt => mkI lo up
  | Eq => iv_singleton lo
  | Gt => iv_empty
  end.
(** timeinterval.rs:91-98 [after] *)
Definition iv_after (t : Z) : interval :=
  if is_future_infinite t then iv_empty else mkI t INF.
(** timeinterval.rs:104-111 [before] *)
Definition iv_before (t : Z) : interval :=
  if is_past_infinite t then iv_empty else mkI (- INF) t.
(** timeinterval.rs:115-118 [all]; also [From<RangeFull>], range.rs:63-65 *)
Definition iv_all : interval := mkI (- INF) INF.

(** timeinterval.rs:27-32 [TimeSlot::duration] *)
Definition iv_duration (i : interval) : outcome Z :=
  if upper i <=? lower i then Ret 0 else ts_sub_ts (upper i) (lower i).

(** timeinterval.rs:125-137 [truncate_before]: new value, and whether it changed *)
Definition iv_truncate_before (i : interval) (lo : Z) : interval * bool :=
  if lo <=? lower i then (i, false)
  else if upper i <? lo then (iv_empty, true)
  else (mkI lo (upper i), true).
(** timeinterval.rs:140-152 [truncate_after] *)
Definition iv_truncate_after (i : interval) (up : Z) : interval * bool :=
  if upper i <=? up then (i, false)
  else if up <? lower i then (iv_empty, true)
  else (mkI (lower i) up, true).

(** timeinterval.rs:160-167 [centered]: both bounds are computed before the test
    ([then_some] is eager) *)
Definition iv_centered (origin delta : Z) : outcome (option interval) :=
  lo <- tv_sub origin delta ;;
  up <- tv_add origin delta ;;
  Ret (if is_positive delta then Some (mkI lo up) else None).
(** timeinterval.rs:170-176 [enlarge] *)
Definition iv_enlarge (i : interval) (delta : Z) : outcome (option interval) :=
  lo <- tv_sub (lower i) delta ;;
  up <- tv_add (upper i) delta ;;
  Ret (if lo <=? up then Some (mkI lo up) else None).

(** timeinterval.rs:181-191 [TimeBounds] *)
Definition iv_is_empty (i : interval) : bool := is_future_infinite (lower i).
Definition iv_is_singleton (i : interval) : bool := lower i =? upper i.
Definition iv_is_low_bounded (i : interval) : bool := negb (is_past_infinite (lower i)).
Definition iv_is_up_bounded (i : interval) : bool := negb (is_future_infinite (upper i)).
Definition iv_is_bounded (i : interval) : bool := iv_is_low_bounded i && iv_is_up_bounded i.

(** wins/mod.rs:75-83 and 117-130, for a convex window *)
Definition iv_convex_count (i : interval) : Z := if iv_is_empty i then 0 else 1.
Definition iv_is_all (i : interval) : bool :=
  negb (iv_is_low_bounded i) && negb (iv_is_up_bounded i).

(** timeinterval.rs:197-204 [Neg] *)
Definition iv_neg (i : interval) : interval := mkI (tv_neg (upper i)) (tv_neg (lower i)).

(** ** Convex windows

    The types implementing [TimeConvex]: a time point (timevalue.rs:307-319,
    timestamp.rs:69-81), an interval (timeinterval.rs:181-194) and the five range types
    (range.rs:7-60, 70, 92-96).  The private "exhausted" flag of [RangeInclusive] is not
    modelled (ranges are not iterated). *)
Inductive convex :=
| CPoint (t : Z)
| CIv (i : interval)
| CRange (a b : Z)          (* a..b *)
| CRangeFrom (a : Z)        (* a.. *)
| CRangeIncl (a b : Z)      (* a..=b *)
| CRangeTo (b : Z)          (* ..b *)
| CRangeToIncl (b : Z).     (* ..=b *)

Definition cx_is_empty (c : convex) : bool :=
  match c with
  | CPoint _ => false
  | CIv i => iv_is_empty i
  | CRange a b => negb (a <? b)
  | CRangeIncl a b => negb (a <=? b)
  | CRangeFrom _ | CRangeTo _ | CRangeToIncl _ => false
  end.

Definition cx_lower (c : convex) : Z :=
  match c with
  | CPoint t => t
  | CIv i => lower i
  | CRange a b => if negb (a <? b) then INF else a
  | CRangeIncl a b => if negb (a <=? b) then INF else a
  | CRangeFrom a => a
  | CRangeTo _ | CRangeToIncl _ => - INF
  end.

Definition cx_upper (c : convex) : Z :=
  match c with
  | CPoint t => t
  | CIv i => upper i
  | CRange a b => if negb (a <? b) then - INF else just_before b
  | CRangeIncl a b => if negb (a <=? b) then - INF else b
  | CRangeFrom _ => INF
  | CRangeTo b => just_before b
  | CRangeToIncl b => b
  end.

(** range.rs:11-13, 22-24, 33-35, 44-46, 55-57 *)
Definition cx_is_low_bounded (c : convex) : bool :=
  match c with
  | CPoint t => is_finite t
  | CIv i => iv_is_low_bounded i
  | CRange _ _ | CRangeIncl _ _ => negb (cx_is_empty c) && is_finite (cx_lower c)
  | CRangeFrom a => is_finite a
  | CRangeTo _ | CRangeToIncl _ => false
  end.
Definition cx_is_up_bounded (c : convex) : bool :=
  match c with
  | CPoint t => is_finite t
  | CIv i => iv_is_up_bounded i
  | CRange _ _ | CRangeIncl _ _ => negb (cx_is_empty c) && is_finite (cx_upper c)
  | CRangeFrom _ => false
  | CRangeTo _ | CRangeToIncl _ => is_finite (cx_upper c)
  end.

(** [is_singleton]: timevalue.rs:311 / timestamp.rs:73 for a point, timeinterval.rs:185
    for an interval, the default of wins/mod.rs:38-41 for a range *)
Definition cx_is_singleton (c : convex) : bool :=
  match c with
  | CPoint _ => true
  | CIv i => iv_is_singleton i
  | _ => negb (cx_is_empty c) && (cx_lower c =? cx_upper c)
  end.

(** [is_bounded]: range.rs:11, 22, 33, 44, 55; timevalue.rs:312, timestamp.rs:74; timeinterval.rs:186 *)
Definition cx_is_bounded (c : convex) : bool :=
  match c with
  | CPoint t => is_finite t
  | CIv i => iv_is_bounded i
  | CRange _ _ | CRangeIncl _ _ => negb (cx_is_empty c) && is_finite (cx_lower c) && is_finite (cx_upper c)
  | CRangeFrom _ | CRangeTo _ | CRangeToIncl _ => false
  end.
(** wins/mod.rs:76-78 [is_all], 123 [is_convex], 128-130 [convex_count], 99-101 [convex_envelope] *)
Definition cx_is_all (c : convex) : bool := negb (cx_is_low_bounded c) && negb (cx_is_up_bounded c).
Definition cx_convex_count (c : convex) : Z := if cx_is_empty c then 0 else 1.
Definition cx_envelope (c : convex) : interval := mkI (cx_lower c) (cx_upper c).

(** [Into<TimeInterval>]: identity for an interval, [singleton] for a point
    (timeinterval.rs:208-210), the two bounds for a range (range.rs:83-88). *)
Definition cx_into (c : convex) : interval :=
  match c with
  | CPoint t => iv_singleton t
  | CIv i => i
  | _ => mkI (cx_lower c) (cx_upper c)
  end.

(** iter/mod.rs:36-53 [IntoIterator for TimeInterval]: zero or one item *)
Definition iv_into_iter (i : interval) : list interval :=
  if iv_is_empty i then [] else [mkI (lower i) (upper i)].
(** wins/mod.rs:134-145 [TimeWindow::iter] of a convex window *)
Definition cx_iter (c : convex) : list interval :=
  if cx_is_empty c then [] else [mkI (cx_lower c) (cx_upper c)].

(** ** Operators on one interval and one convex window *)

(** ops/intersect.rs:43-56 [BitAnd<TW> for &TimeInterval] *)
Definition iv_and (i : interval) (c : convex) : interval :=
  let j := cx_into c in
  mkI (Z.max (lower i) (lower j)) (Z.min (upper i) (upper j)).
(** ops/intersect.rs:24-32 [BitAndAssign<TW> for TimeInterval] *)
Definition iv_and_assign (i : interval) (c : convex) : interval :=
  let lo := if lower i <? cx_lower c then cx_lower c else lower i in
  let up := if cx_upper c <? upper i then cx_upper c else upper i in
  mkI lo up.
(** ops/intersect.rs:8-20 [BitAnd<TW> for TimeValue / Timestamp] *)
Definition pt_and (t : Z) (c : convex) : interval := iv_and (iv_singleton t) c.

(** timeset.rs:156-169 [From<TW: TimeConvex> for TimeSet] *)
Definition set_of_convex (c : convex) : list interval :=
  if cx_is_empty c then [] else [mkI (cx_lower c) (cx_upper c)].

(** ops/union.rs:32-60 [BitOr<TW> for &TimeInterval] *)
Definition iv_or (i : interval) (c : convex) : list interval :=
  if iv_is_empty i then set_of_convex c
  else if cx_is_empty c then set_of_convex (CIv i)
  else if cx_upper c <? just_before (lower i) then [cx_into c; i]
  else if upper i <? just_before (cx_lower c) then [i; cx_into c]
  else [mkI (Z.min (lower i) (cx_lower c)) (Z.max (upper i) (cx_upper c))].
(** ops/union.rs:8-20 [BitOr<TW> for TimeValue / Timestamp] *)
Definition pt_or (t : Z) (c : convex) : list interval := iv_or (iv_singleton t) c.

(** ops/compl.rs:33-55 [Not for TimeInterval] *)
Definition iv_not (i : interval) : list interval :=
  if iv_is_empty i then [iv_all]
  else
    let cut1 := just_before (lower i) in
    let cut2 := just_after (upper i) in
    match is_past_infinite cut1, is_future_infinite cut2 with
    | true, true => []
    | true, false => [mkI cut2 INF]
    | false, true => [mkI (- INF) cut1]
    | false, false => [mkI (- INF) cut1; mkI cut2 INF]
    end.
(** ops/compl.rs:59-85 [Not for TimeValue / Timestamp] *)
Definition pt_not (t : Z) : list interval :=
  let first := iv_before (just_before t) in
  let second := iv_after (just_after t) in
  if iv_is_empty first then
    if iv_is_empty second then [] else [second]
  else
    if iv_is_empty second then [first] else [first; second].
