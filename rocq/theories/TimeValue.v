(** Model of [src/lib.rs] (constants), [src/wins/timevalue.rs] and the arithmetic
    of [src/wins/timestamp.rs].

    A [TimeValue] is its inner [i64], i.e. a [Z].  A [Timestamp] is a newtype around
    a [TimeValue] (timestamp.rs:10), represented by the same [Z].

    Functions whose only possible overflow is on the value [i64::MIN] (which is not
    a legal time value) are given twice: a pure version, and a [_m] machine version
    with the build profile; [TimeValueProofs.v] proves that they agree on all legal
    values.  The rest of the model uses the pure versions. *)
From Verif Require Import Machine.

(** lib.rs:48 [INFINITE_TIME_VALUE] *)
Definition INF : Z := i64_max.
(** lib.rs:50 [SUBSEC_BITLEN] *)
Definition SUBSEC_BITLEN : Z := 30.
(** lib.rs:56 [SUBSEC_BITMASK = !((!0) << SUBSEC_BITLEN)] *)
Definition SUBSEC_BITMASK : Z := Z.lnot (Z.shiftl (Z.lnot 0) SUBSEC_BITLEN).
(** lib.rs:59 [MAX_SEC = i64::MAX >> SUBSEC_BITLEN] *)
Definition MAX_SEC : Z := shr64 i64_max SUBSEC_BITLEN.

(** timevalue.rs:31-34 [from_ticks] *)
Definition from_ticks (t : Z) : Z := Z.max t (- INF).

(** timevalue.rs:55-62 [from_secs] *)
Definition from_secs (sec : Z) : Z :=
  if MAX_SEC <? sec then INF else shl64 sec SUBSEC_BITLEN.

(** timevalue.rs:64-74 [from_fract] *)
Definition from_fract (p : profile) (t unit_ : Z) : outcome Z :=
  sec <- div64 t unit_ ;;
  m <- mul64 p sec unit_ ;;
  frac <- sub64 p t m ;;
  if MAX_SEC <? sec then Ret INF
  else
    q <- div64 (shl64 frac SUBSEC_BITLEN) unit_ ;;
    add64 p (shl64 sec SUBSEC_BITLEN) q.

(** timevalue.rs:81-112 [from_years] .. [from_mins]: [saturating_mul] then [from_secs] *)
Definition from_years  (n : Z) : Z := from_secs (sat64 (n * (146097*24*3600/400))).
Definition from_months (n : Z) : Z := from_secs (sat64 (n * (146097*24*3600/400/12))).
Definition from_weeks  (n : Z) : Z := from_secs (sat64 (n * (3600*24*7))).
Definition from_days   (n : Z) : Z := from_secs (sat64 (n * (3600*24))).
Definition from_hours  (n : Z) : Z := from_secs (sat64 (n * 3600)).
Definition from_mins   (n : Z) : Z := from_secs (sat64 (n * 60)).

(** timevalue.rs:119-133 *)
Definition from_millis (p : profile) (n : Z) : outcome Z := from_fract p n 1000.
Definition from_micros (p : profile) (n : Z) : outcome Z := from_fract p n 1000000.
Definition from_nanos  (p : profile) (n : Z) : outcome Z := from_fract p n 1000000000.

(** timevalue.rs:136-142 [as_ticks], [as_secs] *)
Definition as_ticks (t : Z) : Z := t.
Definition as_secs (t : Z) : Z := shr64 t SUBSEC_BITLEN.

(** timevalue.rs:169-172 [subsec_nanos]: [u64] arithmetic, then [as i32] *)
Definition subsec_nanos (p : profile) (t : Z) : outcome Z :=
  m <- mulus p (Z.land t SUBSEC_BITMASK) 10000000000 ;;
  s <- addus p m 5000000000 ;;
  Ret (wrap32 (Z.shiftr s SUBSEC_BITLEN / 10)).

(** timevalue.rs:149-162 *)
Definition subsec_millis (p : profile) (t : Z) : outcome Z :=
  omap (fun n => Z.quot n 1000000) (subsec_nanos p t).
Definition subsec_micros (p : profile) (t : Z) : outcome Z :=
  omap (fun n => Z.quot n 1000) (subsec_nanos p t).

(** timevalue.rs:178-190 sign tests *)
Definition is_zero (t : Z) : bool := t =? 0.
Definition is_positive (t : Z) : bool := 0 <=? t.
Definition is_negative (t : Z) : bool := t <=? 0.
Definition is_strictly_positive (t : Z) : bool := 0 <? t.
Definition is_strictly_negative (t : Z) : bool := t <? 0.

(** timevalue.rs:193-202 [floor] *)
Definition tv_floor (p : profile) (t period : Z) : outcome Z :=
  if 0 <=? t then
    q <- div64 t period ;; mul64 p q period
  else
    t1 <- add64 p t 1 ;;
    q <- div64 t1 period ;;
    q1 <- sub64 p q 1 ;;
    mul64 p q1 period.

(** timevalue.rs:205-214 [ceil] *)
Definition tv_ceil (p : profile) (t period : Z) : outcome Z :=
  if 0 <? t then
    t1 <- sub64 p t 1 ;;
    q <- div64 t1 period ;;
    q1 <- add64 p q 1 ;;
    mul64 p q1 period
  else
    t1 <- sub64 p t 1 ;;
    q <- div64 t1 period ;;
    mul64 p q period.

(** timevalue.rs:222-248 [TimePoint] *)
Definition is_future_infinite (t : Z) : bool := t =? INF.
Definition is_past_infinite (t : Z) : bool := t =? - INF.
Definition is_finite (t : Z) : bool := negb (Z.abs t =? INF).
Definition just_after (t : Z) : Z := if is_finite t then t + 1 else t.
Definition just_before (t : Z) : Z := if is_finite t then t - 1 else t.

(** Same functions, machine version. *)
Definition is_past_infinite_m (p : profile) (t : Z) : outcome bool :=
  _ <- debug_assert p (negb (t =? i64_min)) ;; Ret (t =? - INF).
Definition is_finite_m (p : profile) (t : Z) : outcome bool :=
  a <- abs64 p t ;; Ret (negb (a =? INF)).
Definition just_after_m (p : profile) (t : Z) : outcome Z :=
  f <- is_finite_m p t ;; if f : bool then add64 p t 1 else Ret t.
Definition just_before_m (p : profile) (t : Z) : outcome Z :=
  f <- is_finite_m p t ;; if f : bool then sub64 p t 1 else Ret t.

(** timevalue.rs:296-304 [Neg] *)
Definition tv_neg (t : Z) : Z := - t.
Definition tv_neg_m (p : profile) (t : Z) : outcome Z := neg64 p t.

(** timevalue.rs:323-341 [Add] *)
Definition tv_add (a b : Z) : outcome Z :=
  if is_future_infinite a then
    if is_past_infinite b then Panic else Ret a
  else if is_past_infinite a then
    if is_future_infinite b then Panic else Ret a
  else if is_finite b then Ret (from_ticks (sat64 (a + b)))
  else Ret b.

(** Machine version of [Add]: every test may trip on [i64::MIN]. *)
Definition tv_add_m (p : profile) (a b : Z) : outcome Z :=
  if is_future_infinite a then
    bp <- is_past_infinite_m p b ;; if bp : bool then Panic else Ret a
  else
    ap <- is_past_infinite_m p a ;;
    if ap : bool then
      if is_future_infinite b then Panic else Ret a
    else
      bf <- is_finite_m p b ;;
      if bf : bool then Ret (from_ticks (sat64 (a + b))) else Ret b.

(** timevalue.rs:347-354 [Sub], [SubAssign] *)
Definition tv_sub (a b : Z) : outcome Z := tv_add a (tv_neg b).

(** timevalue.rs:356-360 [Sum]: [fold(TimeValue::default(), a+b)], default is 0 *)
Definition tv_sum (l : list Z) : outcome Z := ofold tv_add 0 l.

(** timevalue.rs:250-258 [From<TimeValue> for chrono::Duration].
    A [chrono::Duration] is represented by its number of nanoseconds. *)
Definition to_chrono (t : Z) : Z := wrap64 (Z.shiftr (t * 1000000000) SUBSEC_BITLEN).

(** timevalue.rs:260-270 [From<chrono::Duration>]; [num_nanoseconds] is [None]
    when the number of nanoseconds does not fit [i64] (chrono's contract). *)
Definition of_chrono (p : profile) (ns : Z) : outcome Z :=
  if in_i64 ns then from_nanos p ns else Ret INF.

(** timevalue.rs:272-279 [From<TimeValue> for time::Duration]: (seconds, nanoseconds) *)
Definition to_std (p : profile) (t : Z) : outcome (Z * Z) :=
  _ <- assert_ (0 <=? t) ;;
  n <- subsec_nanos p t ;;
  Ret (as_secs t, n).

(** timevalue.rs:281-293 [From<time::Duration>], [sec : u64], [0 <= ns < 10^9] *)
Definition i32_max : Z := 2147483647.
Definition of_std (p : profile) (sec ns : Z) : outcome Z :=
  if i32_max <? sec then Ret INF
  else
    q <- div64 (shl64 ns SUBSEC_BITLEN) 1000000000 ;;
    add64 p (shl64 sec SUBSEC_BITLEN) q.

(** timestamp.rs:121-159: [Timestamp] arithmetic, all delegated to [TimeValue]. *)
Definition ts_from_origin (t : Z) : Z := t.                     (* 23 *)
Definition ts_since_origin (t : Z) : Z := t.                    (* 50 *)
Definition ts_neg (t : Z) : Z := tv_neg t.                      (* 54-57 *)
Definition ts_sub_ts (a b : Z) : outcome Z := tv_sub a b.       (* 121-125, distance *)
Definition ts_add_tv (t d : Z) : outcome Z := tv_add t d.       (* 127-131, 139-143 *)
Definition ts_sub_tv (t d : Z) : outcome Z := tv_sub t d.       (* 133-137, 145-149 *)
Definition tv_add_ts (d t : Z) : outcome Z := ts_add_tv t d.    (* 151-154 *)
Definition tv_sub_ts (d t : Z) : outcome Z := ts_add_tv (ts_neg t) d. (* 156-159 *)
(** timestamp.rs:36-46 *)
Definition ts_floor (p : profile) (t period : Z) : outcome Z := tv_floor p t period.
Definition ts_ceil (p : profile) (t period : Z) : outcome Z := tv_ceil p t period.

(** timestamp.rs:94-117: conversion to and from chrono's date-times, represented by
    (seconds, nanoseconds) since the epoch, resp. by nanoseconds since the epoch.
    [from_timestamp_opt] is [Some] when the nanoseconds are below 2*10^9 and the
    seconds within chrono's range (years -262144..262143; [chrono_max_secs] is a
    conservative bound); [timestamp_nanos_opt] is [Some] iff it fits [i64]. *)
Definition chrono_max_secs : Z := 8000000000000.
Definition ts_to_datetime (p : profile) (t : Z) : outcome (Z * Z) :=
  n <- subsec_nanos p t ;;
  if (n <? 2000000000) && (0 <=? n) && (Z.abs (as_secs t) <=? chrono_max_secs)
  then Ret (as_secs t, n) else Panic.
Definition ts_of_datetime (p : profile) (secs nanos : Z) : outcome Z :=
  if in_i64 (secs * 1000000000 + nanos)
  then from_nanos p (secs * 1000000000 + nanos) else Panic.
