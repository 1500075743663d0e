(** Model of [src/wins/convert.rs]: the [IntoTimeValue] trait. *)
From Verif Require Import Machine TimeValue.

(** convert.rs:71-87 [convert_safely!]: clamping of each integer type to [i64].
    The types i8..i64, u8..u32, isize are embedded unchanged; u64, usize and u128 are
    clamped above, i128 on both sides. *)
Definition clamp_signed_small (x : Z) : Z := x.
Definition clamp_unsigned_big (x : Z) : Z := if i64_max <? x then i64_max else x.
Definition clamp_i128 (x : Z) : Z :=
  if i64_max <? x then i64_max else if x <? i64_min then i64_min else x.

(** convert.rs:18-50 [impl IntoTimeValue for TimeValue]: truncation to a unit, where
    [u] is the duration of one unit. *)
Definition trunc_unit (p : profile) (t u : Z) : outcome Z :=
  if is_strictly_negative t then tv_ceil p t u else tv_floor p t u.

Definition tv_years  p t := trunc_unit p t (from_years 1).
(** convert.rs:23-25: the body of [months] uses [1.years()] *)
Definition tv_months p t := trunc_unit p t (from_years 1).
Definition tv_weeks  p t := trunc_unit p t (from_weeks 1).
Definition tv_days   p t := trunc_unit p t (from_days 1).
Definition tv_hours  p t := trunc_unit p t (from_hours 1).
Definition tv_mins   p t := trunc_unit p t (from_mins 1).
(** convert.rs:38 [secs]: [self.0 &= !SUBSEC_BITMASK] *)
Definition tv_secs (t : Z) : Z := Z.land t (Z.lnot SUBSEC_BITMASK).
Definition tv_millis p t := u <- from_millis p 1 ;; trunc_unit p t u.
Definition tv_micros p t := u <- from_micros p 1 ;; trunc_unit p t u.
Definition tv_nanos  p t := u <- from_nanos p 1 ;; trunc_unit p t u.
