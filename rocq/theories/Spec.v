(** Specification vocabulary.  It mentions only integers, intervals as pairs of
    bounds, and lists: none of the algorithms of the model. *)
From Verif Require Import Machine.

(** The infinite time value: [i64::MAX]. *)
Definition oo : Z := 9223372036854775807.

(** A legal time value (any [i64] but [i64::MIN]); a finite one. *)
Definition valid (t : Z) : Prop := - oo <= t <= oo.
Definition finite (t : Z) : Prop := - oo < t < oo.

(** Clamping a mathematical integer to the time values: exact if finite, else the
    infinity on the right side. *)
Definition clamp (z : Z) : Z := Z.max (- oo) (Z.min oo z).

(** One second is 2^30 ticks. *)
Definition ticks_per_sec : Z := 1073741824.

(** A bound moved by a finite amount: an infinite bound stays, a finite one moves and is
    clamped. *)
Definition shift (a d : Z) : Z :=
  if a =? oo then oo else if a =? - oo then - oo else clamp (a + d).

(** The integers a factor may be, by group of types: up to 64 bits signed (i8 ... i64, and
    u8 ... u32); i128 and isize; u64, u128 and usize. *)
Definition i64_factor (n : Z) : Prop := - 2 ^ 63 <= n < 2 ^ 63.
Definition i128_factor (n : Z) : Prop := - 2 ^ 127 <= n < 2 ^ 127.
Definition u128_factor (n : Z) : Prop := 0 <= n < 2 ^ 128.
