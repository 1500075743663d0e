(** Model of the float part of [src/ops/scaling.rs].

    The language defines the operations on [f32] and [f64]: IEEE 754 binary32 and binary64, rounded to
    nearest, ties to even; [as] from an integer rounds in the same way; [as] to an integer truncates,
    saturates, and maps NaN to 0.
    All the finite numbers of a format are multiples of its least positive number, so that a
    finite number is given here by its sign and the number [u >= 0] of such units.
    Simplification: the bits of NaN are not modelled, nothing here depends on them. *)
From Verif Require Import Machine TimeValue Interval Iter TimeSet Scaling.

(** Digits of the significand; the unit is [2 ^ (- f_e)]; the numbers are below [2 ^ f_max]. *)
Record fmt := mkF { f_prec : Z; f_e : Z; f_max : Z }.
Definition f32 : fmt := mkF 24 149 128.
Definition f64 : fmt := mkF 53 1074 1024.

Inductive fl := FNan | FInf (neg : bool) | FFin (neg : bool) (u : Z).

(** The integer nearest to [a / d], the even one in case of a tie *)
Definition rne (a d : Z) : Z :=
  let q := a / d in
  let r := a mod d in
  if 2 * r <? d then q else if d <? 2 * r then q + 1 else if Z.even q then q else q + 1.
(** [a / b] units, rounded to [f_prec] digits, without any limit on the exponent *)
Definition rnd (F : fmt) (a b : Z) : Z :=
  let k := Z.max 0 (Z.log2 (a / b) + 1 - f_prec F) in
  rne a (b * 2 ^ k) * 2 ^ k.
Definition mkfl (F : fmt) (neg : bool) (a b : Z) : fl :=
  let r := rnd F a b in
  if 2 ^ (f_max F + f_e F) <=? r then FInf neg else FFin neg r.

(** [x * y] *)
Definition fmul (F : fmt) (x y : fl) : fl :=
  match x, y with
  | FNan, _ | _, FNan => FNan
  | FInf s, FInf s' => FInf (xorb s s')
  | FInf s, FFin s' u | FFin s' u, FInf s => if u =? 0 then FNan else FInf (xorb s s')
  | FFin s u, FFin s' v => mkfl F (xorb s s') (u * v) (2 ^ f_e F)
  end.
(** [1. / x] *)
Definition finv (F : fmt) (x : fl) : fl :=
  match x with
  | FNan => FNan
  | FInf s => FFin s 0
  | FFin s u => if u =? 0 then FInf s else mkfl F s (2 ^ (2 * f_e F)) u
  end.
(** [x < y] *)
Definition sg (neg : bool) (u : Z) : Z := if neg then - u else u.
Definition f_lt (x y : fl) : bool :=
  match x, y with
  | FNan, _ | _, FNan => false
  | FInf s, FInf s' => s && negb s'
  | FInf s, FFin _ _ => s
  | FFin _ _, FInf s => negb s
  | FFin s u, FFin s' v => sg s u <? sg s' v
  end.
(** [x.abs()] *)
Definition f_abs (x : fl) : fl :=
  match x with FNan => FNan | FInf _ => FInf false | FFin _ u => FFin false u end.
(** [z as f32], [z as f64] *)
Definition f_of (F : fmt) (z : Z) : fl := mkfl F (z <? 0) (Z.abs z * 2 ^ f_e F) 1.
(** [x as i64] *)
Definition f_to_i64 (F : fmt) (x : fl) : Z :=
  match x with
  | FNan => 0
  | FInf s => if s then i64_min else i64_max
  | FFin s u => sat64 (sg s (u / 2 ^ f_e F))
  end.
(** the literals [0.] and [1.] *)
Definition f_zero : fl := FFin false 0.
Definition f_one (F : fmt) : fl := FFin false (2 ^ f_e F).

(** scaling.rs:96-111 [TimeValue * f] *)
Definition tv_mul_f (F : fmt) (t : Z) (n : fl) : Z :=
  let x := fmul F (f_of F t) n in
  if f_lt (f_of F INF) x then INF
  else if f_lt x (f_of F (- INF)) then tv_neg INF
  else from_ticks (f_to_i64 F x).
(** scaling.rs:112-118 [TimeValue / f] *)
Definition tv_div_f (F : fmt) (t : Z) (n : fl) : Z := tv_mul_f F t (finv F n).

(** scaling.rs:201-216 [TimeSpan * f] *)
Definition checked_span (lo up : Z) : outcome interval :=
  _ <- assert_ (negb (is_future_infinite lo)) ;;
  _ <- assert_ (negb (is_past_infinite up)) ;;
  Ret (mkI lo up).
Definition span_mul_f (F : fmt) (i : interval) (f : fl) : outcome interval :=
  if f_lt f f_zero then checked_span (tv_mul_f F (upper i) f) (tv_mul_f F (lower i) f)
  else checked_span (tv_mul_f F (lower i) f) (tv_mul_f F (upper i) f).
(** scaling.rs:217-231 [TimeSpan / f] *)
Definition span_div_f (F : fmt) (i : interval) (f : fl) : outcome interval :=
  if f_lt f f_zero then checked_span (tv_div_f F (upper i) f) (tv_div_f F (lower i) f)
  else checked_span (tv_div_f F (lower i) f) (tv_div_f F (upper i) f).

(** scaling.rs:329-340 [TimeSpans * f] *)
Definition spans_mul_f (F : fmt) (l : tset) (f : fl) : outcome tset :=
  xs <- omapM (fun tw => span_mul_f F tw f) l ;;
  let inners := if f_lt f f_zero then rev xs else xs in
  Ret (if f_lt (f_one F) (f_abs f) then check_joined_inners inners else inners).
(** scaling.rs:341-344 [TimeSpans / f] *)
Definition spans_div_f (F : fmt) (l : tset) (f : fl) : outcome tset := spans_mul_f F l (finv F f).
(** scaling.rs:345-352 [TimeSpans *= f] *)
Definition spans_mul_assign_f (F : fmt) (l : tset) (f : fl) : outcome tset :=
  xs <- omapM (fun tw => span_mul_f F tw f) l ;;
  let inners := if f_lt f f_zero then rev xs else xs in
  Ret (if f_lt (f_abs f) (f_one F) then check_joined_inners inners else inners).
(** scaling.rs:353-355 [TimeSpans /= f] *)
Definition spans_div_assign_f (F : fmt) (l : tset) (f : fl) : outcome tset := spans_mul_assign_f F l (finv F f).
