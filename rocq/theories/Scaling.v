(** Model of the integer part of [src/ops/scaling.rs] and of [src/iter/scaling.rs].
    The float factors (groups [timevalscalingfloat!], [timespanscalingfloat!],
    [timespansscalefloat!]) are modelled in [Float]. *)
From Verif Require Import Machine TimeValue Interval Iter TimeSet.

(** The three groups of integer factor types:
    - [Small]: i8, u8, i16, u16, i32, u32, i64 (scaling.rs:6-29);
    - [Big]: i128, isize (scaling.rs:31-61);
    - [UBig]: u64, u128, usize (scaling.rs:63-91).
    A factor is an integer; its type bounds it, see the [*_factor] predicates in [Spec]. *)
Inductive group := Small | Big | UBig.

(** scaling.rs:11-13, 37-45, 69-75 *)
Definition tv_mul (g : group) (t n : Z) : Z :=
  match g with
  | Small => from_ticks (sat64 (t * n))
  | Big => if INF <? n then INF else if n <? - INF then tv_neg INF
           else from_ticks (sat64 (t * n))
  | UBig => if INF <? n then INF else from_ticks (sat64 (t * n))
  end.
(** scaling.rs:17-19, 49-55, 79-85 *)
Definition tv_div (g : group) (t n : Z) : outcome Z :=
  match g with
  | Small => q <- sat_div64 t n ;; Ret (from_ticks q)
  | Big => if (INF <? n) || (n <? - INF) then Ret 0
           else q <- sat_div64 t n ;; Ret (from_ticks q)
  | UBig => if INF <? n then Ret 0 else q <- sat_div64 t n ;; Ret (from_ticks q)
  end.

(** scaling.rs:154-169 [TimeSpan * n] *)
Definition span_mul (g : group) (i : interval) (n : Z) : outcome interval :=
  let lo := if n <? 0 then tv_mul g (upper i) n else tv_mul g (lower i) n in
  let up := if n <? 0 then tv_mul g (lower i) n else tv_mul g (upper i) n in
  _ <- assert_ (negb (is_future_infinite lo)) ;;
  _ <- assert_ (negb (is_past_infinite up)) ;;
  Ret (mkI lo up).
(** scaling.rs:170-183 [TimeSpan / n] *)
Definition span_div (g : group) (i : interval) (n : Z) : outcome interval :=
  if n <? 0 then
    lo <- tv_div g (upper i) n ;; up <- tv_div g (lower i) n ;; Ret (mkI lo up)
  else
    lo <- tv_div g (lower i) n ;; up <- tv_div g (upper i) n ;; Ret (mkI lo up).

(** scaling.rs:257-278 [TimeSpans * n] *)
Definition spans_mul (g : group) (l : tset) (n : Z) : outcome tset :=
  if n =? 0 then Ret (if set_is_empty l then [] else [iv_empty])
  else
    xs <- omapM (fun tw => span_mul g tw n) l ;;
    let inners := filter (fun tw => negb (iv_is_empty tw)) xs in
    Ret (if n <? 0 then rev inners else inners).
(** scaling.rs:287-301 [TimeSpans *= n] *)
Definition spans_mul_assign (g : group) (l : tset) (n : Z) : outcome tset :=
  if n =? 0 then Ret (if set_is_empty l then [] else [iv_empty])
  else
    xs <- omapM (fun tw => span_mul g tw n) l ;;
    Ret (if n <? 0 then rev xs else xs).

(** scaling.rs:362-375 [check_joined_inners]: [previous] is the element at [i-1] *)
Fixpoint joined (previous : interval) (l : list interval) : list interval :=
  match l with
  | [] => [previous]
  | current :: r =>
    if just_before (lower current) <=? upper previous
    then joined (mkI (lower previous) (upper current)) r
    else previous :: joined current r
  end.
Definition check_joined_inners (l : list interval) : list interval :=
  match l with [] => [] | i :: r => joined i r end.

(** scaling.rs:302-309 [TimeSpans /= n]; 279-286 [TimeSpans / n] *)
Definition spans_div (g : group) (l : tset) (n : Z) : outcome tset :=
  _ <- assert_ (negb (n =? 0)) ;;
  xs <- omapM (fun tw => span_div g tw n) l ;;
  Ret (check_joined_inners (if n <? 0 then rev xs else xs)).

(** iter/scaling.rs:30-40: the scaling iterator, collected until its first [None] *)
Fixpoint scale_list (g : group) (l : list interval) (n : Z) : outcome (list interval) :=
  match l with
  | [] => Ret []
  | i :: r =>
    x <- span_mul g i n ;;
    if iv_is_empty x then Ret []
    else xs <- scale_list g r n ;; Ret (x :: xs)
  end.
