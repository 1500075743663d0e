(** Model of [src/wins/format.rs].

    Texts are Coq strings.  The text of a date-time, which is made by the chrono crate, is a
    parameter [dt] of the functions that need it; it may panic. *)
From Coq Require Import String DecimalString.
From Coq Require Import DecimalZ.
From Verif Require Import Machine TimeValue Interval TimeSet.

(** Rust's [{}] and [{:?}] of an integer: decimal notation, [-] before the negative ones *)
Definition dec (n : Z) : string := NilZero.string_of_int (Z.to_int n).

Local Open Scope string_scope.
Local Open Scope Z_scope.

(** format.rs:37-45 [concat_unit]: appends the count of a unit, if not null, and its name;
    the count is a quotient, taken away from the remaining ticks *)
Definition concat_unit (p : profile) (ticks : Z * string) (convert : Z -> Z) (unit_ : string) : outcome (Z * string) :=
  x <- div64 (fst ticks) (as_ticks (convert 1)) ;;
  if x =? 0 then Ret ticks
  else r <- sub64 p (fst ticks) (as_ticks (convert x)) ;;
       Ret (r, snd ticks ++ dec x ++ unit_ ++ " ").
(** [String::pop]: the string without its last character, [None] if there was none *)
Fixpoint pop (s : string) : option string :=
  match s with
  | EmptyString => None
  | String c r => match pop r with None => Some EmptyString | Some r' => Some (String c r') end
  end.
(** format.rs:31-79 [format_duration]; [nanos] is an [i32], always in range (C06) *)
Definition format_duration (p : profile) (t : Z) : outcome string :=
  _ <- assert_ (0 <=? t) ;;
  nanos <- subsec_nanos p (from_ticks t) ;;
  fn <- from_nanos p nanos ;;
  _ <- sub64 p t (as_ticks fn) ;;
  if t =? 0 then Ret "0"
  else
    k <- concat_unit p (t, "") from_years "y" ;;
    k <- concat_unit p k from_months "mo" ;;
    k <- concat_unit p k from_days "d" ;;
    k <- concat_unit p k from_hours "h" ;;
    k <- concat_unit p k from_mins "min" ;;
    k <- concat_unit p k from_secs "s" ;;
    let str := snd k in
    let '(str, nanos) := if 1000000 <? nanos then (str ++ dec (Z.quot nanos 1000000) ++ "ms ", Z.rem nanos 1000000) else (str, nanos) in
    let '(str, nanos) := if 1000 <? nanos then (str ++ dec (Z.quot nanos 1000) ++ "us ", Z.rem nanos 1000) else (str, nanos) in
    let str := if 0 <? nanos then str ++ dec nanos ++ "ns " else str in
    Ret (match pop str with None => "0" | Some s => s end).

(** format.rs:13-22 [format_timepoint] of a [TimeValue] *)
Definition tv_format (p : profile) (t : Z) : outcome string :=
  if is_positive t then format_duration p (as_ticks t)
  else n <- neg64 p (as_ticks t) ;; s <- format_duration p n ;; Ret ("- " ++ s).
(** format.rs:146-165 [Display for TimeValue] *)
Definition tv_display (p : profile) (t : Z) : outcome string :=
  if 0 <=? t then
    if is_future_infinite t then Ret "+oo" else format_duration p (as_ticks t)
  else
    if is_past_infinite t then Ret "-oo"
    else n <- neg64 p (as_ticks t) ;; s <- format_duration p n ;; Ret ("- " ++ s).
(** format.rs:124-143 [Debug for TimeValue] *)
Definition tv_debug (t : Z) : string :=
  if 0 <=? t then if is_future_infinite t then "+oo" else dec t
  else if is_past_infinite t then "-oo" else dec t.
(** format.rs:167-173 [Debug for Timestamp] *)
Definition ts_debug (t : Z) : string := "t=" ++ tv_debug t.
(** format.rs:175-194 [Display for Timestamp] *)
Definition ts_display (p : profile) (dt : Z -> outcome string) (t : Z) : outcome string :=
  if is_positive t then
    if is_future_infinite t then Ret "+oo" else dt t
  else
    if is_past_infinite t then Ret "-oo"
    else s <- tv_display p (tv_neg t) ;; Ret (s ++ " before 1970-01-01 00:00:00 UTC").

(** format.rs:197-220 [Debug for TimeInterval]: [f] is the text of a time point *)
Definition iv_debug (f : Z -> string) (i : interval) : string :=
  if iv_is_low_bounded i then
    if iv_is_up_bounded i then
      if lower i =? upper i then "{" ++ f (lower i) ++ "}"
      else "[" ++ f (lower i) ++ "," ++ f (upper i) ++ "]"
    else "[" ++ f (lower i) ++ ",+oo["
  else
    if iv_is_up_bounded i then "]-oo," ++ f (upper i) ++ "]"
    else "]-oo,+oo[".
(** format.rs:223-245 [Display for TimeInterval] and 85-105 [format_timeslot]: [none] is the
    text of the empty interval (["{}"] for the first, ["{{}}"] for the second one) *)
Definition iv_text (none : string) (f : Z -> outcome string) (i : interval) : outcome string :=
  if iv_is_empty i then Ret none
  else if iv_is_singleton i then s <- f (lower i) ;; Ret ("{" ++ s ++ "}")
  else if iv_is_low_bounded i then
    if iv_is_up_bounded i then
      a <- f (lower i) ;; b <- f (upper i) ;; Ret ("[" ++ a ++ "," ++ b ++ "]")
    else a <- f (lower i) ;; Ret ("[" ++ a ++ ",+oo[")
  else if iv_is_up_bounded i then b <- f (upper i) ;; Ret ("]-oo," ++ b ++ "]")
  else Ret "]-oo,+oo[".
Definition iv_display := iv_text "{}".
Definition format_timeslot := iv_text "{{}}".

(** format.rs:249-261 [Debug for TimeSet] *)
Definition set_debug (f : Z -> string) (l : tset) : string :=
  match l with
  | [] => "{}"
  | i :: r => fold_left (fun s j => s ++ "U" ++ iv_debug f j) r (iv_debug f i)
  end.
(** format.rs:263-275 [Display for TimeSet] and 107-120 [format_timeset] of a set *)
Definition set_text (none : string) (f : Z -> outcome string) (l : tset) : outcome string :=
  match l with
  | [] => Ret none
  | i :: r => s <- iv_text none f i ;; ofold (fun s j => x <- iv_text none f j ;; Ret (s ++ "U" ++ x)) s r
  end.
Definition set_display := set_text "{}".
Definition format_timeset := set_text "{{}}".
(** format.rs:107-120 [format_timeset] of an interval: its iterator is empty if the interval
    is (wins/mod.rs:134-146) *)
Definition format_timeset_iv (f : Z -> outcome string) (i : interval) : outcome string :=
  if iv_is_empty i then Ret "{{}}" else format_timeslot f i.

(** graph/constraints.rs:98-110, 113-125: [Debug] and [Display] of a constraint *)
Definition k_debug (from_ to_ : Z) (i : interval) : string :=
  "(" ++ dec from_ ++ "->" ++ dec to_ ++ ")=" ++ iv_debug tv_debug i.
Definition k_display (p : profile) (from_ to_ : Z) (i : interval) : outcome string :=
  s <- iv_display (tv_display p) i ;; Ret ("t" ++ dec to_ ++ " - t" ++ dec from_ ++ " in " ++ s).
