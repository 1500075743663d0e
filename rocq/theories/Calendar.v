(** Model of the texts of dates: [Display for Timestamp] and [format_timepoint] of [src/wins/format.rs] with the
    part of chrono 0.4 they call.  The source of chrono is not in /repo: these definitions follow its documented
    behaviour (proleptic Gregorian calendar, UTC, no leap second). *)
From Coq Require Import String Ascii.
From Verif Require Import Machine TimeValue Format.

Local Open Scope string_scope.
Local Open Scope Z_scope.

(** Leap days in the years 0 to [y]-1 of a cycle of 400 years (chrono's table [YEAR_DELTAS]) *)
Definition leap_days (y : Z) : Z := (y + 3) / 4 - (y + 99) / 100 + (y + 399) / 400.
Definition is_leap (y : Z) : bool := (y mod 4 =? 0) && (negb (y mod 100 =? 0) || (y mod 400 =? 0)).
(** Year in the cycle and day of the year, from 0, of a day of a cycle (chrono's [cycle_to_yo]) *)
Definition year_day (c : Z) : Z * Z :=
  let y := c / 365 in
  let o := c mod 365 in
  if o <? leap_days y then (y - 1, o + 365 - leap_days (y - 1)) else (y, o - leap_days y).
(** Month and day of the month of a day of the year *)
Fixpoint month_day (lens : list Z) (m o : Z) : Z * Z :=
  match lens with
  | [] => (m, o + 1)
  | l :: r => if o <? l then (m, o + 1) else month_day r (m + 1) (o - l)
  end.
Definition month_lens (y : Z) : list Z :=
  [31; if is_leap y then 29 else 28; 31; 30; 31; 30; 31; 31; 30; 31; 30; 31].
(** timestamp.rs:94-100 (the call of [from_timestamp_opt]): the date (year, month, day) of a number of days since
    1970-01-01, which is 719528 days after 0000-01-01 *)
Definition civil (days : Z) : Z * Z * Z :=
  let n := days + 719528 in
  let '(y, o) := year_day (n mod 146097) in
  let '(m, d) := month_day (month_lens y) 1 o in
  (y + 400 * (n / 146097), m, d).

(** Rust's [{:0w}] of an integer from 0 to 10^w - 1 *)
Definition digit_char (d : Z) : ascii := ascii_of_nat (48 + Z.to_nat d).
Fixpoint pad (w : nat) (n : Z) : string :=
  match w with O => "" | S w => pad w (n / 10) ++ String (digit_char (n mod 10)) "" end.
(** The fraction of the seconds: none, 3, 6 or 9 digits *)
Definition frac_text (ns : Z) : string :=
  if ns =? 0 then ""
  else if ns mod 1000000 =? 0 then "." ++ pad 3 (ns / 1000000)
  else if ns mod 1000 =? 0 then "." ++ pad 6 (ns / 1000)
  else "." ++ pad 9 ns.
(** [Display] of [DateTime<Utc>], for the years 0 to 9999 *)
Definition dt_text (secs ns : Z) : string :=
  let '(y, m, d) := civil (secs / 86400) in
  let s := secs mod 86400 in
  pad 4 y ++ "-" ++ pad 2 m ++ "-" ++ pad 2 d ++ " " ++
  pad 2 (s / 3600) ++ ":" ++ pad 2 (s / 60 mod 60) ++ ":" ++ pad 2 (s mod 60) ++ frac_text ns ++ " UTC".
(** timestamp.rs:34 [to_datetime], then [Display] *)
Definition ts_date (p : profile) (t : Z) : outcome string :=
  x <- ts_to_datetime p t ;; Ret (dt_text (fst x) (snd x)).
(** format.rs:175-194 [Display for Timestamp] *)
Definition ts_show (p : profile) (t : Z) : outcome string := ts_display p (ts_date p) t.

(** format.rs:24-29, 81-83 [format_timepoint] of a timestamp, with a format made of literal characters and of
    the specifiers %Y %m %d %H %M %S %f %%.  Another specifier, or a format that ends by %, may be one of chrono's
    others; here it is an error, on which [to_string] panics. *)
Definition spec_text (c : ascii) (secs ns : Z) : outcome string :=
  let '(y, m, d) := civil (secs / 86400) in
  let s := secs mod 86400 in
  if (c =? "Y")%char then Ret (pad 4 y)
  else if (c =? "m")%char then Ret (pad 2 m)
  else if (c =? "d")%char then Ret (pad 2 d)
  else if (c =? "H")%char then Ret (pad 2 (s / 3600))
  else if (c =? "M")%char then Ret (pad 2 (s / 60 mod 60))
  else if (c =? "S")%char then Ret (pad 2 (s mod 60))
  else if (c =? "f")%char then Ret (pad 9 ns)
  else if (c =? "%")%char then Ret (String c "")
  else Panic.
(** [spec] says whether the previous character opens a specifier. *)
Fixpoint strftime (fmt : string) (spec : bool) (secs ns : Z) : outcome string :=
  match fmt with
  | EmptyString => if spec then Panic else Ret ""
  | String c r =>
    if spec then x <- spec_text c secs ns ;; z <- strftime r false secs ns ;; Ret (x ++ z)
    else if (c =? "%")%char then strftime r true secs ns
    else z <- strftime r false secs ns ;; Ret (String c z)
  end.
Definition ts_format (p : profile) (fmt : string) (t : Z) : outcome string :=
  x <- ts_to_datetime p t ;; strftime fmt false (fst x) (snd x).
