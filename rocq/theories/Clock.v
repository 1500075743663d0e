(** Model of [Timestamp::now] and [Timestamp::elapsed] (src/wins/timestamp.rs:25-31).  The system clock is an input: the
    number of nanoseconds since the epoch that [SystemTime::now()] reads, of any sign. *)
From Verif Require Import Machine TimeValue.

(** timestamp.rs:26-28: [duration_since(UNIX_EPOCH)] is an error, which [unwrap] turns into a panic, exactly if the clock
    is before the epoch (std); otherwise it is given in whole seconds and nanoseconds, then [From<time::Duration>] *)
Definition ts_now (p : profile) (clock : Z) : outcome Z :=
  if clock <? 0 then Panic else of_std p (clock / 1000000000) (clock mod 1000000000).
(** timestamp.rs:31: [Self::now() - *self] *)
Definition ts_elapsed (p : profile) (clock t : Z) : outcome Z :=
  n <- ts_now p clock ;; ts_sub_ts n t.
