(** C03, C07: calls out of the range of time values. *)
From Verif Require Import Machine TimeValue Spec Tac TimeValueProofs Prop_TimeValue.

(** A date-time whose nanoseconds do not fit 64 bits makes both profiles panic; the others give the
    timestamp rounded to zero, or +oo beyond the last one.  Nothing is said of the dates from
    [- 2^63] nanoseconds to 8589934591 seconds before the epoch (see C04_subsec_constructors_refuted). *)
Theorem C07_of_datetime_total : forall p s n, let x := s * 1000000000 + n in
  (x < - 2 ^ 63 \/ 2 ^ 63 <= x -> ts_of_datetime p s n = Panic) /\
  (- 8589934591 * 1000000000 <= x < 2 ^ 63 -> exists r, ts_of_datetime p s n = Ret r /\ valid r /\
    (x < 8589934592 * 1000000000 -> rounds_to_zero x 1000000000 r) /\
    (8589934592 * 1000000000 <= x -> r = oo)).
Proof.
  intros p s n x. unfold ts_of_datetime. fold x. clearbody x. split; intros H.
  - replace (in_i64 x) with false; auto. unfold in_i64, i64_min, i64_max. lia.
  - assert (I : in_i64 x = true) by (unfold in_i64, i64_min, i64_max; lia). rewrite I.
    apply (C04_subsec_constructors_partial p (from_nanos p) 1000000000 x); auto; [cbn; auto|lia].
Qed.
Example C07_of_datetime_case :
  (forall p, ts_of_datetime p 10000000000 0 = Panic) /\ (forall p, ts_of_datetime p (- 10000000000) 5 = Panic) /\
  (forall p, ts_of_datetime p 9000000000 0 = Ret oo) /\ (forall p, ts_of_datetime p 1 500000000 = Ret 1610612736).
Proof. repeat split; intros []; reflexivity. Qed.

(** The constructor of seconds can make a value which is no time value: its queries panic in debug
    builds, and in release builds it is neither infinite nor between the infinities. *)
Theorem C03_lowest_refuted : exists n t, from_secs n = t /\ t < - oo /\
  is_past_infinite_m Debug t = Panic /\ is_finite_m Debug t = Panic /\
  is_past_infinite_m Release t = Ret false /\ is_finite_m Release t = Ret true.
Proof. exists (- 8589934592), (- 2 ^ 63). repeat split; reflexivity. Qed.

Print Assumptions C07_of_datetime_total.
Print Assumptions C03_lowest_refuted.
