(** Model of [src/seq/mod.rs], [src/seq/forward.rs] and [src/seq/backward.rs]. *)
From Verif Require Import Machine TimeValue Scaling.

(** seq/mod.rs:7-17 [TimeSeqForward], [TimeSeqBackward]: the last emitted timestamp and the
    step *)
Record tseq := mkQ { q_t : Z; q_step : Z }.

(** [as usize] on an [i64]; [/] on [usize] *)
Definition as_usize (x : Z) : Z := x mod 2 ^ 64.
Definition divus (x y : Z) : outcome Z := if y =? 0 then Panic else Ret (x / y).

(** forward.rs:13-19 [new] *)
Definition fwd_new (t delta : Z) : outcome tseq :=
  _ <- assert_ (is_strictly_positive delta) ;;
  t1 <- ts_sub_tv t delta ;;
  _ <- assert_ (is_finite t1) ;;
  Ret (mkQ t1 delta).
(** backward.rs:13-19 [new]: the same subtraction *)
Definition bwd_new (t delta : Z) : outcome tseq :=
  _ <- assert_ (is_strictly_positive delta) ;;
  t1 <- ts_sub_tv t delta ;;
  _ <- assert_ (is_finite t1) ;;
  Ret (mkQ t1 delta).

(** forward.rs:7, backward.rs:8 [timestamp] *)
Definition q_timestamp (s : tseq) : Z := q_t s.
(** forward.rs:22-25, backward.rs:22-24 [reverse] *)
Definition fwd_reverse (s : tseq) : tseq := mkQ (q_t s) (q_step s).
Definition bwd_reverse (s : tseq) : tseq := mkQ (q_t s) (q_step s).
(** forward.rs:28, backward.rs:27 [increment]; forward.rs:31, backward.rs:30 [period] *)
Definition fwd_increment (s : tseq) : Z := tv_neg (q_step s).
Definition bwd_increment (s : tseq) : Z := tv_neg (q_step s).
Definition q_period (s : tseq) : Z := q_step s.

(** forward.rs:33-40 [len] *)
Definition fwd_len (p : profile) (s : tseq) : outcome Z :=
  if is_positive (q_t s) then
    d <- sub64 p i64_max (as_ticks (q_t s)) ;;
    divus (as_usize d) (as_usize (as_ticks (q_step s)))
  else
    m <- neg64 p (as_ticks (q_t s)) ;;
    q <- divus (as_usize m) (as_usize (as_ticks (q_step s))) ;;
    addus p (as_usize i64_max) q.
(** backward.rs:32-39 [len]; the last line reads [t + i64::MAX + (1 / step)] *)
Definition bwd_len (p : profile) (s : tseq) : outcome Z :=
  if is_strictly_negative (q_t s) then
    d <- sub64 p (as_ticks (q_t s)) i64_min ;;
    divus (as_usize d) (as_usize (as_ticks (q_step s)))
  else
    a <- addus p (as_usize (as_ticks (q_t s))) (as_usize i64_max) ;;
    q <- divus 1 (as_usize (as_ticks (q_step s))) ;;
    addus p a q.

(** forward.rs:51-55 [next] *)
Definition fwd_next (s : tseq) : outcome (tseq * option Z) :=
  t <- ts_add_tv (q_t s) (q_step s) ;;
  Ret (mkQ t (q_step s), if negb (is_future_infinite t) then Some t else None).
(** backward.rs:50-54 [next] *)
Definition bwd_next (s : tseq) : outcome (tseq * option Z) :=
  t <- ts_sub_tv (q_t s) (q_step s) ;;
  Ret (mkQ t (q_step s), if negb (is_past_infinite t) then Some t else None).

(** forward.rs:58-62, backward.rs:57-61 [size_hint]; forward.rs:65-67, backward.rs:64-66
    [count] *)
Definition fwd_size_hint (p : profile) (s : tseq) : outcome (Z * option Z) :=
  n <- fwd_len p s ;; Ret (n, Some n).
Definition bwd_size_hint (p : profile) (s : tseq) : outcome (Z * option Z) :=
  n <- bwd_len p s ;; Ret (n, Some n).
Definition fwd_count (p : profile) (s : tseq) : outcome Z := fwd_len p s.
Definition bwd_count (p : profile) (s : tseq) : outcome Z := bwd_len p s.

(** forward.rs:69-73, backward.rs:68-72 [last]: [then_some] evaluates its argument first;
    [n * step] is [step * n] (scaling.rs:383-389) *)
Definition fwd_last (p : profile) (s : tseq) : outcome (option Z) :=
  n <- fwd_len p s ;;
  x <- ts_add_tv (q_t s) (tv_mul UBig (q_step s) n) ;;
  Ret (if 0 <? n then Some x else None).
Definition bwd_last (p : profile) (s : tseq) : outcome (option Z) :=
  n <- bwd_len p s ;;
  x <- ts_sub_tv (q_t s) (tv_mul UBig (q_step s) n) ;;
  Ret (if 0 <? n then Some x else None).

(** forward.rs:76-85, backward.rs:75-84 [nth] *)
Definition fwd_nth (p : profile) (s : tseq) (n : Z) : outcome (tseq * option Z) :=
  l <- fwd_len p s ;;
  if l <? n then Ret (mkQ INF (q_step s), None)
  else
    t <- ts_add_tv (q_t s) (tv_mul UBig (q_step s) n) ;;
    Ret (mkQ t (q_step s), Some t).
Definition bwd_nth (p : profile) (s : tseq) (n : Z) : outcome (tseq * option Z) :=
  l <- bwd_len p s ;;
  if l <? n then Ret (mkQ (tv_neg INF) (q_step s), None)
  else
    t <- ts_sub_tv (q_t s) (tv_mul UBig (q_step s) n) ;;
    Ret (mkQ t (q_step s), Some t).

(** seq/mod.rs:30-46: the public constructors *)
Definition forward_sequence (t period : Z) : outcome tseq := fwd_new t period.
Definition forward_periods (p : profile) (t period : Z) : outcome tseq :=
  c <- ts_ceil p t period ;; fwd_new c period.
Definition backward_sequence (t period : Z) : outcome tseq := bwd_new t period.
Definition backward_periods (p : profile) (t period : Z) : outcome tseq :=
  c <- ts_ceil p t period ;; bwd_new c period.
