(** Model of the texts of graphs and schedulers: [src/graph/storage.rs] (Debug, Display) and
    [src/graph/scheduler.rs] (Debug, Display, format_timeset). *)
From Coq Require Import String Ascii.
From Verif Require Import Machine TimeValue Interval TimeSet Graph Scheduler Format.

Local Open Scope string_scope.
Local Open Scope Z_scope.

(** The end of a line, written by [writeln!] *)
Definition nl : string := String "010"%char "".
(** [{:>7}]: at least seven characters, spaces first *)
Fixpoint spaces (n : nat) : string := match n with O => "" | S m => String " "%char (spaces m) end.
Definition right7 (s : string) : string := spaces (7 - String.length s) ++ s.

(** storage.rs:150-157: one row of [Debug for TimeGraph] *)
Definition g_debug_row (p : profile) (g : graph) (i : Z) : outcome string :=
  s <- ofold (fun s j => x <- g_lower p g i j ;; Ret (s ++ " " ++ right7 (tv_debug x))) "[" (zrange 0 (g_size g)) ;;
  Ret (s ++ " ]" ++ nl).
(** storage.rs:145-160 [Debug for TimeGraph] *)
Definition g_debug (p : profile) (g : graph) : outcome string :=
  ofold (fun s i => r <- g_debug_row p g i ;; Ret (s ++ r)) nl (zrange 0 (g_size g)).

(** storage.rs:163-173 [Display for TimeGraph].  The constraints are listed first; the code lists them
    lazily.  [count] is an i32: it is at most 65535 * 65534 / 2 < 2^31 for the graphs of C37. *)
Definition g_display (p : profile) (g : graph) : outcome string :=
  l <- g_iter p g ;;
  s <- ofold (fun s a =>
         k <- k_of_graph p g (fst a) (snd a) ;;
         x <- k_display p (k_from k) (k_to k) (k_span k) ;;
         Ret (s ++ "   " ++ x ++ nl))
       ("[graph with " ++ dec (g_size g) ++ " instants]" ++ nl) l ;;
  Ret (s ++ "[with " ++ dec (Z.of_nat (length l)) ++ " constraints]" ++ nl).

(** [enumerate] *)
Fixpoint enumerate {A} (n : Z) (l : list A) : list (Z * A) :=
  match l with [] => [] | a :: r => (n, a) :: enumerate (n + 1) r end.
(** scheduler.rs:145-150 [Debug for TimeScheduler] *)
Definition sc_debug (s : sched) : string :=
  fold_left (fun x a => x ++ "t" ++ dec (fst a) ++ " in " ++ set_debug ts_debug (snd a) ++ nl) (enumerate 0 (sc_slots s)) "".
(** scheduler.rs:153-158 [Display for TimeScheduler]; [dt] is the text of a date (see [Format]) *)
Definition sc_display (p : profile) (dt : Z -> outcome string) (s : sched) : outcome string :=
  ofold (fun x a => y <- set_display (ts_display p dt) (snd a) ;; Ret (x ++ "t" ++ dec (fst a) ++ " in " ++ y ++ nl))
    "" (enumerate 0 (sc_slots s)).
(** scheduler.rs:160-169 [format_timeset]; [f] formats a date.  [map] is lazy: the texts are made
    one by one, in the order of the instants. *)
Definition sc_format (f : Z -> outcome string) (s : sched) : outcome string :=
  l <- omapM (fun a => y <- format_timeset f (snd a) ;; Ret ("t" ++ dec (fst a) ++ " in " ++ y ++ nl)) (enumerate 0 (sc_slots s)) ;;
  Ret (match l with [] => "empty time scheduler (no instant)" | x :: r => fold_left append r x end).
