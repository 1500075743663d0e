(** Model of the iterators that are declared [TimeConvexIterator] in [src/iter/mod.rs:55-140]: the standard adapters
    of an iterator over intervals.  As in [Iter], an iterator is the list of its items.  A closure ([FnMut]) has a
    state of any type.  The adapters themselves are those of [std]. *)
From Verif Require Import Machine Interval.

Section Closure.
  Variable st : Type.
  Variable f : st -> interval -> st * bool.
  (** iter/mod.rs:88-94 [Filter] *)
  Fixpoint it_filter (s : st) (l : list interval) : list interval :=
    match l with
    | [] => []
    | i :: r => let x := f s i in if snd x then i :: it_filter (fst x) r else it_filter (fst x) r
    end.
  (** iter/mod.rs:103-109 [SkipWhile] *)
  Fixpoint it_skip_while (s : st) (l : list interval) : list interval :=
    match l with
    | [] => []
    | i :: r => let x := f s i in if snd x then it_skip_while (fst x) r else l
    end.
  (** iter/mod.rs:111-117 [TakeWhile] *)
  Fixpoint it_take_while (s : st) (l : list interval) : list interval :=
    match l with
    | [] => []
    | i :: r => let x := f s i in if snd x then i :: it_take_while (fst x) r else []
    end.
End Closure.
(** iter/mod.rs:119-124 [Skip], 126-131 [Take] *)
Definition it_skip (n : Z) (l : list interval) : list interval := skipn (Z.to_nat n) l.
Definition it_take (n : Z) (l : list interval) : list interval := firstn (Z.to_nat n) l.
(** iter/mod.rs:81-86 [StepBy]: the first item, then one out of [n]; [step_by(0)] panics.  [w] items are skipped
    before the next one. *)
Fixpoint step_items (n w : nat) (l : list interval) : list interval :=
  match l with
  | [] => []
  | i :: r => match w with O => i :: step_items n (n - 1) r | Datatypes.S w' => step_items n w' r end
  end.
Definition it_step_by (n : Z) (l : list interval) : outcome (list interval) :=
  _ <- assert_ (negb (n =? 0)) ;; Ret (step_items (Z.to_nat n) 0 l).
(** iter/mod.rs:133-139 [Inspect], 96-101 [Peekable]: the same items *)
Definition it_same (l : list interval) : list interval := l.
