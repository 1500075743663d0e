(** Model of [src/wins/timeset.rs] and of the operators of
    [src/ops/{intersect,union,compl}.rs] on sets.

    [TimeSet<T>] is a [Vec<TimeInterval<T>>]: a list of intervals. *)
From Verif Require Import Machine TimeValue Interval Iter.

Definition tset := list interval.

(** timeset.rs:29 [all] *)
Definition set_all : tset := [iv_all].
(** timeset.rs:35-39 [convex] *)
Definition set_convex (lo up : Z) : tset :=
  let tw := iv_new lo up in if iv_is_empty tw then [] else [tw].
(** timeset.rs:45-47 [singleton] *)
Definition set_singleton (t : Z) : tset := [iv_singleton t].
(** timeset.rs:51 [empty] *)
Definition set_empty : tset := [].

(** timeset.rs:59-99 [TimeBounds] *)
Definition set_is_empty (l : tset) : bool := match l with [] => true | _ => false end.
Definition set_is_singleton (l : tset) : bool :=
  match l with [i] => iv_is_singleton i | _ => false end.
Fixpoint last_opt {A} (l : list A) : option A :=
  match l with [] => None | [x] => Some x | _ :: r => last_opt r end.
Definition set_is_low_bounded (l : tset) : bool :=
  match l with [] => false | i :: _ => iv_is_low_bounded i end.
Definition set_is_up_bounded (l : tset) : bool :=
  match last_opt l with None => false | Some i => iv_is_up_bounded i end.
Definition set_is_bounded (l : tset) : bool := set_is_low_bounded l && set_is_up_bounded l.
Definition set_lower (l : tset) : Z := match l with [] => INF | i :: _ => lower i end.
Definition set_upper (l : tset) : Z :=
  match last_opt l with None => - INF | Some i => upper i end.
(** timeset.rs:105 [convex_count]; wins/mod.rs:76-83, 99-101 *)
Definition set_convex_count (l : tset) : Z := Z.of_nat (length l).
Definition set_is_convex (l : tset) : bool := set_convex_count l <=? 1.
Definition set_is_all (l : tset) : bool :=
  set_is_convex l && negb (set_is_low_bounded l) && negb (set_is_up_bounded l).
Definition set_envelope (l : tset) : interval := mkI (set_lower l) (set_upper l).

(** timeset.rs:114-121 [Neg] *)
Definition set_neg (l : tset) : tset := map iv_neg (rev l).

(** timeset.rs:123-142 [FromIterator<TimeInterval>].  It calls [r |= i] (union.rs:64-71,
    132-141), which itself collects an iterator: the recursion is bounded by [depth], and
    running out of it is [NoFuel] (proved unreachable for non-empty intervals). *)
Fixpoint from_iter_d (depth : nat) (l : list interval) : outcome tset :=
  match depth with
  | O => NoFuel
  | Datatypes.S d =>
    match l with
    | [] => Ret []
    | first :: rest =>
      ofold (fun r i =>
               if just_after (set_upper r) <? lower i then Ret (r ++ [i])
               else u <- union_list r (iv_into_iter i) ;; from_iter_d d u)
            (set_of_convex (CIv first)) rest
    end
  end.
Definition from_iter (l : list interval) : outcome tset :=
  from_iter_d (Datatypes.S (Datatypes.S (length l))) l.

(** ops/union.rs:110-130 [TimeSet | TimeSet] (and 74-88 [|=], 90-100) *)
Definition set_or (a b : tset) : outcome tset := u <- union_list a b ;; from_iter u.
(** ops/union.rs:132-141 [TimeSet | TimeConvex] (and 64-71 [|=], 102-107) *)
Definition set_or_cx (a : tset) (c : convex) : outcome tset :=
  u <- union_list a (iv_into_iter (cx_into c)) ;; from_iter u.
(** ops/intersect.rs:108-126 [TimeSet & TimeSet] (and 69-98) *)
Definition set_and (a b : tset) : outcome tset := u <- inter_list a b ;; from_iter u.
(** ops/intersect.rs:129-138 [TimeSet & TimeConvex] (and 100-105) *)
Definition set_and_cx (a : tset) (c : convex) : outcome tset :=
  u <- inter_list a (iv_into_iter (cx_into c)) ;; from_iter u.

(** timeset.rs:145-153 [FromIterator<TimeSet>]: [reduce] with [|] *)
Definition set_from_sets (ls : list tset) : outcome tset :=
  match ls with [] => Ret [] | s :: r => ofold set_or s r end.

(** ops/compl.rs:16-24, inside [Not for TimeSet]: the gaps, then the tail *)
Fixpoint not_gaps (previous : Z) (l : list interval) : list interval :=
  match l with
  | [] => if is_future_infinite previous then [] else [mkI previous INF]
  | tw :: r => mkI previous (just_before (lower tw)) :: not_gaps (just_after (upper tw)) r
  end.
(** ops/compl.rs:5-30 [Not for TimeSet] *)
Definition set_not (l : tset) : tset :=
  match l with
  | [] => set_all
  | first :: r =>
    (if is_past_infinite (just_before (lower first)) then []
     else [mkI (- INF) (just_before (lower first))])
    ++ not_gaps (just_after (upper first)) r
  end.

(** [Iterator::position] / [rposition] (std) *)
Fixpoint position {A} (p : A -> bool) (l : list A) : option nat :=
  match l with
  | [] => None
  | x :: r => if p x then Some O else option_map Datatypes.S (position p r)
  end.
Fixpoint rposition {A} (p : A -> bool) (l : list A) : option nat :=
  match l with
  | [] => None
  | x :: r =>
    match rposition p r with
    | Some n => Some (Datatypes.S n)
    | None => if p x then Some O else None
    end
  end.

(** apply an in-place update to the element at [pos] *)
Fixpoint update_at {A} (pos : nat) (f : A -> A) (l : list A) : list A :=
  match pos, l with
  | _, [] => []
  | O, x :: r => f x :: r
  | Datatypes.S n, x :: r => x :: update_at n f r
  end.

(** timeset.rs:175-192 [truncate_before] *)
Definition set_truncate_before (l : tset) (lo : Z) : tset * bool :=
  match position (fun i => lo <=? upper i) l with
  | Some O =>
    match l with
    | [] => (l, false)
    | i :: r => let '(i', b) := iv_truncate_before i lo in (i' :: r, b)
    end
  | Some pos => (update_at 0 (fun i => fst (iv_truncate_before i lo)) (skipn pos l), true)
  | None => match l with [] => (l, false) | _ => ([], true) end
  end.

(** timeset.rs:195-212 [truncate_after] *)
Definition set_truncate_after (l : tset) (up : Z) : tset * bool :=
  match rposition (fun i => lower i <=? up) l with
  | Some pos =>
    if Nat.eqb (pos + 1) (length l) then
      (update_at pos (fun i => fst (iv_truncate_after i up)) l,
       match nth_error l pos with
       | Some i => snd (iv_truncate_after i up)
       | None => false
       end)
    else
      (update_at pos (fun i => fst (iv_truncate_after i up)) (firstn (pos + 1) l), true)
  | None => match l with [] => (l, false) | _ => ([], true) end
  end.

(** ops/intersect.rs:60-67 [TimeSet &= TimeConvex] *)
Definition set_and_assign (l : tset) (c : convex) : tset :=
  fst (set_truncate_before (fst (set_truncate_after l (cx_upper c))) (cx_lower c)).
