(** Model of [src/relns/*.rs]: containment, overlap, equality and ordering. *)
From Verif Require Import Machine TimeValue Interval Iter TimeSet.

(** The right-hand sides: any [TimeWindow], that is a convex window or a set. *)
Inductive window := WCx (c : convex) | WSet (l : tset).

Definition w_lower (w : window) : Z :=
  match w with WCx c => cx_lower c | WSet l => set_lower l end.
Definition w_upper (w : window) : Z :=
  match w with WCx c => cx_upper c | WSet l => set_upper l end.
Definition w_is_convex (w : window) : bool :=
  match w with WCx _ => true | WSet l => set_is_convex l end.
Definition w_iter (w : window) : list interval :=
  match w with WCx c => cx_iter c | WSet l => l end.

(** relns/contain.rs:9-16: a convex window contains a window iff it contains its bounds *)
Definition cx_contains (c : convex) (w : window) : bool :=
  (cx_lower c <=? w_lower w) && (w_upper w <=? cx_upper c).
(** relns/contain.rs:19-30 *)
Definition set_contains_cx (l : tset) (c : convex) : bool :=
  match find (fun ts => cx_lower c <=? upper ts) l with
  | Some ts => cx_contains (CIv ts) (WCx c)
  | None => false
  end.
(** relns/contain.rs:32-38 *)
Definition set_contains (l m : tset) : bool :=
  forallb (fun tw => set_contains_cx l (CIv tw)) m.

(** relns/overlap.rs:12-19 *)
Definition cx_overlaps (c d : convex) : bool :=
  (cx_lower c <=? cx_upper d) && (cx_lower d <=? cx_upper c).
(** relns/overlap.rs:30-41 *)
Definition set_overlaps_cx (l : tset) (c : convex) : bool :=
  match find (fun ts => cx_lower c <=? upper ts) l with
  | Some ts => lower ts <=? cx_upper c
  | None => false
  end.
(** relns/overlap.rs:22-28 *)
Definition cx_overlaps_set (c : convex) (l : tset) : bool := set_overlaps_cx l c.
(** relns/overlap.rs:43-49 *)
Definition set_overlaps (l m : tset) : bool :=
  existsb (fun tw => set_overlaps_cx l (CIv tw)) m.

(** relns/ordering.rs:5-15 [PartialEq for TimeInterval] *)
Definition iv_eq (i : interval) (w : window) : bool :=
  w_is_convex w && (lower i =? w_lower w) && (upper i =? w_upper w).
(** [Iterator::eq] (std) with the item equality above *)
Fixpoint list_eq (l m : list interval) : bool :=
  match l, m with
  | [], [] => true
  | i :: r, j :: s => iv_eq i (WCx (CIv j)) && list_eq r s
  | _, _ => false
  end.
(** relns/ordering.rs:17-25 [PartialEq for TimeSet] *)
Definition set_eq (l : tset) (w : window) : bool := list_eq l (w_iter w).

(** relns/ordering.rs:27-71, the macro at [TimeInterval] and at [TimeSet]: bounds of
    [self], and its [eq] *)
Definition bd_lt (up : Z) (w : window) : bool := up <? w_lower w.
Definition bd_gt (lo : Z) (w : window) : bool := w_upper w <? lo.
Definition bd_partial_cmp (lo up : Z) (eq : bool) (w : window) : option comparison :=
  if bd_lt up w then Some Lt else if bd_gt lo w then Some Gt
  else if eq then Some Eq else None.

Definition iv_lt (i : interval) (w : window) : bool := bd_lt (upper i) w.
Definition iv_gt (i : interval) (w : window) : bool := bd_gt (lower i) w.
Definition iv_le (i : interval) (w : window) : bool := iv_lt i w || iv_eq i w.
Definition iv_ge (i : interval) (w : window) : bool := iv_gt i w || iv_eq i w.
Definition iv_partial_cmp (i : interval) (w : window) : option comparison :=
  bd_partial_cmp (lower i) (upper i) (iv_eq i w) w.

Definition set_lt (l : tset) (w : window) : bool := bd_lt (set_upper l) w.
Definition set_gt (l : tset) (w : window) : bool := bd_gt (set_lower l) w.
Definition set_le (l : tset) (w : window) : bool := set_lt l w || set_eq l w.
Definition set_ge (l : tset) (w : window) : bool := set_gt l w || set_eq l w.
Definition set_partial_cmp (l : tset) (w : window) : option comparison :=
  bd_partial_cmp (set_lower l) (set_upper l) (set_eq l w) w.
