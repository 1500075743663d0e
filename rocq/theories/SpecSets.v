(** Specification vocabulary for windows: what points a window contains, and when a list
    of intervals is in canonical form.  Of the model it uses only the data types (the
    record [interval] and the syntax [convex] of the convex windows), none of its
    functions. *)
From Verif Require Import Machine Spec Interval.

(** The points of an interval, of a list of intervals, of a convex window.  Only finite
    time values are points: the infinities are bounds. *)
Definition In_iv (x : Z) (i : interval) : Prop := finite x /\ lower i <= x <= upper i.
Definition In_set (x : Z) (l : list interval) : Prop := exists i, In i l /\ In_iv x i.
Definition In_cx (x : Z) (c : convex) : Prop :=
  finite x /\
  match c with
  | CPoint t => x = t
  | CIv i => lower i <= x <= upper i
  | CRange a b => a <= x < b
  | CRangeFrom a => a <= x
  | CRangeIncl a b => a <= x <= b
  | CRangeTo b => x < b
  | CRangeToIncl b => x <= b
  end.

(** Legal bounds *)
Definition valid_iv (i : interval) : Prop := valid (lower i) /\ valid (upper i).
Definition valid_cx (c : convex) : Prop :=
  match c with
  | CPoint t => valid t
  | CIv i => valid_iv i
  | CRange a b | CRangeIncl a b => valid a /\ valid b
  | CRangeFrom a => valid a
  | CRangeTo b | CRangeToIncl b => valid b
  end.

(** A non-empty interval: ordered legal bounds, each infinite only outwards *)
Definition wf_iv (i : interval) : Prop :=
  - oo <= lower i /\ lower i <= upper i /\ upper i <= oo /\ lower i < oo /\ - oo < upper i.
(** The documented representation of the empty interval *)
Definition is_empty_repr (i : interval) : Prop := lower i = oo /\ upper i = - oo.

(** Canonical sets: non-empty intervals, in increasing order, with at least one missing
    tick between two successive ones *)
Fixpoint canonical (l : list interval) : Prop :=
  match l with
  | [] => True
  | i :: r =>
    wf_iv i /\ match r with [] => True | j :: _ => upper i + 1 < lower j end /\ canonical r
  end.

(** Infinite ends written as infinities (the finite value next to an infinity is not
    used as an outermost bound) *)
Definition strict_ends (l : list interval) : Prop :=
  Forall (fun i => lower i <> - oo + 1 /\ upper i <> oo - 1) l.

(** An interval as the constructors build them: non-empty, or the empty one. *)
Definition proper_iv (i : interval) : Prop := wf_iv i \/ is_empty_repr i.

(** The integers delimited by an interval, an infinite bound being no bound on its side:
    unlike [In_iv] it also speaks of the integers beyond the time values. *)
Definition In_ext (y : Z) (i : interval) : Prop :=
  (lower i = - oo \/ lower i <= y) /\ (upper i = oo \/ y <= upper i).
Definition In_sext (y : Z) (l : list interval) : Prop := exists i, In i l /\ In_ext y i.
