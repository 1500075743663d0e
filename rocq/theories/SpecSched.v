(** Specification vocabulary for the scheduler: a scheduler is observed through
    [scheduling] only. *)
From Verif Require Import Machine Spec Interval Iter TimeSet Relns SpecSets Graph SpecGraph Scheduler.

(** The sets got from canonical ones by intersections (they may have superfluous pieces
    without any point, see C24_and_refuted) *)
Inductive cut : tset -> Prop :=
| cut_canonical l : canonical l -> cut l
| cut_and a b l : cut a -> cut b -> set_and a b = Ret l -> cut l.

(** The dates of a window *)
Definition In_w (x : Z) (w : window) : Prop :=
  match w with WCx c => In_cx x c | WSet l => In_set x l end.
(** A window with valid bounds: empty ranges are allowed, a set reduced to an infinite point
    is not. *)
Definition window_ok (w : window) : Prop :=
  match w with
  | WCx c => valid_cx c /\ ((cx_lower c < oo /\ - oo < cx_upper c) \/ (cx_lower c = oo /\ cx_upper c = - oo))
  | WSet l => cut l
  end.
(** The removed dates *)
Definition In_h (x : Z) (h : hole) : Prop :=
  match h with HSet l => In_set x l | HIv i => In_iv x i | HPoint t => x = t end.
Definition hole_ok (h : hole) : Prop :=
  match h with HSet l => canonical l | HIv i => proper_iv i | HPoint t => valid t end.

(** The graph reports nonempty intervals only. *)
Definition proper (p : profile) (g : graph) : Prop :=
  forall i j, 0 <= i < g_size g -> 0 <= j < g_size g ->
    exists iv, g_timespan p g i j = Ret iv /\ wf_iv iv.

(** The date [x] is possible for the instant [i]. *)
Definition possible (s : sched) (i x : Z) : Prop :=
  exists l, sc_scheduling s i = Some l /\ In_set x l.
(** [t] is a schedule: it satisfies the graph and gives a possible date to each instant. *)
Definition schedule (p : profile) (s : sched) (t : Z -> Z) : Prop :=
  solution p (sc_graph s) t /\ forall i, 0 <= i < g_size (sc_graph s) -> possible s i (t i).

(** Every sequence of public calls, whatever they return *)
Inductive session (p : profile) (g : graph) : sched -> Prop :=
| s_new : session p g (sc_new g)
| s_retain s i w s' r : session p g s -> 0 <= i -> window_ok w ->
    sc_retain p s i w = Ret (s', r) -> session p g s'
| s_remove s i h s' r : session p g s -> 0 <= i -> hole_ok h ->
    sc_remove p s i h = Ret (s', r) -> session p g s'
| s_deadline s d s' r : session p g s -> finite d ->
    sc_set_deadline p s d = Ret (s', r) -> session p g s'
| s_startline s d s' r : session p g s -> finite d ->
    sc_set_startline p s d = Ret (s', r) -> session p g s'.

(** A window having a date, whose bounds are at most [W] or infinite *)
Definition narrow (W : Z) (c : convex) : Prop :=
  valid_cx c /\ (exists x, In_cx x c) /\ within W (cx_lower c) /\ within W (cx_upper c).
(** Every sequence of calls with such windows, and deadlines and startlines at most [W] *)
Inductive convex_session (p : profile) (g : graph) (W : Z) : sched -> Prop :=
| v_new : convex_session p g W (sc_new g)
| v_retain s i c s' r : convex_session p g W s -> 0 <= i -> narrow W c ->
    sc_retain p s i (WCx c) = Ret (s', r) -> convex_session p g W s'
| v_deadline s d s' r : convex_session p g W s -> Z.abs d <= W ->
    sc_set_deadline p s d = Ret (s', r) -> convex_session p g W s'
| v_startline s d s' r : convex_session p g W s -> Z.abs d <= W ->
    sc_set_startline p s d = Ret (s', r) -> convex_session p g W s'.
