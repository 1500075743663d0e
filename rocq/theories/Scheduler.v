(** Model of [src/graph/scheduler.rs]: the scheduler.

    A scheduler borrows a graph, which cannot change meanwhile (scheduler.rs:20-23). *)
From Verif Require Import Machine TimeValue Interval Iter TimeSet Relns Transl Graph.

(** scheduler.rs:20-23: the graph, and the slots of each instant *)
Record sched := mkS { sc_graph : graph; sc_slots : list tset }.

(** scheduler.rs:27-33 [new] *)
Definition sc_new (g : graph) : sched := mkS g (repeat set_all (Z.to_nat (g_size g))).
(** scheduler.rs:39 [scheduling] *)
Definition sc_scheduling (s : sched) (i : Z) : option tset := nth_error (sc_slots s) (Z.to_nat i).
(** scheduler.rs:45-47 [latest_beginning]: [min().unwrap()] *)
Definition sc_latest_beginning (s : sched) : outcome Z :=
  match map set_upper (sc_slots s) with
  | [] => Panic
  | x :: r => Ret (fold_left Z.min r x)
  end.
(** scheduler.rs:50-52 [earliest_ending]: [max().unwrap()] *)
Definition sc_earliest_ending (s : sched) : outcome Z :=
  match map set_lower (sc_slots s) with
  | [] => Panic
  | x :: r => Ret (fold_left Z.max r x)
  end.

(** [get_unchecked(i)] and [get_unchecked_mut(i)] on the slots (scheduler.rs:105-109,
    134-136): out of bounds is undefined behaviour *)
Definition slot_get (l : list tset) (i : Z) : outcome tset :=
  match nth_error l (Z.to_nat i) with Some s => Ret s | None => Ub end.
Definition slot_set (l : list tset) (i : Z) (s : tset) : outcome (list tset) :=
  match nth_error l (Z.to_nat i) with
  | Some _ => Ret (firstn (Z.to_nat i) l ++ s :: skipn (S (Z.to_nat i)) l)
  | None => Ub
  end.

(** The operations of a window used by [retain] (scheduler.rs:97-101): containment
    (relns/contain.rs:9-16, 32-38), overlap (relns/overlap.rs:22-28, 43-49) and [&=]
    (ops/intersect.rs:60-84) *)
Definition w_contains (w : window) (s : tset) : bool :=
  match w with WCx c => cx_contains c (WSet s) | WSet l => set_contains l s end.
Definition w_overlaps (w : window) (s : tset) : bool :=
  match w with WCx c => cx_overlaps_set c s | WSet l => set_overlaps l s end.
Definition slot_and (s : tset) (w : window) : outcome tset :=
  match w with WCx c => Ret (set_and_assign s c) | WSet l => set_and s l end.

(** scheduler.rs:132-140: the body of the loop, for the constraint (i,j) *)
Definition sc_step (p : profile) (g : graph) (i : Z) (l : list tset) (a : Z * Z)
  : outcome (list tset) :=
  k <- k_of_graph p g (fst a) (snd a) ;;
  sj <- slot_get l (snd a) ;;
  si <- slot_get l i ;;
  tr <- set_add_span p si (k_span k) ;;
  u <- inter_list sj tr ;;
  r <- from_iter u ;;
  slot_set l (snd a) r.
(** scheduler.rs:126-142 [propagate_scheduling].  The constraints are listed first; the
    code lists them lazily, but the graph does not change. *)
Definition sc_propagate (p : profile) (g : graph) (l : list tset) (i : Z) : outcome (list tset) :=
  _ <- debug_assert p (i <=? Z.of_nat (length l)) ;;
  ks <- g_constraints_from p g i ;;
  ofold (sc_step p g i) l ks.

(** scheduler.rs:97-115 [retain] *)
Definition sc_retain (p : profile) (s : sched) (i : Z) (w : window) : outcome (sched * presult) :=
  _ <- assert_ (i <? Z.of_nat (length (sc_slots s))) ;;
  si <- slot_get (sc_slots s) i ;;
  if w_contains w si then Ret (s, Unchanged)
  else if negb (w_overlaps w si) then Ret (s, Recovered)
  else
    ri <- slot_and si w ;;
    l1 <- slot_set (sc_slots s) i ri ;;
    l2 <- sc_propagate p (sc_graph s) l1 i ;;
    Ret (mkS (sc_graph s) l2, Propagated).

(** scheduler.rs:117-124 [remove]: the windows having a complement (ops/compl.rs) *)
Inductive hole := HSet (l : tset) | HIv (i : interval) | HPoint (t : Z).
Definition h_not (h : hole) : tset :=
  match h with HSet l => set_not l | HIv i => iv_not i | HPoint t => pt_not t end.
Definition sc_remove (p : profile) (s : sched) (i : Z) (h : hole) : outcome (sched * presult) :=
  sc_retain p s i (WSet (h_not h)).

(** scheduler.rs:63-69, 82-88: [retain(i, w).unwrap()] on each instant *)
Definition sc_retain_all (p : profile) (s : sched) (w : window) : outcome (sched * presult) :=
  ofold (fun '(s, res) n =>
    r <- sc_retain p s (Z.of_nat n) w ;;
    let '(s1, x) := r in
    match x with
    | Unchanged => Ret (s1, res)
    | Propagated => Ret (s1, Propagated)
    | Recovered | Fatal => Panic
    end) (s, Unchanged) (seq 0 (length (sc_slots s))).
(** scheduler.rs:56-71 [set_deadline] *)
Definition sc_set_deadline (p : profile) (s : sched) (d : Z) : outcome (sched * presult) :=
  if existsb (fun tw => d <? set_lower tw) (sc_slots s) then Ret (s, Recovered)
  else sc_retain_all p s (WCx (CRangeToIncl d)).
(** scheduler.rs:75-90 [set_startline] *)
Definition sc_set_startline (p : profile) (s : sched) (d : Z) : outcome (sched * presult) :=
  if existsb (fun tw => set_upper tw <? d) (sc_slots s) then Ret (s, Recovered)
  else sc_retain_all p s (WCx (CRangeFrom d)).
