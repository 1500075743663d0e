(** The assertions of the tests of the repository, evaluated in the model.  They are no theorems about
    the code: they check that the model computes what the authors of the code observe. *)
From Verif Require Import Machine TimeValue Convert Interval Iter TimeSet Relns Format Graph Scheduler.
Require Import String.
Local Open Scope string_scope.

(** ops/mod.rs, [union]; [%M:%S] is given for the dates used *)
Definition secs (n : Z) : Z := from_secs n.
Definition min_sec (t : Z) : outcome string :=
  let two z := (if Z.ltb z 10 then "0" else "") ++ dec z in
  Ret (two (as_secs t / 60) ++ ":" ++ two (as_secs t mod 60)).
Example replay_union : forall p, set_display (tv_display p) (iv_or (iv_new (secs 1) (secs 4)) (CRangeIncl (secs 3) (secs 5))) = Ret "[1s,5s]" /\
  set_display (tv_display p) (pt_or (secs 7) (CRangeIncl (secs 1) (secs 3))) = Ret "[1s,3s]U{7s}" /\
  format_timeset min_sec (pt_or (secs 70) (CRangeIncl (secs 1) (secs 3))) = Ret "[00:01,00:03]U{01:10}".
Proof. intros []; vm_compute; auto. Qed.
(** ops/mod.rs, [union2] *)
Example replay_union2 : exists s, set_or (set_convex 82 178) (set_convex 179 279) = Ret s /\ set_eq s (WCx (CIv (iv_new 82 279))) = true.
Proof. eexists. split; vm_compute; reflexivity. Qed.
(** ops/mod.rs, [union3]: no panic *)
Example replay_union3 : (w <- set_or_cx set_empty (CIv (iv_new 1 5)) ;; set_or_cx w (CIv (iv_new 10 20))) = Ret [mkI 1 5; mkI 10 20].
Proof. vm_compute. reflexivity. Qed.
(** ops/mod.rs, [union4] *)
Example replay_union4 : exists s, set_or set_empty set_all = Ret s /\ set_eq s (WSet set_all) = true.
Proof. eexists. split; vm_compute; reflexivity. Qed.
(** relns/mod.rs, [contains] *)
Example replay_contains : exists i tw, iv_centered 10 5 = Ret (Some i) /\
  (u <- set_and (pt_not 1) (pt_not 5) ;; set_and u (iv_not i)) = Ret tw /\
  set_debug tv_debug tw = "]-oo,0]U[2,4]U[16,+oo[" /\
  set_contains_cx tw (CPoint 3) = true /\ set_contains_cx tw (CPoint 100) = true /\
  set_contains_cx tw (CPoint (- 15)) = true /\ set_contains_cx tw (CPoint 10) = false.
Proof. do 2 eexists. split; [vm_compute; reflexivity|]. split; [vm_compute; reflexivity|]. vm_compute. auto. Qed.
(** graph/storage.rs, [init]: nothing is refused, nothing panics, and [extend] answers [Propagated] *)
Definition graph_init (p : profile) : outcome (presult * presult * presult * presult * graph) :=
  g <- g_with_size p 3 ;; g <- g_resize p g 6 ;;
  a <- g_propagate p g (k_cx 0 1 (CRangeFrom 5)) ;; b <- g_propagate p (fst a) (k_cx 1 3 (CRangeFrom 7)) ;;
  c <- g_propagate p (fst b) (k_cx 2 4 (CRangeFrom 4)) ;;
  ks <- g_iter p (fst c) ;; ks <- omapM (fun x => k_of_graph p (fst c) (fst x) (snd x)) ks ;;
  h <- citer_hint p (fst c) citer_init ;; g2 <- g_with_size p 7 ;; d <- g_extend p g2 (snd h) ks ;; g3 <- g_shrink_to_fit p (fst d) ;;
  Ret (snd a, snd b, snd c, snd d, g3).
Example replay_init : forall p, exists g, graph_init p = Ret (Propagated, Propagated, Propagated, Propagated, g).
Proof. intros []; eexists; vm_compute; reflexivity. Qed.
(** graph/scheduler.rs, [propagation] *)
Definition scheduler_test (p : profile) : outcome (list presult) :=
  g <- g_with_size p 3 ;;
  a <- g_propagate p g (k_cx 0 1 (CRangeIncl (from_hours 0) (from_hours 5))) ;;
  b <- g_propagate p (fst a) (k_cx 1 2 (CRangeIncl (from_hours 7) (from_hours 10))) ;;
  c <- g_propagate p (fst b) (k_cx 0 2 (CRangeIncl (from_hours 10) (from_hours 25))) ;;
  d <- g_propagate p (fst c) (k_cx 0 2 (CRangeIncl (from_hours 0) (from_hours 15))) ;;
  e <- sc_set_startline p (sc_new (fst d)) 0 ;;
  f <- sc_set_deadline p (fst e) (from_days 2) ;;
  Ret [snd a; snd b; snd c; snd d; snd e; snd f].
Example replay_scheduler : forall p, scheduler_test p = Ret [Propagated; Propagated; Propagated; Unchanged; Propagated; Propagated].
Proof. intros []; vm_compute; reflexivity. Qed.
(** wins/timevalue.rs, [ceil] and [floor] *)
Example replay_ceil : forall p, tv_ceil p 13 5 = Ret 15 /\ tv_ceil p 13 13 = Ret 13 /\ tv_ceil p 0 13 = Ret 0 /\
  tv_ceil p (- 13) 5 = Ret (- 10) /\ tv_ceil p (- 15) 5 = Ret (- 15).
Proof. intros []; vm_compute; auto. Qed.
Example replay_floor : forall p, tv_floor p 13 5 = Ret 10 /\ tv_floor p 13 13 = Ret 13 /\ tv_floor p 13 14 = Ret 0 /\
  tv_floor p 0 13 = Ret 0 /\ tv_floor p (- 13) 5 = Ret (- 15) /\ tv_floor p (- 13) 13 = Ret (- 13).
Proof. intros []; vm_compute; auto 6. Qed.
(** wins/convert.rs, [convert] *)
Definition shown (p : profile) (x : outcome Z) : outcome string := t <- x ;; tv_display p t.
Definition long (p : profile) : outcome Z :=
  a <- tv_add (from_weeks 1) (from_hours 5) ;; b <- tv_add a (from_mins 7) ;; c <- tv_add b (from_secs 4) ;;
  m <- from_millis p 42 ;; tv_add c m.
Example replay_convert : forall p, from_hours 1 = from_secs 3600 /\ from_hours 24 = from_days 1 /\
  from_nanos p 1000000 = from_micros p 1000 /\ from_nanos p 1000000 = from_millis p 1 /\
  shown p (from_millis p 10) = Ret "10ms" /\ shown p (from_micros p 10) = Ret "10us" /\
  shown p (t <- long p ;; tv_days p t) = Ret "7d" /\ shown p (t <- long p ;; tv_hours p t) = Ret "7d 5h" /\
  shown p (t <- long p ;; tv_mins p t) = Ret "7d 5h 7min" /\ shown p (t <- long p ;; Ret (tv_secs t)) = Ret "7d 5h 7min 4s".
Proof. intros []; vm_compute; auto 10. Qed.
