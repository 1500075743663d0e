(** The propagation of [Graph.v], counting the additions of time values: one for each turn of the
    innermost loops of propagation.rs:119-174.  [Prop_Cost.v] proves that forgetting the count gives
    back the functions of [Graph.v]. *)
From Verif Require Import Machine TimeValue Interval Graph.

Definition counted (A : Type) : Type := outcome (A * Z).
(** an operation without addition *)
Definition free {A} (m : outcome A) : counted A := x <- m ;; Ret (x, 0).
(** one addition *)
Definition c_add (a b : Z) : counted Z := x <- tv_add a b ;; Ret (x, 1).
Definition c_bind {A B} (m : counted A) (f : A -> counted B) : counted B :=
  x <- m ;; y <- f (fst x) ;; Ret (fst y, snd x + snd y).
Notation "x <~ m ;;; k" := (c_bind m (fun x => k)) (at level 61, m at next level, right associativity).
Fixpoint c_fold {A B} (f : A -> B -> counted A) (a : A) (l : list B) : counted A :=
  match l with [] => Ret (a, 0) | b :: r => a1 <~ f a b ;;; c_fold f a1 r end.

(** propagation.rs:119-153 [propagate_lower_bound] *)
Definition c_plb (p : profile) (g : graph) (io jo : Z) : counted graph :=
  io_jo <~ free (g_lower p g io jo) ;;;
  g1 <~ c_fold (fun g i =>
                  a <~ free (g_lower p g i io) ;;; val <~ c_add a io_jo ;;; free (g_raise p g i jo val))
               g (zrange 0 (g_size g)) ;;;
  c_fold (fun g j =>
            j_jo <~ free (g_lower p g j jo) ;;;
            c_fold (fun g i =>
                      b <~ free (g_lower p g jo i) ;;; val <~ c_add j_jo b ;;; free (g_raise p g j i val))
                   g (zrange 0 (g_size g)))
         g1 (zrange 0 (g_size g1)).
(** propagation.rs:47-99 [propagate] *)
Definition c_propagate (p : profile) (g : graph) (k : kons) : counted (graph * presult) :=
  if k_empty k then Ret ((g, Recovered), 0)
  else
    let max := Z.max (k_from k) (k_to k) in
    if g_size g <=? max then
      free (m1 <- add32 p max 1 ;;
            g1 <- g_resize p g m1 ;;
            g2 <- g_set p g1 (k_from k) (k_to k) (k_lo k) ;;
            g3 <- g_set p g2 (k_to k) (k_from k) (tv_neg (k_up k)) ;;
            Ret (g3, Propagated))
    else
      ft <~ free (g_lower p g (k_from k) (k_to k)) ;;;
      tf <~ free (g_lower p g (k_to k) (k_from k)) ;;;
      if k_lo k <=? ft then
        if tv_neg (k_up k) <=? tf then Ret ((g, Unchanged), 0)
        else if k_up k <? ft then Ret ((g, Recovered), 0)
        else
          g1 <~ free (g_set p g (k_to k) (k_from k) (tv_neg (k_up k))) ;;;
          g2 <~ c_plb p g1 (k_to k) (k_from k) ;;;
          Ret ((g2, Propagated), 0)
      else
        if tv_neg (k_lo k) <? tf then Ret ((g, Recovered), 0)
        else
          g1 <~ free (g_set p g (k_from k) (k_to k) (k_lo k)) ;;;
          g2 <~ c_plb p g1 (k_from k) (k_to k) ;;;
          tf2 <~ free (g_lower p g2 (k_to k) (k_from k)) ;;;
          if tf2 <? tv_neg (k_up k) then
            g3 <~ free (g_set p g2 (k_to k) (k_from k) (tv_neg (k_up k))) ;;;
            g4 <~ c_plb p g3 (k_to k) (k_from k) ;;;
            Ret ((g4, Propagated), 0)
          else Ret ((g2, Propagated), 0).
(** propagation.rs:158-174 [global_propagation] *)
Definition c_gp_row (p : profile) (g : graph) (k i : Z) : counted graph :=
  c_fold (fun g j =>
            a <~ free (g_lower p g i k) ;;; b <~ free (g_lower p g k j) ;;; val <~ c_add a b ;;;
            free (g_raise p g i j val))
         g (zrange 0 (g_size g)).
Fixpoint c_gp_rows (p : profile) (g : graph) (k : Z) (is : list Z) : counted (graph * bool) :=
  match is with
  | [] => Ret ((g, true), 0)
  | i :: r =>
    g1 <~ c_gp_row p g k i ;;;
    d <~ free (g_lower p g1 i i) ;;;
    if is_strictly_positive d then Ret ((mkG 0 (g_data g1), false), 0)
    else c_gp_rows p g1 k r
  end.
Fixpoint c_gp_turns (p : profile) (g : graph) (ks : list Z) : counted (graph * presult) :=
  match ks with
  | [] => Ret ((g, Propagated), 0)
  | k :: r =>
    x <~ c_gp_rows p g k (zrange 0 (g_size g)) ;;;
    if snd x : bool then c_gp_turns p (fst x) r else Ret ((fst x, Fatal), 0)
  end.
Definition c_global (p : profile) (g : graph) : counted (graph * presult) :=
  c_gp_turns p g (zrange 0 (g_size g)).
(** propagation.rs:102-117 [merge] *)
Definition c_merge (p : profile) (g h : graph) : counted (graph * presult) :=
  let swapped := g_size g <? g_size h in
  let '(a, b) := if swapped then (h, g) else (g, h) in
  let '(d, change) := zip_max (g_data a) (g_data b) in
  let a1 := mkG (g_size a) d in
  if change then c_global p a1
  else Ret ((a1, if swapped then Propagated else Unchanged), 0).
(** propagation.rs:180-214 [extend] *)
Definition c_extend (p : profile) (g : graph) (hint : option Z) (ks : list kons) : counted (graph * presult) :=
  match hint with
  | Some 0 => Ret ((g, Unchanged), 0)
  | Some 1 =>
    match ks with
    | [] => Ret ((g, Unchanged), 0)
    | k :: _ => c_propagate p g k
    end
  | _ => g1 <~ free (ofold (g_insert p) g ks) ;;; c_global p g1
  end.
