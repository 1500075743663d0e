(** Model of [src/graph/{storage,propagation,constraints}.rs] and of the active part of
    [src/graph/mod.rs] (lines 1-158; 159-482 are commented out).

    An [Instant] is a [u32], represented by [Z].  All index computations are [u32]
    computations and take the build profile.  The [get_unchecked] accesses are [Ub] when
    out of the vector.  Allocation failures are not modelled. *)
From Verif Require Import Machine TimeValue Interval.

(** graph/mod.rs:71-86 *)
Record graph := mkG { g_size : Z; g_data : list Z }.
(** [derive(Default)], graph/mod.rs:71 *)
Definition g_default : graph := mkG 0 [].

(** [for i in a..b], [0 <= a] *)
Definition zrange (a b : Z) : list Z :=
  map (fun n => a + Z.of_nat n) (seq 0 (Z.to_nat (b - a))).

(** [*data.get_unchecked(k)] and [*data.get_unchecked_mut(k) = v] *)
Definition vget (l : list Z) (k : Z) : outcome Z :=
  match nth_error l (Z.to_nat k) with Some v => Ret v | None => Ub end.
Fixpoint list_set (l : list Z) (k : nat) (v : Z) : list Z :=
  match l, k with
  | [], _ => []
  | _ :: r, O => v :: r
  | x :: r, S k' => x :: list_set r k' v
  end.
Definition vset (l : list Z) (k v : Z) : outcome (list Z) :=
  if k <? Z.of_nat (length l) then Ret (list_set l (Z.to_nat k) v) else Ub.

(** storage.rs:76, 83: the cell of (i,j) *)
Definition g_idx (p : profile) (i j : Z) : outcome Z :=
  if j <=? i then ii <- mul32 p i i ;; add32 p ii j
  else j2 <- add32 p j 2 ;; jj <- mul32 p j j2 ;; sub32 p jj i.
(** storage.rs:73-78 [lower] *)
Definition g_lower (p : profile) (g : graph) (i j : Z) : outcome Z :=
  k <- g_idx p i j ;; vget (g_data g) k.
(** storage.rs:80-85 [*lower_mut(i,j) = v] *)
Definition g_set (p : profile) (g : graph) (i j v : Z) : outcome graph :=
  k <- g_idx p i j ;; d <- vset (g_data g) k v ;; Ret (mkG (g_size g) d).

(** [Vec::resize] (std) *)
Definition vresize (l : list Z) (n v : Z) : list Z :=
  firstn (Z.to_nat n) l ++ repeat v (Z.to_nat n - length l).

(** storage.rs:8-15 [reset] *)
Definition g_reset (p : profile) (g : graph) : outcome graph :=
  ofold (fun g i => g_set p g i i 0)
        (mkG (g_size g) (map (fun _ => - INF) (g_data g))) (zrange 0 (g_size g)).
(** storage.rs:37-45 [resize] *)
Definition g_resize (p : profile) (g : graph) (n : Z) : outcome graph :=
  nn <- mul32 p n n ;;
  g1 <- ofold (fun g i => g_set p g i i 0)
              (mkG (g_size g) (vresize (g_data g) nn (- INF))) (zrange (g_size g) n) ;;
  Ret (mkG n (g_data g1)).
(** storage.rs:21-26 [with_size] *)
Definition g_with_size (p : profile) (n : Z) : outcome graph := g_resize p g_default n.

(** storage.rs:57-59: has instant [i] a constraint with a smaller one?  The range
    [i*i ..= i*i+2*i] is scanned until the first constrained cell. *)
Fixpoint any_cell (l : list Z) (diag : Z) (ks : list Z) : outcome bool :=
  match ks with
  | [] => Ret false
  | x :: r =>
    if x =? diag then any_cell l diag r
    else v <- vget l x ;; if is_past_infinite v then any_cell l diag r else Ret true
  end.
Definition g_constrained (p : profile) (g : graph) (i : Z) : outcome bool :=
  ii <- mul32 p i i ;;
  i2 <- mul32 p 2 i ;;
  e <- add32 p ii i2 ;;
  d <- add32 p ii i ;;
  any_cell (g_data g) d (zrange ii (e + 1)).
(** [(0..size).rev().find(..)] *)
Fixpoint find_last (p : profile) (g : graph) (n : nat) : outcome Z :=
  match n with
  | O => Ret 0
  | S m =>
    c <- g_constrained p g (Z.of_nat m) ;;
    if c : bool then Ret (Z.of_nat m + 1) else find_last p g m
  end.
(** storage.rs:54-63 [shrink_to_fit]; the vector keeps its elements *)
Definition g_shrink_to_fit (p : profile) (g : graph) : outcome graph :=
  n <- find_last p g (Z.to_nat (g_size g)) ;; Ret (mkG n (g_data g)).
(** storage.rs:65-71 [shrink_to]; only the capacity of the vector changes, which is not modelled *)
Definition g_shrink_to (p : profile) (g : graph) (n : Z) : outcome graph :=
  m <- mul32 p n n ;; Ret g.

(** storage.rs:87-110 [timespan] *)
Definition g_timespan (p : profile) (g : graph) (i j : Z) : outcome interval :=
  if j <=? i then
    if g_size g <=? i then Ret iv_all
    else
      ii <- mul32 p i i ;; a <- add32 p ii j ;; lo <- vget (g_data g) a ;;
      i2 <- add32 p i 2 ;; m <- mul32 p i i2 ;; b <- sub32 p m j ;; up <- vget (g_data g) b ;;
      Ret (mkI lo (tv_neg up))
  else
    if g_size g <=? j then Ret iv_all
    else
      j2 <- add32 p j 2 ;; m <- mul32 p j j2 ;; a <- sub32 p m i ;; lo <- vget (g_data g) a ;;
      jj <- mul32 p j j ;; b <- add32 p jj i ;; up <- vget (g_data g) b ;;
      Ret (mkI lo (tv_neg up)).

(** storage.rs:112-131 [instant_cmp] *)
Definition g_instant_cmp (p : profile) (g : graph) (i j : Z) : outcome (option comparison) :=
  if (g_size g <=? i) || (g_size g <=? j) then Ret None
  else
    ij <- g_lower p g i j ;;
    if is_strictly_positive ij then Ret (Some Lt)
    else
      ji <- g_lower p g j i ;;
      if is_strictly_positive ji then Ret (Some Gt)
      else if (ij =? 0) && (ji =? 0) then Ret (Some Eq)
      else Ret None.

(** ** Constraints *)

(** graph/mod.rs:103-157 [TimeConstraint], constraints.rs:52-95 [TimeGraphConstraint]:
    what the graph reads of a constraint. *)
Record kons := mkK { k_from : Z; k_to : Z; k_empty : bool; k_lo : Z; k_up : Z }.
(** graph/mod.rs:130-157: a pair of instants and a convex window *)
Definition k_cx (i j : Z) (c : convex) : kons := mkK i j (cx_is_empty c) (cx_lower c) (cx_upper c).
(** constraints.rs:58-84: a constraint borrowed from a graph; [is_empty] is [false] *)
Definition k_of_graph (p : profile) (g : graph) (i j : Z) : outcome kons :=
  lo <- g_lower p g i j ;; up <- g_lower p g j i ;; Ret (mkK i j false lo (tv_neg up)).
(** constraints.rs:65-73 and wins/mod.rs:75-83 [is_all] *)
Definition k_is_all (k : kons) : bool := is_past_infinite (k_lo k) && is_future_infinite (k_up k).
(** graph/mod.rs:121-127, constraints.rs:128-134 *)
Definition k_span (k : kons) : interval := mkI (k_lo k) (k_up k).
(** graph/mod.rs:109-118 [equiv] *)
Definition k_equiv (a b : kons) : bool :=
  if k_from a =? k_from b then
    (k_to a =? k_to b) && (k_lo a =? k_lo b) && (k_up a =? k_up b)
  else if k_from a =? k_to b then
    (k_to a =? k_from b) && (k_lo a =? tv_neg (k_up b)) && (k_up a =? tv_neg (k_lo b))
  else false.

(** constraints.rs:17-25 [constraint] *)
Definition g_constraint (p : profile) (g : graph) (i j : Z) : outcome (option kons) :=
  if (g_size g <=? i) || (g_size g <=? j) then Ret None
  else k <- k_of_graph p g i j ;; Ret (if k_is_all k then None else Some k).
(** storage.rs:135-142 [are_distinct_instants] *)
Definition g_are_distinct (p : profile) (g : graph) (i j : Z) : outcome bool :=
  k <- g_constraint p g i j ;;
  Ret (match k with
       | None => false
       | Some k => is_strictly_positive (k_lo k) || is_strictly_negative (k_up k)
       end).

(** Is one of the two cells of (i,j) constrained?  constraints.rs:163-164, 223-224 ([||]
    reads the second cell only if the first one is unconstrained) *)
Definition g_related (p : profile) (g : graph) (i j : Z) : outcome bool :=
  a <- g_lower p g i j ;;
  if is_past_infinite a then b <- g_lower p g j i ;; Ret (negb (is_past_infinite b))
  else Ret true.

(** constraints.rs:147-174 [TimeConstraintIter::next], state (i,j).  The loop is bounded
    by [fuel]. *)
Fixpoint citer_loop (p : profile) (g : graph) (fuel : nat) (i j : Z)
  : outcome (option (Z * Z) * (Z * Z)) :=
  match fuel with
  | O => NoFuel
  | S f =>
    j1 <- add32 p j 1 ;;
    if j1 =? g_size g then
      i1 <- add32 p i 1 ;;
      if i1 =? g_size g then Ret (None, (i1, j1)) else citer_loop p g f i1 i1
    else
      r <- g_related p g i j1 ;;
      if r : bool then Ret (Some (i, j1), (i, j1)) else citer_loop p g f i j1
  end.
Definition citer_fuel (g : graph) : nat := S (Z.to_nat (g_size g * g_size g + g_size g)).
Definition citer_next (p : profile) (g : graph) (s : Z * Z)
  : outcome (option (Z * Z) * (Z * Z)) :=
  let '(i, j) := s in
  if i =? g_size g then Ret (None, s) else citer_loop p g (citer_fuel g) i j.
(** constraints.rs:45-47 [iter] *)
Definition citer_init : Z * Z := (0, 0).
(** constraints.rs:177-183 [size_hint] *)
Definition citer_hint (p : profile) (g : graph) (s : Z * Z) : outcome (Z * option Z) :=
  let '(i, j) := s in
  nn <- mul32 p (g_size g) (g_size g) ;;
  a <- sub32 p nn (g_size g) ;;
  ii <- mul32 p i i ;;
  b <- sub32 p ii i ;;
  d <- sub32 p (a / 2) (b / 2) ;;
  d1 <- add32 p d 1 ;;
  m <- sub32 p d1 j ;;
  Ret (0, Some m).

(** constraints.rs:203-230 [TimeConstraintFromIter::next]: search of the next [j] *)
Fixpoint fiter_search (p : profile) (g : graph) (fuel : nat) (i j : Z) : outcome (Z * Z) :=
  match fuel with
  | O => NoFuel
  | S f =>
    j1 <- add32 p j 1 ;;
    if j1 =? g_size g then Ret (g_size g, j1)
    else if i =? j1 then fiter_search p g f i j1
    else
      r <- g_related p g i j1 ;;
      if r : bool then Ret (i, j1) else fiter_search p g f i j1
  end.
Definition fiter_next (p : profile) (g : graph) (s : Z * Z)
  : outcome (option (Z * Z) * (Z * Z)) :=
  let '(i, j) := s in
  if g_size g <=? i then Ret (None, s)
  else
    s1 <- fiter_search p g (S (Z.to_nat (g_size g))) i j ;;
    Ret (Some (i, j), s1).
(** constraints.rs:29-31 [constraints_from] *)
Definition fiter_init (i : Z) : Z * Z := (i, 0).
(** constraints.rs:233-239 [size_hint]: the same text as above *)
Definition fiter_hint := citer_hint.

(** All the items of an iterator, as constraints of the graph *)
Fixpoint collect_pairs (next : Z * Z -> outcome (option (Z * Z) * (Z * Z)))
  (fuel : nat) (s : Z * Z) : outcome (list (Z * Z)) :=
  match fuel with
  | O => NoFuel
  | S f =>
    r <- next s ;;
    match r with
    | (None, _) => Ret []
    | (Some a, s1) => l <- collect_pairs next f s1 ;; Ret (a :: l)
    end
  end.
Definition g_iter (p : profile) (g : graph) : outcome (list (Z * Z)) :=
  collect_pairs (citer_next p g) (citer_fuel g) citer_init.
Definition g_constraints_from (p : profile) (g : graph) (i : Z) : outcome (list (Z * Z)) :=
  collect_pairs (fiter_next p g) (S (S (Z.to_nat (g_size g)))) (fiter_init i).
(** constraints.rs:35-39 [constraints_to] *)
Definition g_constraints_to (p : profile) (g : graph) (i : Z) : outcome (list (Z * Z)) :=
  omap (map (fun '(a, b) => (b, a))) (g_constraints_from p g i).

(** ** Propagation *)

(** propagation.rs:12-35: [Ok(Unchanged)], [Ok(Propagated)], [Err(Recovered)], [Err(Fatal)] *)
Inductive presult := Unchanged | Propagated | Recovered | Fatal.

(** [if val > *k { *k = val; }] on cell (i,j) *)
Definition g_raise (p : profile) (g : graph) (i j val : Z) : outcome graph :=
  k <- g_lower p g i j ;; if k <? val then g_set p g i j val else Ret g.

(** propagation.rs:119-153 [propagate_lower_bound] *)
Definition g_plb (p : profile) (g : graph) (io jo : Z) : outcome graph :=
  io_jo <- g_lower p g io jo ;;
  g1 <- ofold (fun g i =>
                 a <- g_lower p g i io ;; val <- tv_add a io_jo ;; g_raise p g i jo val)
              g (zrange 0 (g_size g)) ;;
  ofold (fun g j =>
           j_jo <- g_lower p g j jo ;;
           ofold (fun g i =>
                    b <- g_lower p g jo i ;; val <- tv_add j_jo b ;; g_raise p g j i val)
                 g (zrange 0 (g_size g)))
        g1 (zrange 0 (g_size g1)).

(** propagation.rs:47-99 [propagate] *)
Definition g_propagate (p : profile) (g : graph) (k : kons) : outcome (graph * presult) :=
  if k_empty k then Ret (g, Recovered)
  else
    let max := Z.max (k_from k) (k_to k) in
    if g_size g <=? max then
      m1 <- add32 p max 1 ;;
      g1 <- g_resize p g m1 ;;
      g2 <- g_set p g1 (k_from k) (k_to k) (k_lo k) ;;
      g3 <- g_set p g2 (k_to k) (k_from k) (tv_neg (k_up k)) ;;
      Ret (g3, Propagated)
    else
      ft <- g_lower p g (k_from k) (k_to k) ;;
      tf <- g_lower p g (k_to k) (k_from k) ;;
      if k_lo k <=? ft then
        if tv_neg (k_up k) <=? tf then Ret (g, Unchanged)
        else if k_up k <? ft then Ret (g, Recovered)
        else
          g1 <- g_set p g (k_to k) (k_from k) (tv_neg (k_up k)) ;;
          g2 <- g_plb p g1 (k_to k) (k_from k) ;;
          Ret (g2, Propagated)
      else
        if tv_neg (k_lo k) <? tf then Ret (g, Recovered)
        else
          g1 <- g_set p g (k_from k) (k_to k) (k_lo k) ;;
          g2 <- g_plb p g1 (k_from k) (k_to k) ;;
          tf2 <- g_lower p g2 (k_to k) (k_from k) ;;
          if tf2 <? tv_neg (k_up k) then
            g3 <- g_set p g2 (k_to k) (k_from k) (tv_neg (k_up k)) ;;
            g4 <- g_plb p g3 (k_to k) (k_from k) ;;
            Ret (g4, Propagated)
          else Ret (g2, Propagated).

(** propagation.rs:158-174 [global_propagation]: row [i] of turn [k], then all the rows of
    turn [k] until a positive diagonal, then all the turns *)
Definition g_gp_row (p : profile) (g : graph) (k i : Z) : outcome graph :=
  ofold (fun g j =>
           a <- g_lower p g i k ;; b <- g_lower p g k j ;; val <- tv_add a b ;;
           g_raise p g i j val)
        g (zrange 0 (g_size g)).
Fixpoint g_gp_rows (p : profile) (g : graph) (k : Z) (is : list Z) : outcome (graph * bool) :=
  match is with
  | [] => Ret (g, true)
  | i :: r =>
    g1 <- g_gp_row p g k i ;;
    d <- g_lower p g1 i i ;;
    if is_strictly_positive d then Ret (mkG 0 (g_data g1), false)
    else g_gp_rows p g1 k r
  end.
Fixpoint g_gp_turns (p : profile) (g : graph) (ks : list Z) : outcome (graph * presult) :=
  match ks with
  | [] => Ret (g, Propagated)
  | k :: r =>
    x <- g_gp_rows p g k (zrange 0 (g_size g)) ;;
    let '(g1, ok) := x in
    if ok : bool then g_gp_turns p g1 r else Ret (g1, Fatal)
  end.
Definition g_global (p : profile) (g : graph) : outcome (graph * presult) :=
  g_gp_turns p g (zrange 0 (g_size g)).

(** propagation.rs:108-109: the pairwise maximum of two vectors, over their common prefix,
    and whether it changed the first one *)
Fixpoint zip_max (a b : list Z) : list Z * bool :=
  match a, b with
  | x :: r, y :: s =>
    let '(m, c) := zip_max r s in
    if x <? y then (y :: m, true) else (x :: m, c)
  | _, _ => (a, false)
  end.
(** propagation.rs:102-117 [merge] *)
Definition g_merge (p : profile) (g h : graph) : outcome (graph * presult) :=
  let swapped := g_size g <? g_size h in
  let '(a, b) := if swapped then (h, g) else (g, h) in
  let '(d, change) := zip_max (g_data a) (g_data b) in
  let a1 := mkG (g_size a) d in
  if change then g_global p a1
  else Ret (a1, if swapped then Propagated else Unchanged).

(** propagation.rs:197-210: one constraint of [extend] *)
Definition g_insert (p : profile) (g : graph) (k : kons) : outcome graph :=
  let max := Z.max (k_from k) (k_to k) in
  g1 <- (if g_size g <=? max then m1 <- add32 p max 1 ;; g_resize p g m1 else Ret g) ;;
  g2 <- g_raise p g1 (k_from k) (k_to k) (k_lo k) ;;
  g_raise p g2 (k_to k) (k_from k) (tv_neg (k_up k)).
(** propagation.rs:180-214 [extend]: [hint] is the upper bound given by [size_hint], [ks]
    the items of the iterator *)
Definition g_extend (p : profile) (g : graph) (hint : option Z) (ks : list kons)
  : outcome (graph * presult) :=
  match hint with
  | Some 0 => Ret (g, Unchanged)
  | Some 1 =>
    match ks with
    | [] => Ret (g, Unchanged)
    | k :: _ => g_propagate p g k
    end
  | _ => g1 <- ofold (g_insert p) g ks ;; g_global p g1
  end.
(** constraints.rs:258-263 [Extend]: [expect]; 247-255 [FromIterator] *)
Definition g_extend_expect (p : profile) (g : graph) (hint : option Z) (ks : list kons)
  : outcome graph :=
  x <- g_extend p g hint ks ;;
  match snd x with Unchanged | Propagated => Ret (fst x) | _ => Panic end.
Definition g_from_iter (p : profile) (hint : option Z) (ks : list kons) : outcome graph :=
  g_extend_expect p g_default hint ks.
