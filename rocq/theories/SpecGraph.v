(** Specification vocabulary for the graph of constraints.  A graph is observed through
    its public query [timespan] only; assignments of dates are functions from instants to
    integers. *)
From Verif Require Import Machine Spec Interval SpecSets Graph.

(** [t] gives a date to each instant.  It is a solution of the graph if each difference of
    dates is in the reported interval. *)
Definition solution (p : profile) (g : graph) (t : Z -> Z) : Prop :=
  forall i j, 0 <= i < g_size g -> 0 <= j < g_size g ->
    exists iv, g_timespan p g i j = Ret iv /\ In_ext (t j - t i) iv.

(** [t] satisfies a constraint *)
Definition sat (k : kons) (t : Z -> Z) : Prop :=
  In_ext (t (k_to k) - t (k_from k)) (mkI (k_lo k) (k_up k)).

(** Each value of each reported interval is realised by a solution. *)
Definition minimal (p : profile) (g : graph) : Prop :=
  forall i j, 0 <= i < g_size g -> 0 <= j < g_size g ->
    exists iv, g_timespan p g i j = Ret iv /\
      forall v, In_ext v iv -> exists t, solution p g t /\ t j - t i = v.

(** Accepted *)
Definition accepted (r : presult) : Prop := r = Unchanged \/ r = Propagated.

(** The constraints are propagated one after the other, all accepted. *)
Inductive one_by_one (p : profile) : graph -> list kons -> graph -> Prop :=
| obo_nil g : one_by_one p g [] g
| obo_cons g k r g1 ks g' : g_propagate p g k = Ret (g1, r) -> accepted r ->
    one_by_one p g1 ks g' -> one_by_one p g (k :: ks) g'.

(** Two graphs report the same intervals. *)
Definition same_bounds (p : profile) (g g' : graph) : Prop :=
  g_size g = g_size g' /\
  forall i j, 0 <= i < g_size g -> 0 <= j < g_size g -> g_timespan p g i j = g_timespan p g' i j.

(** The storage of a graph of at most 65535 instants is large enough. *)
Definition stored (g : graph) : Prop :=
  0 <= g_size g <= 65535 /\ g_size g * g_size g <= Z.of_nat (length (g_data g)).

(** A constraint with legal bounds *)
Definition legal (k : kons) : Prop :=
  0 <= k_from k <= 65534 /\ 0 <= k_to k <= 65534 /\ valid (k_lo k) /\ valid (k_up k).
(** ... moreover not empty, between instants below [N], with finite bounds at most [B] in
    absolute value *)
Definition within (B x : Z) : Prop := Z.abs x <= B \/ Z.abs x = oo.
Definition good (N B : Z) (k : kons) : Prop :=
  k_empty k = false /\ wf_iv (mkI (k_lo k) (k_up k)) /\
  0 <= k_from k < N /\ 0 <= k_to k < N /\ within B (k_lo k) /\ within B (k_up k).
(** ... between instants of the graph *)
Definition inside (g : graph) (k : kons) : Prop := k_from k < g_size g /\ k_to k < g_size g.

(** An upper bound given by [size_hint] is honest. *)
Definition honest (hint : option Z) (ks : list kons) : Prop :=
  match hint with Some h => Z.of_nat (length ks) <= h | None => True end.

(** An instant that no constraint mentions *)
Definition fresh (ks : list kons) (i : Z) : Prop :=
  Forall (fun k => k_from k <> i /\ k_to k <> i) ks.

(** The intervals that a graph reports, as constraints: one for each pair of different
    instants, but for the pairs without any bound *)
Definition reported (p : profile) (g : graph) (ks : list kons) : Prop :=
  Forall (fun k => k_from k <> k_to k /\ inside g k /\
    g_timespan p g (k_from k) (k_to k) = Ret (mkI (k_lo k) (k_up k))) ks /\
  forall i j, 0 <= i < g_size g -> 0 <= j < i -> g_timespan p g i j = Ret (mkI (- oo) oo) \/
    exists k, In k ks /\ (k_from k = i /\ k_to k = j \/ k_from k = j /\ k_to k = i).

(** The graphs obtained from [with_size] by accepted calls, and the constraints given so
    far.  When [resize] removes instants, the intervals reported between the other ones take
    the place of the constraints.  [N] bounds the number of instants, [B] the finite bounds
    of the constraints.  [propagate], and [extend] when it only does a [propagate], are given
    instants of the graph only, or two different instants without any constraint so far (see
    C45 for the other ones); [shrink_to_fit] keeps the instants mentioned so far. *)
Inductive history (p : profile) (N B : Z) : list kons -> graph -> Prop :=
| h_new n g : 0 <= n <= N -> g_with_size p n = Ret g -> history p N B [] g
| h_propagate ks g k g' r : history p N B ks g -> good N B k -> inside g k ->
    g_propagate p g k = Ret (g', r) -> accepted r -> history p N B (k :: ks) g'
| h_attach ks g k g' r : history p N B ks g -> good N B k -> ~ inside g k ->
    k_from k <> k_to k -> fresh ks (k_from k) -> fresh ks (k_to k) ->
    g_propagate p g k = Ret (g', r) -> accepted r -> history p N B (k :: ks) g'
| h_refused ks g k g' : history p N B ks g -> good N B k -> inside g k ->
    g_propagate p g k = Ret (g', Recovered) -> history p N B ks g'
| h_extend ks g hint ks' g' r : history p N B ks g -> Forall (good N B) ks' ->
    honest hint ks' -> (hint = Some 1 -> Forall (inside g) ks') ->
    g_extend p g hint ks' = Ret (g', r) -> accepted r -> history p N B (ks' ++ ks) g'
| h_grow ks g m g' : history p N B ks g -> g_size g <= m <= N ->
    g_resize p g m = Ret g' -> history p N B ks g'
| h_reset ks g g' : history p N B ks g -> g_reset p g = Ret g' -> history p N B [] g'
| h_shrink ks g g' : history p N B ks g -> g_shrink_to_fit p g = Ret g' ->
    Forall (inside g') ks -> history p N B ks g'
| h_cut ks g m g' ks' : history p N B ks g -> 0 <= m <= g_size g -> g_resize p g m = Ret g' ->
    reported p g' ks' -> Forall (good N B) ks' -> history p N B ks' g'
| h_merge ks g ks' h g' r : history p N B ks g -> history p N B ks' h ->
    g_merge p g h = Ret (g', r) -> accepted r -> history p N B (ks ++ ks') g'.

(** Enough room for the sums *)
Definition room (N B : Z) : Prop := 0 <= B /\ 0 <= N <= 65535 /\ 4 * (N + 1) * B < oo.

(** Every sequence of public calls on graphs of at most 65535 instants.  If [lax], the calls
    go on after a fatal inconsistency and [shrink_to_fit] is used too. *)
Inductive calls (p : profile) (lax : bool) : graph -> Prop :=
| c_new : calls p lax g_default
| c_resize g n g' : calls p lax g -> 0 <= n <= 65535 -> g_resize p g n = Ret g' -> calls p lax g'
| c_reset g g' : calls p lax g -> g_reset p g = Ret g' -> calls p lax g'
| c_shrink g g' : lax = true -> calls p lax g -> g_shrink_to_fit p g = Ret g' -> calls p lax g'
| c_propagate g k g' r : calls p lax g -> legal k -> g_propagate p g k = Ret (g', r) ->
    calls p lax g'
| c_extend g hint ks g' r : calls p lax g -> Forall legal ks ->
    g_extend p g hint ks = Ret (g', r) -> (r = Fatal -> lax = true) -> calls p lax g'
| c_merge g h g' r : calls p lax g -> calls p lax h ->
    g_merge p g h = Ret (g', r) -> (r = Fatal -> lax = true) -> calls p lax g'.

(** No bound is at the wrong infinity: no sum of bounds went beyond the time values. *)
Definition unsaturated (p : profile) (g : graph) : Prop :=
  forall i j, 0 <= i < g_size g -> 0 <= j < g_size g ->
    exists iv, g_timespan p g i j = Ret iv /\ lower iv < oo /\ - oo < upper iv.
