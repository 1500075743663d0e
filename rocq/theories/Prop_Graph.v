(** C36-C39: storage of the graph, and the solutions under propagation. *)
From Verif Require Import Machine TimeValue Interval Spec SpecSets Tac TimeValueProofs Graph
  MaxPlus FwBound GraphProofs GraphOps GraphGrow GraphSafe GraphMem GraphHist GraphTight SpecGraph
  GraphInv GraphSound GraphCalls GraphProfile.

(** ** C36 the cells of the matrix *)

(** For any number [n] of instants: the cell of a pair of instants exists, is one of the
    first n*n ones, belongs to no other pair, and all these cells are used.  ([g_idx] does
    not take [n]: the cell of a pair stays where it is when the graph grows.) *)
Theorem C36_cells : forall p n i j, 0 <= n <= 65535 -> 0 <= i < n -> 0 <= j < n ->
  exists c, g_idx p i j = Ret c /\ 0 <= c < n * n /\
    forall i' j', 0 <= i' < n -> 0 <= j' < n -> g_idx p i' j' = Ret c -> i' = i /\ j' = j.
Proof.
  intros p n i j Hn Hi Hj. exists (cidx i j).
  split; [apply (g_idx_ok p n); auto; lia|]. split; [apply cidx_bound; auto|].
  intros i' j' Hi' Hj' E. rewrite (g_idx_ok p n) in E by (auto; lia). injection E as E.
  apply cidx_inj in E; lia.
Qed.
Theorem C36_all_cells_used : forall p n c, 0 <= n <= 65535 -> 0 <= c < n * n ->
  exists i j, 0 <= i < n /\ 0 <= j < n /\ g_idx p i j = Ret c.
Proof.
  intros p n c Hn Hc. destruct (cidx_surj c) as (i & j & Hi & Hj & E & M); [lia|].
  exists i, j. assert (Z.sqrt c < n). { apply Z.sqrt_lt_square; lia. }
  split; [lia|]. split; [lia|]. rewrite (g_idx_ok p n); unfold node; try lia. congruence.
Qed.
(** Writing a cell changes the value read for this pair, and for no other pair. *)
Theorem C36_write_read : forall p g i j v a b, stored g ->
  0 <= i < g_size g -> 0 <= j < g_size g -> 0 <= a < g_size g -> 0 <= b < g_size g ->
  exists g', g_set p g i j v = Ret g' /\ g_size g' = g_size g /\
    g_lower p g' i j = Ret v /\ ((a, b) <> (i, j) -> g_lower p g' a b = g_lower p g a b).
Proof.
  intros p g i j v a b M Hi Hj Ha Hb.
  destruct (g_set_ok p g i j v M Hi Hj) as (g' & E & S & C). exists g'. split; auto.
  assert (S' : g_size g' = g_size g) by apply S. split; auto.
  pose proof (same_shape_mem _ _ S M) as M'.
  rewrite !(g_lower_ok p g') by (auto; rewrite S'; auto). rewrite !C by lia. split.
  - rewrite !Z.eqb_refl. auto.
  - intros N. rewrite g_lower_ok by auto.
    destruct ((a =? i) && (b =? j)) eqn:T; auto. destruct N. f_equal; lia.
Qed.
(** The reported interval is made of the two cells of the pair. *)
Theorem C36_timespan : forall p g i j, stored g -> 0 <= i < g_size g -> 0 <= j < g_size g ->
  exists a b, g_lower p g i j = Ret a /\ g_lower p g j i = Ret b /\
    g_timespan p g i j = Ret (mkI a (- b)).
Proof.
  intros p g i j M Hi Hj. exists (cell g i j), (cell g j i).
  split; [apply g_lower_ok; auto|]. split; [apply g_lower_ok; auto|]. apply timespan_ok; auto.
Qed.
Example C36_case : (* the numbering of the source comment *)
  map (fun '(i, j) => g_idx Debug i j) [(0,0); (1,0); (1,1); (0,1); (2,0); (2,1); (2,2); (1,2); (0,2)]
  = map Ret [0; 1; 2; 3; 4; 5; 6; 7; 8].
Proof. reflexivity. Qed.
Example C36_stored : stored (mkG 2 [0; - 5; 0; 3]).
Proof. unfold stored. simpl. lia. Qed.

(** ** C37 memory safety *)

(** [o] is not undefined behaviour (and not an unfinished computation of the model). *)
Definition defined {A} (o : outcome A) : Prop := (exists x, o = Ret x) \/ o = Panic.
Lemma safe_defined : forall A (o : outcome A) P, safe o P -> defined o.
Proof. intros A [x| | |] P S; try destruct S; [left; eauto|right; auto]. Qed.

(** Whatever the previous calls, the next one accesses the storage within its bounds. *)
(** Partial: at most 65535 instants; false beyond (C37_large_refuted). *)
Theorem C37_no_ub_partial : forall p g, calls p true g ->
  (forall n, 0 <= n <= 65535 -> exists g', g_resize p g n = Ret g') /\
  (exists g', g_reset p g = Ret g') /\
  (exists g', g_shrink_to_fit p g = Ret g') /\
  (forall k, legal k -> defined (g_propagate p g k)) /\
  (forall hint ks, Forall legal ks -> defined (g_extend p g hint ks)) /\
  (forall h, calls p true h -> defined (g_merge p g h)) /\
  (forall i j, 0 <= i -> 0 <= j -> exists iv, g_timespan p g i j = Ret iv) /\
  (forall i j, 0 <= i -> 0 <= j -> exists c, g_instant_cmp p g i j = Ret c) /\
  (forall i j, 0 <= i -> 0 <= j -> exists k, g_constraint p g i j = Ret k) /\
  (forall i j, 0 <= i -> 0 <= j -> exists b, g_are_distinct p g i j = Ret b).
Proof.
  intros p g H. pose proof (calls_mem _ _ _ H) as M. assert (S0 : 0 <= g_size g) by apply M.
  assert (K : forall i j, 0 <= i -> 0 <= j -> exists k, g_constraint p g i j = Ret k).
  { intros i j Hi Hj. unfold g_constraint. destruct ((g_size g <=? i) || (g_size g <=? j)) eqn:T; eauto.
    unfold k_of_graph. rewrite !g_lower_ok by (auto; unfold node; lia). cbn [bind]. eauto. }
  split; [intros n L; destruct (resize_ok p g n S0 L) as (g' & E & _); eauto|].
  split; [destruct (reset_ok p g M) as (g' & E & _); eauto|].
  split; [destruct (shrink_mem p g M) as (g' & E & _); eauto|].
  split; [intros k L; apply legal_inst in L; destruct L; eapply safe_defined, propagate_mem; eauto|].
  split; [intros hint ks L; eapply safe_defined, extend_mem; auto; apply legal_insts; auto|].
  split; [intros h Hh; eapply safe_defined, merge_mem; auto; eapply calls_mem; eauto|].
  split.
  { intros i j Hi Hj. destruct (Z_lt_le_dec (Z.max i j) (g_size g)).
    - eexists. apply timespan_ok; auto; unfold node; lia.
    - unfold g_timespan. destruct (j <=? i) eqn:T.
      + replace (g_size g <=? i) with true by lia. eauto.
      + replace (g_size g <=? j) with true by lia. eauto. }
  split.
  { intros i j Hi Hj. unfold g_instant_cmp.
    destruct ((g_size g <=? i) || (g_size g <=? j)) eqn:T; eauto.
    rewrite !g_lower_ok by (auto; unfold node; lia). cbn [bind].
    destruct (is_strictly_positive (cell g i j)); eauto. cbn [bind].
    destruct (is_strictly_positive (cell g j i)); eauto. destruct (_ && _); eauto. }
  split; auto.
  intros i j Hi Hj. destruct (K i j Hi Hj) as (k & E). unfold g_are_distinct. rewrite E. cbn [bind]. eauto.
Qed.

(** No index computation overflows: with and without overflow checks, the calls do the
    same. *)
(** Partial: at most 65535 instants; false beyond (C37_large_refuted). *)
Theorem C37_no_overflow_partial : forall p g, calls p true g ->
  (forall n, 0 <= n <= 65535 -> g_resize Debug g n = g_resize Release g n) /\
  g_reset Debug g = g_reset Release g /\
  g_shrink_to_fit Debug g = g_shrink_to_fit Release g /\
  (forall k, legal k -> g_propagate Debug g k = g_propagate Release g k) /\
  (forall hint ks, Forall legal ks -> g_extend Debug g hint ks = g_extend Release g hint ks) /\
  (forall h, calls p true h -> g_merge Debug g h = g_merge Release g h).
Proof.
  intros p g H. pose proof (calls_mem _ _ _ H) as M. assert (S : sz g) by apply M.
  split; [intros n L; apply resize_agree; auto|].
  split; [apply reset_agree; auto|]. split; [apply shrink_agree; auto|].
  split; [intros k L; apply legal_inst in L; destruct L; apply propagate_agree; auto|].
  split; [intros hint ks L; apply extend_agree; auto; apply legal_insts; auto|].
  intros h Hh. apply merge_agree; auto. apply (calls_mem _ _ _ Hh).
Qed.
(** [shrink_to] changes nothing; its capacity overflows from 65536 instants on, which is only detected in
    the debug profile. *)
Theorem C37_shrink_to : forall g n, 0 <= n <= u32_max -> g_shrink_to Release g n = Ret g /\
  g_shrink_to Debug g n = if n <=? 65535 then Ret g else Panic.
Proof.
  intros g n Hn. unfold g_shrink_to, mul32, chk32, u32_max in *.
  assert (0 <= n * n) by (apply Z.mul_nonneg_nonneg; lia).
  assert (n <= 65535 -> n * n <= 65535 * 65535) by (intros; apply Z.mul_le_mono_nonneg; lia).
  assert (65536 <= n -> 65536 * 65536 <= n * n) by (intros; apply Z.mul_le_mono_nonneg; lia).
  destruct (Z.leb_spec n 65535); tests; cbn [bind andb]; auto; lia.
Qed.
Example C37_case : exists g, calls Release true g /\ g_size g = 3.
Proof.
  eexists. split; [|shelve]. eapply c_propagate with (k := mkK 0 2 false 5 9).
  - eapply c_resize with (n := 2); [apply c_new|lia|reflexivity].
  - unfold legal, valid, oo; simpl; lia.
  - reflexivity.
  Unshelve. reflexivity.
Qed.

(** Full statement: for all [u32] sizes.  From 65536 instants on, the number of cells wraps
    around: without overflow checks, safe calls write outside of the vector. *)
Theorem C37_large_refuted :
  g_with_size Release 65536 = Ub /\ g_with_size Debug 65536 = Panic /\
  g_propagate Release g_default (mkK 0 65535 false 5 9) = Ub /\
  g_propagate Release g_default (mkK 0 4294967295 false 5 9) = Ub.
Proof.
  assert (L : g_resize Release g_default 65536 = Ub).
  { unfold g_resize. replace (mul32 Release 65536 65536) with (Ret 0) by reflexivity.
    cbn [bind]. rewrite zrange_cons by (simpl; lia). reflexivity. }
  split; [exact L|]. split; [reflexivity|].
  split; [|vm_compute; reflexivity].
  unfold g_propagate. cbn [k_empty k_from k_to]. cbv zeta. cbv iota.
  replace (g_size g_default <=? Z.max 0 65535) with true by reflexivity.
  replace (add32 Release (Z.max 0 65535) 1) with (Ret 65536) by reflexivity.
  cbn [bind]. rewrite L. reflexivity.
Qed.

(** ** C38 unconstrained graphs *)

(** The graph reports no constraint but [t_i - t_i = 0]. *)
Definition unconstrained_between (p : profile) (g : graph) (i j : Z) : Prop :=
  g_timespan p g i j = Ret (if i =? j then mkI 0 0 else mkI (- oo) oo).

Lemma ts_cell : forall p g i j v v', mem_ok g -> node (g_size g) i -> node (g_size g) j ->
  cell g i j = v -> cell g j i = v' -> g_timespan p g i j = Ret (mkI v (- v')).
Proof. intros. subst. apply timespan_ok; auto. Qed.

Theorem C38_with_size : forall p n, 0 <= n <= 65535 ->
  exists g, g_with_size p n = Ret g /\ g_size g = n /\
    forall i j, 0 <= i < n -> 0 <= j < n -> unconstrained_between p g i j.
Proof.
  intros p n L. destruct (with_size_inv p n 0 n ltac:(lia) ltac:(lia)) as (g & E & S & I).
  exists g. split; auto. split; auto. intros i j Hi Hj.
  assert (X : exact g_default).
  { split; [split; simpl; lia|]. split; [simpl; lia|]. intros a b (A & B). simpl in B. lia. }
  destruct (resize_exact p g_default n X L) as (g' & E' & _ & (M & _) & C).
  unfold g_with_size in E. rewrite E in E'. injection E' as <-.
  unfold unconstrained_between. rewrite timespan_ok by (auto; rewrite S; auto).
  rewrite !C by auto. simpl. replace (i <? 0) with false by lia. replace (j <? 0) with false by lia.
  simpl. rewrite (Z.eqb_sym j i). destruct (i =? j); reflexivity.
Qed.
Theorem C38_reset : forall p g, stored g ->
  exists g', g_reset p g = Ret g' /\ g_size g' = g_size g /\
    forall i j, 0 <= i < g_size g -> 0 <= j < g_size g -> unconstrained_between p g' i j.
Proof.
  intros p g M. destruct (reset_ok p g M) as (g' & E & S & M' & _ & D & O).
  exists g'. split; auto. split; auto. intros i j Hi Hj. unfold unconstrained_between.
  rewrite timespan_ok by (auto; rewrite S; auto).
  destruct (i =? j) eqn:T.
  - assert (i = j) by lia. subst. rewrite D by auto. auto.
  - rewrite !O by lia. auto.
Qed.
(** Growing keeps the constraints; the new instants have none. *)
Theorem C38_grow : forall p g n, calls p false g -> g_size g <= n <= 65535 ->
  exists g', g_resize p g n = Ret g' /\ g_size g' = n /\
    (forall i j, 0 <= i < g_size g -> 0 <= j < g_size g ->
       g_timespan p g' i j = g_timespan p g i j) /\
    (forall i j, 0 <= i < n -> 0 <= j < n -> g_size g <= i \/ g_size g <= j ->
       unconstrained_between p g' i j).
Proof.
  intros p g n H L. pose proof (calls_exact _ _ H) as X. pose proof X as (M & _).
  assert (S0 : 0 <= g_size g) by apply M.
  destruct (resize_exact p g n X ltac:(lia)) as (g' & E & S & (M' & _) & C).
  exists g'. split; auto. split; auto. split.
  - intros i j Hi Hj. rewrite !timespan_ok by (auto; rewrite ?S; unfold node; lia).
    rewrite !C by (unfold node; lia). replace (i <? g_size g) with true by lia.
    replace (j <? g_size g) with true by lia. auto.
  - intros i j Hi Hj Hn. unfold unconstrained_between.
    rewrite !timespan_ok by (auto; rewrite ?S; unfold node; lia).
    rewrite !C by (unfold node; lia).
    replace ((i <? g_size g) && (j <? g_size g)) with false by lia.
    replace ((j <? g_size g) && (i <? g_size g)) with false by lia.
    rewrite (Z.eqb_sym j i). destruct (i =? j); reflexivity.
Qed.
Example C38_case : exists g g', g_with_size Debug 2 = Ret g /\ calls Debug false g /\
  g_resize Debug g 3 = Ret g' /\ g_timespan Debug g' 2 0 = Ret (mkI (- oo) oo) /\
  g_timespan Debug g' 2 2 = Ret (mkI 0 0).
Proof.
  eexists. eexists. split; [reflexivity|]. split; [|split; [reflexivity|split; reflexivity]].
  eapply c_resize with (n := 2); [apply c_new|lia|reflexivity].
Qed.
(** A timespan with an instant outside of the graph is unconstrained. *)
Theorem C38_outside : forall p g i j, 0 <= i -> 0 <= j -> g_size g <= Z.max i j ->
  g_timespan p g i j = Ret (mkI (- oo) oo).
Proof.
  intros p g i j Hi Hj L. unfold g_timespan. destruct (j <=? i) eqn:T.
  - replace (g_size g <=? i) with true by lia. auto.
  - replace (g_size g <=? j) with true by lia. auto.
Qed.

(** ** C39 solutions *)

Lemma sat_ksat : forall k t, sat k t <-> ksat k t.
Proof. reflexivity. Qed.

(** [extend] by the global propagation, and [merge]: whatever the graphs and constraints,
    and even if sums of bounds go beyond the time values, exactly the new constraints are
    added. *)
Theorem C39_extend : forall p g hint ks g' r, calls p false g -> Forall legal ks ->
  honest hint ks -> hint <> Some 1 ->
  g_extend p g hint ks = Ret (g', r) -> accepted r ->
  forall t, solution p g' t <-> solution p g t /\ Forall (fun k => sat k t) ks.
Proof.
  intros p g hint ks g' r H Lk Hn H1 E A t. pose proof (calls_exact _ _ H) as X.
  assert (NF : r <> Fatal) by (destruct A; congruence).
  pose proof (extend_exact _ _ _ _ _ _ X Lk E NF) as X'.
  destruct (slow_dec hint) as [->|[->|S]]; [|congruence|].
  - injection E as <- <-. simpl in Hn. destruct ks; [|simpl in Hn; lia]. intuition.
  - rewrite !sol_msat by (apply X || apply X').
    destruct (extend_sol p g hint ks g' r X Lk S E A) as (_ & Q). apply Q.
Qed.
Theorem C39_merge : forall p g h g' r, calls p false g -> calls p false h ->
  g_merge p g h = Ret (g', r) -> accepted r ->
  forall t, solution p g' t <-> solution p g t /\ solution p h t.
Proof.
  intros p g h g' r H H' E A t. pose proof (calls_exact _ _ H) as X.
  pose proof (calls_exact _ _ H') as Xh.
  assert (NF : r <> Fatal) by (destruct A; congruence).
  pose proof (merge_exact _ _ _ _ _ X Xh E NF) as X'.
  rewrite !sol_msat by (apply X || apply X' || apply Xh).
  destruct (merge_sol p g h g' r X Xh E A) as (_ & Q). apply Q.
Qed.
(** [propagate] between instants of the graph.

    Full statement: also on a graph with bounds at the wrong infinity (refuted below; these
    graphs are excluded by the bounds of C51), and for a new instant with itself (refuted
    below). *)
Theorem C39_propagate_partial : forall p g k g' r, calls p false g -> legal k ->
  inside g k -> unsaturated p g ->
  g_propagate p g k = Ret (g', r) -> accepted r ->
  forall t, solution p g' t <-> solution p g t /\ sat k t.
Proof.
  intros p g k g' r H Lk (I1 & I2) U E A t. pose proof (calls_exact _ _ H) as X.
  pose proof (propagate_exact _ _ _ _ _ X Lk E) as X'.
  rewrite !sol_msat, sat_ksat by (apply X || apply X').
  apply unsat_below in U; [|apply X].
  eapply propagate_sol; eauto; lia.
Qed.
(** [propagate] with a new instant: no hypothesis on the graph *)
Theorem C39_propagate_new : forall p g k g' r, calls p false g -> legal k ->
  ~ inside g k -> k_from k <> k_to k ->
  g_propagate p g k = Ret (g', r) -> accepted r ->
  forall t, solution p g' t <-> solution p g t /\ sat k t.
Proof.
  intros p g k g' r H Lk In N E A t. pose proof (calls_exact _ _ H) as X.
  pose proof (propagate_exact _ _ _ _ _ X Lk E) as X'.
  rewrite !sol_msat, sat_ksat by (apply X || apply X').
  eapply propagate_new_sol; eauto. unfold inside in In. lia.
Qed.
(** A constraint is refused, or the graph is emptied, only if there is no solution. *)
Theorem C41_recovered : forall p g k g', calls p false g -> legal k ->
  g_propagate p g k = Ret (g', Recovered) ->
  g' = g /\ (k_empty k = true \/ forall t, ~ (solution p g t /\ sat k t)).
Proof.
  intros p g k g' H Lk E. pose proof (calls_exact _ _ H) as X. pose proof X as (M & _ & V).
  destruct (k_empty k) eqn:Em.
  { unfold g_propagate in E. rewrite Em in E. injection E as <-. auto. }
  split.
  - unfold g_propagate in E. rewrite Em in E. cbv zeta in E.
    destruct (g_size g <=? _) eqn:T.
    { repeat (match type of E with (_ <- ?o ;; _) = _ => destruct o; try discriminate; cbn [bind] in E end). }
    repeat (match type of E with (_ <- ?o ;; _) = _ => destruct o; try discriminate; cbn [bind] in E end).
    repeat (match type of E with
      | (if ?b then _ else _) = _ => destruct b; try discriminate
      | (_ <- ?o ;; _) = _ => destruct o; try discriminate; cbn [bind] in E end);
    injection E as <-; auto.
  - right. intros t (S & K). rewrite sol_msat in S by auto.
    destruct (propagate_complete p g k g' Recovered t M V Lk Em S K E); discriminate.
Qed.
Theorem C44_fatal : forall p g hint ks g', calls p false g -> Forall legal ks ->
  g_extend p g hint ks = Ret (g', Fatal) ->
  forall t, ~ (solution p g t /\ Forall (fun k => sat k t) ks).
Proof.
  intros p g hint ks g' H Lk E t (S & K). pose proof (calls_exact _ _ H) as X.
  pose proof X as (M & _ & V). rewrite sol_msat in S by auto.
  destruct (slow_dec hint) as [->|[->|Sl]]; [discriminate| |].
  - simpl in E. destruct ks as [|k ks]; [discriminate|].
    destruct (k_empty k) eqn:Em.
    { unfold g_propagate in E. rewrite Em in E. discriminate. }
    inversion Lk; inversion K; subst.
    destruct (propagate_complete p g k g' Fatal t M V) as [?|?]; auto; discriminate.
  - rewrite extend_slow in E by auto.
    destruct (inserted_ok p ks g) as (g1 & E1 & _ & _ & S1 & _ & _ & H1); auto.
    { apply exact_clean; auto. }
    destruct (inserts_exact p ks g X Lk) as (g1' & E1' & X1). rewrite E1 in E1'. injection E1' as <-.
    rewrite E1 in E. cbn [bind] in E. pose proof X1 as (M1 & _ & V1).
    assert (Fatal = Propagated); [|discriminate].
    eapply (global_complete p g1 g' Fatal t M1 V1); auto. apply H1. auto.
Qed.
Theorem C44_merge_fatal : forall p g h g', calls p false g -> calls p false h ->
  g_merge p g h = Ret (g', Fatal) -> forall t, ~ (solution p g t /\ solution p h t).
Proof.
  intros p g h g' H H' E t (S & S'). pose proof (calls_exact _ _ H) as X.
  pose proof (calls_exact _ _ H') as Xh. rewrite sol_msat in S, S' by (apply X || apply Xh).
  rewrite merge_unfold in E. destruct (merged_ok g h X Xh) as (X1 & Sz & Q).
  destruct (snd _); [|injection E as _ E; destruct (_ <? _); discriminate E]. pose proof X1 as (M1 & _ & V1).
  assert (Fatal = Propagated); [|discriminate].
  eapply (global_complete p _ g' Fatal t M1 V1); auto. apply Q. auto.
Qed.

Definition g39 : graph := mkG 3 [0; - oo; 0; - oo; - oo; - oo; 0; - oo; - oo].
Definition g39a : graph := mkG 3 [0; - 10; 0; 5; - oo; - oo; 0; - oo; - oo].
Definition g39b : graph := mkG 3 [0; - 10; 0; 5; - 18; - 8; 0; 7; 12].
Example C39_case : g_with_size Debug 3 = Ret g39 /\ calls Debug false g39 /\
  g_propagate Debug g39 (mkK 0 1 false 5 10) = Ret (g39a, Propagated) /\ calls Debug false g39a /\
  unsaturated Debug g39a /\ inside g39a (mkK 1 2 false 7 8) /\
  g_propagate Debug g39a (mkK 1 2 false 7 8) = Ret (g39b, Propagated) /\
  g_timespan Debug g39b 0 2 = Ret (mkI 12 18).
Proof.
  assert (C : calls Debug false g39).
  { eapply c_resize with (n := 3); [apply c_new|lia|vm_compute; reflexivity]. }
  split; [vm_compute; reflexivity|]. split; [exact C|]. split; [vm_compute; reflexivity|]. split.
  { eapply c_propagate with (k := mkK 0 1 false 5 10); [exact C| |vm_compute; reflexivity].
    unfold legal, valid, oo; simpl; lia. }
  split.
  { apply unsat_below; [split; simpl; lia|]. intros i j (Hi & Li) (Hj & Lj). simpl in Li, Lj.
    assert (i = 0 \/ i = 1 \/ i = 2) as [->|[->| ->]] by lia;
    (assert (j = 0 \/ j = 1 \/ j = 2) as [->|[->| ->]] by lia); vm_compute; reflexivity. }
  split; [unfold inside; simpl; lia|]. split; vm_compute; reflexivity.
Qed.
Example C39_case_extend :
  g_extend Debug g_default None [mkK 0 1 false 5 10; mkK 1 2 false 7 8] = Ret (g39b, Propagated) /\
  g_merge Debug g39b (mkG 2 [0; - 6; 0; - oo]) =
    Ret (mkG 3 [0; - 6; 0; 5; - 14; - 8; 0; 7; 12], Propagated) /\
  exists g3, g_extend Debug g39b None [mkK 0 2 false 0 11] = Ret (g3, Fatal).
Proof.
  split; [vm_compute; reflexivity|]. split; [vm_compute; reflexivity|].
  eexists. vm_compute. reflexivity.
Qed.

(** On a graph with a bound at the wrong infinity (0 -> 1 is at least 2^63, which is +oo),
    [propagate] loses a solution. *)
Definition sat_ks : list kons :=
  [mkK 0 2 false (2 ^ 62) oo; mkK 2 1 false (2 ^ 62) oo; mkK 0 3 false (- oo) (oo - 2)].
Definition sat_t (i : Z) : Z :=
  if i =? 0 then 0 else if i =? 1 then 2 ^ 63 else if i =? 2 then 2 ^ 62 else 2 ^ 63 - 5.
Definition sat_g : graph := mkG 4 [0; - oo; 0; oo; - oo; 2 ^ 62; 0; - oo; 2 ^ 62;
  2 - oo; 3; 2 ^ 62 - (oo - 2); 0; - oo; - oo; - oo].
Definition sat_g' : graph := mkG 4 [oo; - oo; 0; oo; - 2 ^ 62 - 2; 2 ^ 62; 0; - 2 ^ 62 - 2; oo;
  2 - oo; 3; 2 ^ 62 - (oo - 2); 0; 2 ^ 62 - 5; - 5; oo].
Lemma finite_sol : forall p g t, mem_ok g -> (solution p g t <->
  forallb (fun i => forallb (fun j => (cell g i j =? - oo) || (cell g i j <=? t j - t i))
    (zrange 0 (g_size g))) (zrange 0 (g_size g)) = true).
Proof.
  intros p g t M. rewrite sol_msat, <- tsat_msat by auto. rewrite forallb_forall. split.
  - intros H i I. apply zrange_in in I. rewrite forallb_forall. intros j J. apply zrange_in in J.
    destruct (H i j I J); lia.
  - intros H i j I J. apply zrange_in in I. apply zrange_in in J. specialize (H i I).
    rewrite forallb_forall in H. specialize (H j J). lia.
Qed.
Theorem C39_saturated_refuted : exists g k g', 
  calls Release false g /\ legal k /\ inside g k /\
  g_propagate Release g k = Ret (g', Propagated) /\
  exists t, solution Release g t /\ sat k t /\ ~ solution Release g' t.
Proof.
  assert (L : forall k, In k sat_ks -> legal k).
  { intros k [<-|[<-|[<-|[]]]]; unfold legal, valid, oo; simpl; lia. }
  exists sat_g, (mkK 1 3 false (- 5) oo), sat_g'.
  split. { eapply c_extend with (hint := None) (ks := sat_ks) (r := Propagated);
           [apply c_new|apply Forall_forall; auto|vm_compute; reflexivity|discriminate]. }
  split; [unfold legal, valid, oo; simpl; lia|]. split; [unfold inside; simpl; lia|].
  split; [vm_compute; reflexivity|]. exists sat_t.
  rewrite !finite_sol by (split; simpl; lia). split; [vm_compute; reflexivity|].
  split; [unfold sat, In_ext, sat_t, oo; simpl; lia|]. vm_compute. discriminate.
Qed.
(** A new instant with itself: a constraint without solution is accepted, and solutions are
    not kept. *)
Theorem C39_new_instant_refuted : exists k g',
  legal k /\ g_propagate Debug g_default k = Ret (g', Propagated) /\
  (forall t, ~ sat k t) /\ exists t, solution Debug g' t.
Proof.
  exists (mkK 0 0 false 5 7), (mkG 1 [- 7]). split; [unfold legal, valid, oo; simpl; lia|].
  split; [reflexivity|]. split.
  - intros t (H & _). unfold oo in H. simpl in H. lia.
  - exists (fun _ => 0). apply finite_sol; [split; simpl; lia|]. vm_compute. reflexivity.
Qed.
