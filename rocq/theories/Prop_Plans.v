(** C97: whatever the bounds and the number of constraints, a graph has the plans of the
    constraints it accepted. *)
From Verif Require Import Machine TimeValue Interval Spec SpecSets Tac TimeValueProofs Graph
  MaxPlus FwBound GraphProofs GraphOps GraphGrow GraphSafe GraphMem GraphHist GraphTight SpecGraph
  GraphInv GraphSound GraphCalls Prop_Graph Scheduler SpecSched SchedProofs Prop_SchedOrder.

(** ** Specification *)

(** A plan: dates whose differences are finite durations of the crate *)
Definition plan (t : Z -> Z) : Prop := forall i j, 0 <= i -> 0 <= j -> finite (t j - t i).
(** The constraint is between instants of the graph, or between two different instants. *)
Definition ordinary (g : graph) (k : kons) : Prop := inside g k \/ k_from k <> k_to k.

(** The graphs of the public calls that return, until a fatal inconsistency, with the
    constraints accepted since the last [reset].  No limit on the bounds.  If [lossy], instants are removed too, and
    [propagate] may be given a constraint of a new instant with itself (see C39, C45). *)
Inductive account (p : profile) (lossy : bool) : list kons -> graph -> Prop :=
| a_new : account p lossy [] g_default
| a_propagate ks g k g' r : account p lossy ks g -> legal k -> (lossy = false -> ordinary g k) ->
    g_propagate p g k = Ret (g', r) -> accepted r -> account p lossy (k :: ks) g'
| a_refused ks g k g' : account p lossy ks g -> legal k ->
    g_propagate p g k = Ret (g', Recovered) -> account p lossy ks g'
| a_extend ks g hint l g' r : account p lossy ks g -> Forall legal l -> honest hint l ->
    (lossy = false -> hint = Some 1 -> Forall (ordinary g) l) ->
    g_extend p g hint l = Ret (g', r) -> accepted r -> account p lossy (l ++ ks) g'
| a_extend_refused ks g hint l g' : account p lossy ks g -> Forall legal l ->
    g_extend p g hint l = Ret (g', Recovered) -> account p lossy ks g'
| a_merge ks g ks' h g' r : account p lossy ks g -> account p lossy ks' h ->
    g_merge p g h = Ret (g', r) -> accepted r -> account p lossy (ks ++ ks') g'
| a_resize ks g n g' : account p lossy ks g -> 0 <= n <= 65535 -> (lossy = false -> g_size g <= n) ->
    g_resize p g n = Ret g' -> account p lossy ks g'
| a_reset ks g g' : account p lossy ks g -> g_reset p g = Ret g' -> account p lossy [] g'.

(** ** Proofs *)

Lemma account_calls : forall p l ks g, account p l ks g -> calls p false g.
Proof.
  intros p l ks g H. induction H as [|ks g k g' r H IH Lk O E A|ks g k g' H IH Lk E|ks g hint ls g' r H IH Lk Hn O E A
    |ks g hint ls g' H IH Lk E|ks g ks' h g' r H IH H' IH' E A|ks g n g' H IH L O E|ks g g' H IH E].
  - apply c_new.
  - eapply c_propagate; eauto.
  - eapply c_propagate; eauto.
  - apply (c_extend p false g hint ls g' r); auto. intros ->. destruct A; discriminate.
  - apply (c_extend p false g hint ls g' Recovered); auto. discriminate.
  - apply (c_merge p false g h g' r); auto. intros ->. destruct A; discriminate.
  - eapply c_resize; eauto.
  - eapply c_reset; eauto.
Qed.

(** A graph with a plan has no bound at the wrong infinity. *)
Lemma plan_below : forall n D t, plan t -> msat n D t -> below_oo n D.
Proof.
  intros n D t P H i j Ni Nj. pose proof (P i j (proj1 Ni) (proj1 Nj)) as F. unfold finite in F.
  destruct (Z.eq_dec (D i j) (- oo)) as [E|E]; [rewrite E; unfold oo; lia|].
  assert (D i j <= t j - t i) by (apply H; auto; split; auto; lia). lia.
Qed.
Lemma propagated_plan : forall p g k g' r t, exact g -> legal k -> ordinary g k -> plan t ->
  g_propagate p g k = Ret (g', r) -> accepted r ->
  (solution p g' t <-> solution p g t /\ sat k t).
Proof.
  intros p g k g' r t X Lk O P E A. pose proof (propagate_exact _ _ _ _ _ X Lk E) as X'.
  rewrite !sol_msat, sat_ksat by (apply X || apply X').
  destruct (Z_lt_le_dec (Z.max (k_from k) (k_to k)) (g_size g)) as [L|L].
  - pose proof X as (M & _ & V). pose proof Lk as (Hf & Ht & _).
    assert (Nf : node (g_size g) (k_from k)) by (unfold node; lia).
    assert (Nt : node (g_size g) (k_to k)) by (unfold node; lia).
    pose proof (propagate_safe p g k M V Lk Nf Nt) as S. rewrite E in S. simpl in S.
    destruct r; [| |destruct A; discriminate|destruct S].
    + destruct S as (-> & H). split; [|tauto]. intros Ms. split; auto. eapply holds_ksat; eauto.
    + destruct S as (H & R). pose proof (ra_shape _ _ _ R) as (S' & _). rewrite S' in *. split.
      * intros Ms. split; [eapply raised_msat; eauto|].
        apply (holds_ksat (g_size g) (cell g')); auto. apply R.
      * intros (Hs & Hk). pose proof (plan_below _ _ _ P Hs) as B.
        apply (propagate_tsat p g k g' t); auto.
  - destruct O as [(I1 & I2)|N]; [lia|]. eapply propagate_new_sol; eauto.
Qed.
(** ... also for a new instant with itself, in one direction *)
Lemma propagated_kept : forall p g k g' r t, exact g -> legal k -> plan t ->
  g_propagate p g k = Ret (g', r) -> accepted r ->
  solution p g t -> sat k t -> solution p g' t.
Proof.
  intros p g k g' r t X Lk P E A S K. pose proof (propagate_exact _ _ _ _ _ X Lk E) as X'.
  destruct (Z_lt_le_dec (Z.max (k_from k) (k_to k)) (g_size g)) as [L|L].
  { apply (propagated_plan p g k g' r t); auto. left. unfold inside. lia. }
  rewrite sol_msat in * by (apply X || apply X'). apply sat_ksat, ksat_le in K.
  pose proof X as (M & _ & V). pose proof Lk as (Hf & Ht & _).
  destruct (k_empty k) eqn:Ek.
  { unfold g_propagate in E. rewrite Ek in E. injection E as <- <-. destruct A; discriminate. }
  destruct (propagate_new p g k M (exact_clean _ X) Lk Ek L)
    as (g2 & E2 & S2 & M2 & C2 & g1 & E1 & X1 & H).
  rewrite E in E2. injection E2 as <- ->. rewrite S2.
  set (m := Z.max (k_from k) (k_to k) + 1) in *.
  apply (extends_msat _ _ _ _ t X1) in S; [|unfold m; lia]. destruct K as (K1 & K2).
  intros a b w Na Nb (F & Q). rewrite H in * by auto.
  destruct ((a =? k_to k) && (b =? k_from k)) eqn:T1.
  { assert (a = k_to k /\ b = k_from k) as (-> & ->) by lia. lia. }
  destruct ((a =? k_from k) && (b =? k_to k)) eqn:T2.
  { assert (a = k_from k /\ b = k_to k) as (-> & ->) by lia. lia. }
  apply S; auto. split; auto.
Qed.

(** ** C97 *)

(** No plan that satisfies the accepted constraints is ever lost: whatever the bounds, the
    reported intervals contain its durations. *)
Theorem C97_kept : forall p lossy ks g t, account p lossy ks g -> plan t ->
  Forall (fun k => sat k t) ks -> solution p g t.
Proof.
  intros p lossy ks g t H P. induction H as [|ks g k g' r H IH Lk O E A|ks g k g' H IH Lk E|ks g hint ls g' r H IH Lk Hn O E A
    |ks g hint ls g' H IH Lk E|ks g ks' h g' r H IH H' IH' E A|ks g n g' H IH L O E|ks g g' H IH E]; intros F.
  - intros i j Hi. simpl in Hi. lia.
  - inversion F; subst. pose proof (calls_exact _ _ (account_calls _ _ _ _ H)) as X.
    eapply propagated_kept; eauto.
  - destruct (C41_recovered p g k g' (account_calls _ _ _ _ H) Lk E) as (-> & _). auto.
  - apply Forall_app in F. destruct F as (F & F'). pose proof (calls_exact _ _ (account_calls _ _ _ _ H)) as X.
    destruct (slow_dec hint) as [->|[->|S]].
    + injection E as <- <-. auto.
    + simpl in E. destruct ls as [|k ls]; [injection E as <- <-; auto|].
      inversion Lk; subst. inversion F; subst. eapply propagated_kept; eauto.
    + apply (C39_extend p g hint ls g' r); auto; [eapply account_calls; eauto|]. apply S.
  - destruct (slow_dec hint) as [->|[->|S]]; [discriminate| |].
    + simpl in E. destruct ls as [|k ls]; [discriminate|]. inversion Lk; subst.
      destruct (C41_recovered p g k g' (account_calls _ _ _ _ H)) as (-> & _); auto.
    + rewrite extend_slow in E by auto.
      pose proof (calls_exact _ _ (account_calls _ _ _ _ H)) as X.
      destruct (inserts_exact p ls g X Lk) as (g1 & E1 & X1). rewrite E1 in E. cbn [bind] in E.
      destruct X1 as (M1 & _ & V1). pose proof (global_safe (fun t => msat (g_size g1) (cell g1) t) p g1 M1 V1) as Sf.
      rewrite E in Sf. simpl in Sf. destruct Sf as [(Q & _)|(Q & _)]; [auto|discriminate|discriminate].
  - apply Forall_app in F. destruct F as (F & F').
    apply (C39_merge p g h g' r); auto; eapply account_calls; eauto.
  - pose proof (calls_exact _ _ (account_calls _ _ _ _ H)) as X. specialize (IH F).
    destruct (resize_exact p g n X L) as (g2 & E2 & S2 & X2 & C2). rewrite E in E2. injection E2 as <-.
    rewrite sol_msat in * by (apply X || apply X2). rewrite S2.
    intros a b w Na Nb (W & Q). rewrite C2 in * by auto. unfold node in *.
    destruct ((a <? g_size g) && (b <? g_size g)) eqn:T; [apply IH; unfold node, ent; auto; lia|].
    destruct (a =? b) eqn:T2; [|lia]. assert (a = b) by lia. subst. lia.
  - pose proof (calls_exact _ _ (account_calls _ _ _ _ H)) as (M & _).
    destruct (C38_reset p g M) as (g2 & E2 & S2 & U). rewrite E in E2. injection E2 as <-.
    intros i j Hi Hj. rewrite S2 in *. specialize (U i j Hi Hj). unfold unconstrained_between in U.
    eexists. split; [exact U|]. destruct (i =? j) eqn:T; unfold In_ext; simpl; auto.
    assert (i = j) by lia. subst. lia.
Qed.
(** Conversely, if no instant is removed, a plan within the reported intervals satisfies all
    the accepted constraints. *)
Theorem C97_exact : forall p ks g t, account p false ks g -> plan t ->
  (solution p g t <-> Forall (fun k => sat k t) ks).
Proof.
  intros p ks g t H P. split; [|apply (C97_kept p false ks g t); auto].
  induction H as [|ks g k g' r H IH Lk O E A|ks g k g' H IH Lk E|ks g hint ls g' r H IH Lk Hn O E A
    |ks g hint ls g' H IH Lk E|ks g ks' h g' r H IH H' IH' E A|ks g n g' H IH L O E|ks g g' H IH E]; intros F; auto.
  - pose proof (calls_exact _ _ (account_calls _ _ _ _ H)) as X.
    apply (propagated_plan p g k g' r t) in F; auto. constructor; tauto.
  - destruct (C41_recovered p g k g' (account_calls _ _ _ _ H) Lk E) as (-> & _). auto.
  - pose proof (calls_exact _ _ (account_calls _ _ _ _ H)) as X. apply Forall_app.
    destruct (slow_dec hint) as [->|[->|S]].
    + injection E as <- <-. destruct ls; [auto|simpl in Hn; lia].
    + simpl in E. destruct ls as [|k ls]; [injection E as <- <-; auto|].
      destruct ls; [|simpl in Hn; lia]. inversion Lk; subst.
      specialize (O eq_refl eq_refl). inversion O; subst.
      apply (propagated_plan p g k g' r t) in F; auto. destruct F. split; auto.
    + apply (C39_extend p g hint ls g' r) in F; auto; [|eapply account_calls; eauto|apply S]. tauto.
  - destruct (slow_dec hint) as [->|[->|S]]; [discriminate| |].
    + simpl in E. destruct ls as [|k ls]; [discriminate|]. inversion Lk; subst.
      destruct (C41_recovered p g k g' (account_calls _ _ _ _ H)) as (-> & _); auto.
    + rewrite extend_slow in E by auto.
      pose proof (calls_exact _ _ (account_calls _ _ _ _ H)) as X.
      destruct (inserts_exact p ls g X Lk) as (g1 & E1 & X1). rewrite E1 in E. cbn [bind] in E.
      destruct X1 as (M1 & _ & V1). pose proof (global_safe (fun t => msat (g_size g1) (cell g1) t) p g1 M1 V1) as Sf.
      rewrite E in Sf. simpl in Sf. destruct Sf as [(Q & _)|(Q & _)]; [auto|discriminate|discriminate].
  - apply Forall_app. apply (C39_merge p g h g' r) in F; auto; try (eapply account_calls; eauto). tauto.
  - apply IH. destruct (C38_grow p g n (account_calls _ _ _ _ H)) as (g2 & E2 & S2 & K & _); [lia|].
    rewrite E in E2. injection E2 as <-. intros i j Hi Hj. specialize (O eq_refl).
    rewrite <- K by auto. apply F; lia.
Qed.
(** A constraint is refused, or the graph is emptied, only if no plan satisfies it with the
    constraints accepted so far. *)
Theorem C97_refused : forall p lossy ks g, account p lossy ks g ->
  (forall k g', legal k -> k_empty k = false -> g_propagate p g k = Ret (g', Recovered) ->
     forall t, plan t -> Forall (fun k => sat k t) ks -> ~ sat k t) /\
  (forall hint l g', Forall legal l -> g_extend p g hint l = Ret (g', Fatal) ->
     forall t, plan t -> Forall (fun k => sat k t) ks -> ~ Forall (fun k => sat k t) l) /\
  (forall ks' h g', account p lossy ks' h -> g_merge p g h = Ret (g', Fatal) ->
     forall t, plan t -> Forall (fun k => sat k t) ks -> ~ Forall (fun k => sat k t) ks').
Proof.
  intros p lossy ks g H. pose proof (account_calls _ _ _ _ H) as C. split; [|split].
  - intros k g' Lk Ek E t P F K. destruct (C41_recovered p g k g' C Lk E) as (_ & [X|X]); [congruence|].
    apply (X t). split; auto. eapply C97_kept; eauto.
  - intros hint l g' Lk E t P F K. apply (C44_fatal p g hint l g' C Lk E t). split; auto. eapply C97_kept; eauto.
  - intros ks' h g' H' E t P F K. apply (C44_merge_fatal p g h g' C (account_calls _ _ _ _ H') E t).
    split; eapply C97_kept; eauto.
Qed.
(** [Unchanged] is answered only if every plan of the accepted constraints satisfies the new one. *)
Theorem C97_unchanged : forall p ks g k g', account p false ks g -> legal k -> ordinary g k ->
  g_propagate p g k = Ret (g', Unchanged) ->
  forall t, plan t -> Forall (fun k => sat k t) ks -> sat k t.
Proof.
  intros p ks g k g' H Lk O E t P F. pose proof (calls_exact _ _ (account_calls _ _ _ _ H)) as X.
  assert (A : accepted Unchanged) by (left; auto).
  assert (H' : account p false (k :: ks) g) .
  { assert (g' = g) as <-; [|eapply a_propagate; eauto].
    unfold g_propagate in E. destruct (k_empty k); [discriminate|]. cbv zeta in E.
    repeat (match type of E with
      | (_ <- ?o ;; _) = _ => destruct o; try discriminate; cbn [bind] in E
      | (if ?b then _ else _) = _ => destruct b; try discriminate
      end); try (injection E as <-; auto). }
  apply (C97_exact p (k :: ks) g t) in H'; auto. apply (C97_exact p ks g t) in H; auto.
  rewrite H' in H. apply H in F. inversion F; auto.
Qed.

(** *** The calls return *)

Lemma ofold_total : forall A B (f : A -> B -> outcome A) (I : A -> Prop) l s, I s ->
  (forall x s, In x l -> I s -> exists s', f s x = Ret s' /\ I s') ->
  exists s', ofold f s l = Ret s' /\ I s'.
Proof.
  intros A B f I. induction l as [|x l IH]; intros s Is H; simpl; [eauto|].
  destruct (H x s (or_introl eq_refl) Is) as (s1 & -> & I1). cbn [bind]. apply IH; auto.
  intros y s2 Hy. apply H. simpl. auto.
Qed.

Section Total.
Variables (p : profile) (n : Z) (t : Z -> Z).
Hypothesis P : plan t.

(** the value is below the duration from [i] to [j] in the plan *)
Definition ok_val (i j v : Z) : Prop := valid v /\ (v = - oo \/ v <= t j - t i).
Definition pst (s : graph) : Prop := mem_ok s /\ g_size s = n /\ forall i j, node n i -> node n j -> ok_val i j (cell s i j).

Lemma ok_add : forall i k j a b, node n i -> node n k -> node n j -> ok_val i k a -> ok_val k j b ->
  exists v, tv_add a b = Ret v /\ ok_val i j v.
Proof.
  intros i k j a b Ni Nk Nj (Va & Ha) (Vb & Hb).
  pose proof (P i k (proj1 Ni) (proj1 Nk)) as F1. pose proof (P k j (proj1 Nk) (proj1 Nj)) as F2.
  rewrite tv_add_spec by auto. unfold finite, valid in *.
  assert (a < oo) by (unfold oo in *; lia). assert (b < oo) by (unfold oo in *; lia).
  replace (a =? oo) with false by lia. replace (b =? oo) with false by lia.
  rewrite Bool.andb_false_r. cbn.
  destruct ((a =? - oo) || (b =? - oo)) eqn:T; eexists; (split; [reflexivity|]).
  - split; auto. unfold valid, oo. lia.
  - split; [apply clamp_valid|]. unfold clamp, oo in *. lia.
Qed.
Lemma pst_raise : forall s i j v, pst s -> node n i -> node n j -> ok_val i j v ->
  exists s', g_raise p s i j v = Ret s' /\ pst s'.
Proof.
  intros s i j v (M & S & V) Ni Nj Hv. rewrite <- S in Ni, Nj.
  destruct (g_raise_ok p s i j v M Ni Nj) as (s2 & E2 & Sh & C). exists s2. split; auto.
  split; [eapply same_shape_mem; eauto|]. split; [rewrite <- S; apply Sh|].
  intros x y Nx Ny. rewrite C by (apply Nx || apply Ny).
  destruct ((x =? i) && (y =? j)) eqn:T; [|auto].
  assert (x = i /\ y = j) as (-> & ->) by lia. pose proof (V i j Nx Ny) as H.
  unfold ok_val, valid in *. lia.
Qed.
Lemma pst_set : forall s i j v, pst s -> node n i -> node n j -> ok_val i j v ->
  exists s', g_set p s i j v = Ret s' /\ pst s'.
Proof.
  intros s i j v (M & S & V) Ni Nj Hv. rewrite <- S in Ni, Nj.
  destruct (g_set_ok p s i j v M Ni Nj) as (s2 & E2 & Sh & C). exists s2. split; auto.
  split; [eapply same_shape_mem; eauto|]. split; [rewrite <- S; apply Sh|].
  intros x y Nx Ny. rewrite C by (apply Nx || apply Ny).
  destruct ((x =? i) && (y =? j)) eqn:T; [|auto].
  assert (x = i /\ y = j) as (-> & ->) by lia. auto.
Qed.
Lemma pst_lower : forall s i j, pst s -> node n i -> node n j ->
  g_lower p s i j = Ret (cell s i j) /\ ok_val i j (cell s i j).
Proof. intros s i j (M & S & V) Ni Nj. rewrite g_lower_ok by (auto; rewrite S; auto). auto. Qed.
Lemma pst_step : forall s i k j a b, pst s -> node n i -> node n k -> node n j -> ok_val i k a -> ok_val k j b ->
  exists s', (val <- tv_add a b ;; g_raise p s i j val) = Ret s' /\ pst s'.
Proof.
  intros s i k j a b Ps Ni Nk Nj Ha Hb. destruct (ok_add i k j a b) as (v & -> & Hv); auto.
  cbn [bind]. apply pst_raise; auto.
Qed.
Lemma pst_size : forall s, pst s -> g_size s = n.
Proof. intros s H. apply H. Qed.
Lemma pst_plb : forall s io jo, pst s -> node n io -> node n jo -> exists s', g_plb p s io jo = Ret s' /\ pst s'.
Proof.
  intros s io jo Ps Ni Nj. unfold g_plb. destruct (pst_lower s io jo Ps Ni Nj) as (-> & Hv). cbn [bind].
  match goal with |- context [ofold ?f s (zrange 0 (g_size s))] =>
    destruct (ofold_total _ _ f pst (zrange 0 (g_size s)) s Ps) as (s1 & -> & P1) end.
  { intros i x Hi Px. rewrite (pst_size s Ps) in Hi. apply zrange_in in Hi.
    destruct (pst_lower x i io Px Hi Ni) as (-> & Ha). cbn [bind]. apply (pst_step x i io jo); auto. }
  cbn [bind]. apply ofold_total; auto.
  intros j x Hj Px. rewrite (pst_size s1 P1) in Hj. apply zrange_in in Hj.
  destruct (pst_lower x j jo Px Hj Nj) as (-> & Ha). cbn [bind]. apply ofold_total; auto.
  intros i y Hi Py. rewrite (pst_size x Px) in Hi. apply zrange_in in Hi.
  destruct (pst_lower y jo i Py Nj Hi) as (-> & Hb). cbn [bind]. apply (pst_step y j jo i); auto.
Qed.
Lemma pst_row : forall s k i, pst s -> node n k -> node n i -> exists s', g_gp_row p s k i = Ret s' /\ pst s'.
Proof.
  intros s k i Ps Nk Ni. unfold g_gp_row. apply ofold_total; auto.
  intros j x Hj Px. rewrite (pst_size s Ps) in Hj. apply zrange_in in Hj.
  destruct (pst_lower x i k Px Ni Nk) as (-> & Ha). cbn [bind].
  destruct (pst_lower x k j Px Nk Hj) as (-> & Hb). cbn [bind]. apply (pst_step x i k j); auto.
Qed.
Lemma pst_rows : forall k is s, pst s -> node n k -> (forall i, In i is -> node n i) ->
  exists s', g_gp_rows p s k is = Ret (s', true) /\ pst s'.
Proof.
  intros k. induction is as [|i is IH]; intros s Ps Nk H; simpl; [eauto|].
  assert (Ni : node n i) by (apply H; simpl; auto).
  destruct (pst_row s k i Ps Nk Ni) as (s1 & -> & P1). cbn [bind].
  destruct (pst_lower s1 i i P1 Ni Ni) as (-> & (V & Hd)). cbn [bind].
  assert (is_strictly_positive (cell s1 i i) = false) as ->.
  { unfold is_strictly_positive. unfold oo in *. lia. }
  apply IH; auto. intros x Hx. apply H. simpl. auto.
Qed.
Lemma pst_turns : forall ks s, pst s -> (forall i, In i ks -> node n i) ->
  exists s', g_gp_turns p s ks = Ret (s', Propagated) /\ pst s'.
Proof.
  induction ks as [|k ks IH]; intros s Ps H; simpl; [eauto|].
  destruct (pst_rows k (zrange 0 (g_size s)) s Ps) as (s1 & -> & P1).
  { apply H. simpl. auto. }
  { intros i Hi. rewrite (pst_size s Ps) in Hi. apply zrange_in in Hi. auto. }
  cbn [bind]. apply IH; auto. intros i Hi. apply H. simpl. auto.
Qed.
Lemma pst_global : forall s, pst s -> exists s', g_global p s = Ret (s', Propagated) /\ pst s'.
Proof.
  intros s Ps. unfold g_global. apply pst_turns; auto.
  intros i Hi. rewrite (pst_size s Ps) in Hi. apply zrange_in in Hi. auto.
Qed.
Lemma pst_propagate : forall s k, pst s -> legal k -> k_empty k = false -> sat k t ->
  node n (k_from k) -> node n (k_to k) ->
  exists s' r, g_propagate p s k = Ret (s', r) /\ accepted r.
Proof.
  intros s k Ps (_ & _ & Vl & Vu) Ek K Nf Nt. unfold g_propagate. rewrite Ek. cbv zeta.
  rewrite (pst_size s Ps). unfold node in Nf, Nt. replace (n <=? Z.max _ _) with false by lia.
  assert (Hl : ok_val (k_from k) (k_to k) (k_lo k)).
  { split; auto. destruct K as ([K|K] & _); simpl in K; auto. }
  assert (Hu : ok_val (k_to k) (k_from k) (tv_neg (k_up k))).
  { unfold tv_neg. split; [unfold valid in *; lia|]. destruct K as (_ & [K|K]); simpl in K; [left|right]; lia. }
  destruct (pst_lower s (k_from k) (k_to k) Ps Nf Nt) as (-> & (V1 & H1)). cbn [bind].
  destruct (pst_lower s (k_to k) (k_from k) Ps Nt Nf) as (-> & (V2 & H2)). cbn [bind].
  pose proof (P (k_from k) (k_to k) (proj1 Nf) (proj1 Nt)) as Fp.
  destruct Hl as (_ & Hl'). destruct Hu as (_ & Hu'). unfold tv_neg in *. unfold finite, valid, oo in *.
  assert (acc : accepted Unchanged /\ accepted Propagated) by (split; [left|right]; auto). destruct acc as (AU & AP).
  assert (Hl : ok_val (k_from k) (k_to k) (k_lo k)) by (split; auto).
  assert (Hu : ok_val (k_to k) (k_from k) (- k_up k)) by (split; [unfold valid, oo|]; auto; lia).
  destruct (k_lo k <=? cell s (k_from k) (k_to k)) eqn:T1.
  - destruct (- k_up k <=? cell s (k_to k) (k_from k)) eqn:T2; [eauto|].
    replace (k_up k <? cell s (k_from k) (k_to k)) with false by lia.
    destruct (pst_set s (k_to k) (k_from k) (- k_up k) Ps Nt Nf Hu) as (s1 & -> & P1). cbn [bind].
    destruct (pst_plb s1 (k_to k) (k_from k) P1 Nt Nf) as (s2 & -> & P2). cbn [bind]. eauto.
  - replace (- k_lo k <? cell s (k_to k) (k_from k)) with false by lia.
    destruct (pst_set s (k_from k) (k_to k) (k_lo k) Ps Nf Nt Hl) as (s1 & -> & P1). cbn [bind].
    destruct (pst_plb s1 (k_from k) (k_to k) P1 Nf Nt) as (s2 & -> & P2). cbn [bind].
    destruct (pst_lower s2 (k_to k) (k_from k) P2 Nt Nf) as (-> & _). cbn [bind].
    destruct (_ <? _); [|eauto].
    destruct (pst_set s2 (k_to k) (k_from k) (- k_up k) P2 Nt Nf Hu) as (s3 & -> & P3). cbn [bind].
    destruct (pst_plb s3 (k_to k) (k_from k) P3 Nt Nf) as (s4 & -> & P4). cbn [bind]. eauto.
Qed.
End Total.

Lemma solution_pst : forall p g t, exact g -> solution p g t -> pst (g_size g) t g.
Proof.
  intros p g t X S. pose proof X as (M & _ & V). rewrite sol_msat in S by auto. apply tsat_msat in S.
  split; auto. split; auto. intros i j Ni Nj. split; auto.
Qed.

(** As long as some plan satisfies the constraints, old and new, the calls return and accept
    them, in debug builds too. *)
Theorem C97_accepted : forall p lossy ks g t, account p lossy ks g -> plan t -> Forall (fun k => sat k t) ks ->
  (forall k, legal k -> k_empty k = false -> sat k t ->
     exists g' r, g_propagate p g k = Ret (g', r) /\ accepted r) /\
  (forall hint l, Forall legal l -> Forall (fun k => k_empty k = false /\ sat k t) l ->
     exists g' r, g_extend p g hint l = Ret (g', r) /\ accepted r) /\
  (forall ks' h, account p lossy ks' h -> Forall (fun k => sat k t) ks' ->
     exists g' r, g_merge p g h = Ret (g', r) /\ accepted r).
Proof.
  intros p lossy ks g t H P F. pose proof (account_calls _ _ _ _ H) as C. pose proof (calls_exact _ _ C) as X.
  pose proof (C97_kept p lossy ks g t H P F) as S. pose proof (solution_pst p g t X S) as Ps.
  assert (Pr : forall k, legal k -> k_empty k = false -> sat k t ->
     exists g' r, g_propagate p g k = Ret (g', r) /\ accepted r).
  { intros k Lk Ek K. destruct (Z_lt_le_dec (Z.max (k_from k) (k_to k)) (g_size g)) as [L|L].
    - pose proof Lk as (Hf & Ht & _). apply (pst_propagate p (g_size g) t P); auto; unfold node; lia.
    - pose proof X as (M & _). destruct (propagate_new p g k M (exact_clean _ X) Lk Ek L) as (g2 & E2 & _).
      exists g2, Propagated. split; auto. right. auto. }
  split; auto. split.
  - intros hint l Ll K. destruct (slow_dec hint) as [->|[->|Sl]].
    + exists g, Unchanged. split; auto. left. auto.
    + simpl. destruct l as [|k l]; [exists g, Unchanged; split; auto; left; auto|].
      inversion Ll; inversion K; subst. apply Pr; tauto.
    + rewrite extend_slow by auto.
      destruct (inserted_ok p l g) as (g1 & E1 & _ & _ & S1 & _ & _ & H1); try apply X; auto.
      { apply exact_clean; auto. }
      destruct (inserts_exact p l g X Ll) as (g1' & E1' & X1). rewrite E1 in E1'. injection E1' as <-.
      rewrite E1. cbn [bind].
      assert (S' : solution p g1 t).
      { rewrite sol_msat in * by (apply X || apply X1). apply H1. split; auto.
        apply Forall_forall. intros k Hk. rewrite Forall_forall in K. apply sat_ksat, K, Hk. }
      destruct (pst_global p (g_size g1) t P g1 (solution_pst p g1 t X1 S')) as (g2 & -> & _).
      exists g2, Propagated. split; auto. right. auto.
  - intros ks' h H' F'. pose proof (calls_exact _ _ (account_calls _ _ _ _ H')) as Xh.
    pose proof (C97_kept p lossy ks' h t H' P F') as Sh.
    rewrite merge_unfold. destruct (merged_ok g h X Xh) as (X1 & S1 & H1).
    destruct (snd _).
    + match goal with |- context [g_global p ?a] => set (a1 := a) in * end.
      assert (S' : solution p a1 t).
      { rewrite sol_msat in * by (apply X || apply X1 || apply Xh). apply H1. auto. }
      destruct (pst_global p (g_size a1) t P a1 (solution_pst p a1 t X1 S')) as (g2 & -> & _).
      exists g2, Propagated. split; auto. right. auto.
    + eexists. eexists. split; [reflexivity|]. destruct (_ <? _); [right|left]; auto.
Qed.

(** ** The scheduler of such a graph *)

(** Its schedules which are plans are those that satisfy the constraints given to the graph
    and the restrictions given to the scheduler. *)
Theorem C97_schedules : forall p lossy ks g rs s t, account p lossy ks g ->
  (exists t0, plan t0 /\ Forall (fun k => sat k t0) ks) -> made p g usual rs s -> plan t ->
  (Forall (fun k => sat k t) ks -> (forall i, 0 <= i < g_size g -> finite (t i)) -> Forall (meets g t) rs -> schedule p s t) /\
  (schedule p s t -> (lossy = false -> Forall (fun k => sat k t) ks) /\ Forall (meets g t) rs).
Proof.
  intros p lossy ks g rs s t H (t0 & P0 & F0) Ma P.
  pose proof (calls_exact _ _ (account_calls _ _ _ _ H)) as X. pose proof X as (M & _ & V).
  pose proof (C97_kept p lossy ks g t0 H P0 F0) as S0.
  assert (Pr : proper p g).
  { intros i j Hi Hj. destruct (S0 i j Hi Hj) as (iv & E & I). exists iv. split; auto.
    rewrite timespan_ok in E by auto. injection E as <-. pose proof (P0 i j (proj1 Hi) (proj1 Hj)) as Fi.
    pose proof (V i j Hi Hj) as V1. pose proof (V j i Hj Hi) as V2.
    unfold wf_iv, In_ext, finite, valid, oo in *. simpl in *. lia. }
  pose proof (C76_schedules p g rs s t M Pr Ma) as Q. split.
  - intros F Fi Me. apply Q. split; auto. eapply C97_kept; eauto.
  - intros S. apply Q in S. destruct S as (S & _ & Me). split; auto. intros ->. eapply C97_exact; eauto.
Qed.

(** ** Examples *)

(** Sums of these bounds leave the time values; the limits of C51 do not hold. *)
Definition ka : kons := mkK 0 1 false (2 ^ 61) (2 ^ 62).
Definition kb : kons := mkK 1 2 false (2 ^ 61) (2 ^ 62).
Definition kc : kons := mkK 0 2 false 0 (2 ^ 61).
Definition big0 : graph := mkG 3 [0; - oo; 0; - oo; - oo; - oo; 0; - oo; - oo].
Definition big1 : graph := mkG 3 [0; - 2 ^ 62; 0; 2 ^ 61; - oo; - oo; 0; - oo; - oo].
Definition big2 : graph := mkG 3 [0; - 2 ^ 62; 0; 2 ^ 61; - oo; - 2 ^ 62; 0; 2 ^ 61; 2 ^ 62].
Definition big_t (i : Z) : Z := 2 ^ 61 * Z.min i 2.
Lemma big_plan : plan big_t.
Proof. intros i j Hi Hj. unfold big_t, finite, oo. nia. Qed.
Lemma big2_account : forall p, account p false [kb; ka] big2.
Proof.
  intros p.
  assert (A0 : account p false [] big0).
  { apply (a_resize p false [] g_default 3); [apply a_new|lia|simpl; lia|]. destruct p; vm_compute; reflexivity. }
  assert (A1 : account p false [ka] big1).
  { apply (a_propagate p false [] big0 ka big1 Propagated); [assumption| | | |].
    - unfold legal, valid, oo; simpl. lia.
    - intros _. left. unfold inside. simpl. lia.
    - destruct p; vm_compute; reflexivity.
    - right. auto. }
  apply (a_propagate p false [ka] big1 kb big2 Propagated); [assumption| | | |].
  - unfold legal, valid, oo; simpl. lia.
  - intros _. left. unfold inside. simpl. lia.
  - destruct p; vm_compute; reflexivity.
  - right. auto.
Qed.
Example C97_case : forall p, account p false [kb; ka] big2 /\ plan big_t /\ Forall (fun k => sat k big_t) [kb; ka] /\
  (forall N B, Forall (good N B) [kb; ka] -> ~ room N B) /\
  solution p big2 big_t /\ g_timespan p big2 0 2 = Ret (mkI (2 ^ 62) oo) /\
  g_propagate p big2 kc = Ret (big2, Recovered) /\ legal kc /\ ordinary big2 kc.
Proof.
  intros p. pose proof big_plan as P. pose proof (big2_account p) as A.
  assert (F : Forall (fun k => sat k big_t) [kb; ka]).
  { constructor; [|constructor; auto]; unfold sat, In_ext, big_t, oo; simpl; lia. }
  split; auto. split; auto. split; auto. split.
  { intros N B G (B0 & (N0 & _) & R). inversion G as [|? ? (_ & _ & _ & ? & _ & W) ?]; subst. simpl in *.
    unfold within, oo in *. nia. }
  split; [eapply C97_kept; eauto|]. split; [destruct p; vm_compute; reflexivity|].
  split; [destruct p; vm_compute; reflexivity|]. split; [unfold legal, valid, oo; simpl; lia|].
  left. unfold inside. simpl. lia.
Qed.
Example C97_case_accepted : forall p, exists g' h, 
  g_extend p big2 None [mkK 3 0 false (- oo) (- 2 ^ 62); mkK 3 2 false (- 2 ^ 61) (2 ^ 61)] = Ret (g', Propagated) /\
  plan (fun i => 2 ^ 61 * Z.min i 3) /\
  Forall (fun k => sat k (fun i => 2 ^ 61 * Z.min i 3)) [kb; ka; mkK 3 0 false (- oo) (- 2 ^ 62); mkK 3 2 false (- 2 ^ 61) (2 ^ 61)] /\
  g_with_size p 2 = Ret h /\ g_merge p big2 h = Ret (big2, Unchanged).
Proof.
  intros p. eexists. exists (mkG 2 [0; - oo; 0; - oo]). split; [destruct p; vm_compute; reflexivity|]. split.
  { intros i j Hi Hj. unfold finite, oo. nia. }
  split; [repeat (constructor; [unfold sat, In_ext, oo; simpl; lia|]); constructor|].
  split; destruct p; vm_compute; reflexivity.
Qed.

(** Constraints without plan may be accepted: here an instant is at least 2^63 ticks after
    another one, which no duration can tell. *)
Theorem C97_no_plan_refuted : exists ks g, (forall p, account p false ks g) /\
  (exists t, Forall (fun k => sat k t) ks) /\ forall t, plan t -> ~ Forall (fun k => sat k t) ks.
Proof.
  exists ([mkK 0 2 false (2 ^ 62) oo; mkK 2 1 false (2 ^ 62) oo] ++ []),
    (mkG 3 [0; - oo; 0; oo; - oo; 2 ^ 62; 0; - oo; 2 ^ 62]).
  split; [|split].
  - intros p. apply (a_extend p false [] g_default None _ _ Propagated); [apply a_new| | |discriminate| |right; auto].
    + repeat (constructor; [unfold legal, valid, oo; simpl; lia|]). constructor.
    + simpl. auto.
    + destruct p; vm_compute; reflexivity.
  - exists (fun i => if i =? 0 then 0 else if i =? 2 then 2 ^ 62 else 2 ^ 63).
    repeat (constructor; [unfold sat, In_ext, oo; simpl; lia|]). constructor.
  - intros t P F. inversion F as [|? ? (K & _) F']; subst. inversion F' as [|? ? (K' & _) _]; subst.
    pose proof (P 0 1 ltac:(lia) ltac:(lia)) as X. unfold finite, oo in *. simpl in *. lia.
Qed.
