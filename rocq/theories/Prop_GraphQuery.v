(** C81: the queries of a graph agree with each other. *)
From Verif Require Import Machine TimeValue Interval Spec SpecSets Tac TimeValueProofs Graph
  GraphProofs SpecGraph Prop_Graph Prop_Propagation.

(** Exchanging the instants negates the interval (any graph, any pair). *)
Theorem C81_reverse : forall p g i j, stored g -> 0 <= i -> 0 <= j ->
  exists iv, g_timespan p g i j = Ret iv /\ g_timespan p g j i = Ret (iv_neg iv).
Proof.
  intros p g i j S Hi Hj. destruct (Z_lt_le_dec (Z.max i j) (g_size g)).
  - destruct (C36_timespan p g i j S) as (a & b & A & B & E); try lia.
    destruct (C36_timespan p g j i S) as (b' & a' & B' & A' & E'); try lia.
    assert (a' = a) as -> by congruence. assert (b' = b) as -> by congruence.
    exists (mkI a (- b)). split; auto. rewrite E'. unfold iv_neg, tv_neg. cbn [lower upper].
    now rewrite Z.opp_involutive.
  - exists (mkI (- oo) oo). rewrite !C38_outside by lia. auto.
Qed.
Example C81_reverse_case : stored h3 /\ g_timespan Debug h3 0 2 = Ret (mkI 12 18) /\
  g_timespan Debug h3 2 0 = Ret (mkI (-18) (-12)).
Proof. split; [unfold stored; simpl; lia|]. split; reflexivity. Qed.

(** Two instants are distinct exactly if one is known to be before the other (any graph). *)
Theorem C81_distinct_cmp : forall p g i j, stored g -> 0 <= i -> 0 <= j ->
  exists c, g_instant_cmp p g i j = Ret c /\
    (g_are_distinct p g i j = Ret true <-> c = Some Lt \/ c = Some Gt) /\
    (g_are_distinct p g i j = Ret false <-> c = None \/ c = Some Eq).
Proof.
  intros p g i j S Hi Hj. unfold g_instant_cmp, g_are_distinct, g_constraint.
  destruct ((g_size g <=? i) || (g_size g <=? j)) eqn:Q.
  - exists None. split; [reflexivity|]. cbn. split; (split; [|intros [X|X]]; try discriminate; auto).
  - apply Bool.orb_false_iff in Q as (Q1 & Q2).
    destruct (C36_timespan p g i j S) as (a & b & A & B & E); try lia.
    unfold k_of_graph. rewrite A, B. cbn [bind]. unfold k_is_all, is_past_infinite, is_future_infinite,
      is_strictly_positive, is_strictly_negative, tv_neg. cbn [k_lo k_up]. fold oo.
    change INF with oo.
    destruct ((a =? - oo) && (- b =? oo)) eqn:K; cbn [k_lo k_up];
      destruct (0 <? a) eqn:PA; destruct (0 <? b) eqn:PB;
      try (assert (- b <? 0 = true) as -> by lia); try (assert (- b <? 0 = false) as -> by lia);
      try (exfalso; unfold oo in *; lia);
      try (destruct ((a =? 0) && (b =? 0))); eexists; (split; [reflexivity|]); cbn;
      split; (split; [|intros [X|X]]); try discriminate; auto.
Qed.
Example C81_distinct_cmp_case : g_instant_cmp Debug h3 0 2 = Ret (Some Lt) /\ g_are_distinct Debug h3 0 2 = Ret true /\
  g_instant_cmp Debug h3 1 1 = Ret (Some Eq) /\ g_are_distinct Debug h3 1 1 = Ret false.
Proof. repeat split. Qed.

Section Hist.
Variables (p : profile) (N B : Z) (ks : list kons) (g : graph).
Hypotheses (R : room N B) (H : history p N B ks g).

(** The next ones are partial: same limits as C40_minimal_partial, and refuted below on graphs
    grown by [propagate]. *)

(** An instant is at distance zero of itself. *)
Theorem C81_self_partial : forall i, 0 <= i < g_size g -> g_timespan p g i i = Ret (mkI 0 0).
Proof.
  intros i Hi. destruct (C40_minimal_partial p N B ks g R H i i Hi Hi) as (iv & E & L & Q).
  destruct (C40_solutions_partial p N B ks g (fun _ => 0) R H) as (_ & _ & (t & T)).
  apply (C40_solutions_partial p N B ks g t R H) in T.
  assert (I0 : In_ext 0 iv) by (apply Q; exists t; split; auto; lia).
  assert (I1 : ~ In_ext 1 iv) by (intros X; apply Q in X as (u & _ & X); lia).
  assert (I2 : ~ In_ext (-1) iv) by (intros X; apply Q in X as (u & _ & X); lia).
  rewrite E. f_equal. destruct iv as [a b]. unfold In_ext in *. cbn [lower upper] in *.
  f_equal; unfold oo in *; lia.
Qed.

(** The way from [i] to [k] through [j] never tells more than the direct one. *)
Theorem C81_triangle_partial : forall i j k, 0 <= i < g_size g -> 0 <= j < g_size g -> 0 <= k < g_size g ->
  exists a b c, g_timespan p g i j = Ret a /\ g_timespan p g j k = Ret b /\ g_timespan p g i k = Ret c /\
    forall v, In_ext v c -> exists x y, In_ext x a /\ In_ext y b /\ v = x + y.
Proof.
  intros i j k Hi Hj Hk.
  destruct (C40_minimal_partial p N B ks g R H i j Hi Hj) as (a & Ea & _ & Qa).
  destruct (C40_minimal_partial p N B ks g R H j k Hj Hk) as (b & Eb & _ & Qb).
  destruct (C40_minimal_partial p N B ks g R H i k Hi Hk) as (c & Ec & _ & Qc).
  exists a, b, c. split; auto. split; auto. split; auto.
  intros v V. apply Qc in V as (t & T & <-). exists (t j - t i), (t k - t j).
  split; [apply Qa; eauto|]. split; [apply Qb; eauto|]. lia.
Qed.

(** [instant_cmp] is a partial order of the instants. *)
Lemma some_sol : exists t, solution p g t.
Proof. exact (proj2 (proj2 (C40_solutions_partial p N B ks g (fun _ => 0) R H))). Qed.

Theorem C81_cmp_partial : forall i j k, 0 <= i < g_size g -> 0 <= j < g_size g -> 0 <= k < g_size g ->
  exists a b c, g_instant_cmp p g i j = Ret a /\ g_instant_cmp p g j k = Ret b /\ g_instant_cmp p g i k = Ret c /\
    g_instant_cmp p g i i = Ret (Some Eq) /\
    g_instant_cmp p g j i = Ret (option_map CompOpp a) /\
    (a = Some Eq -> c = b) /\ (b = Some Eq -> c = a) /\
    (a = Some Lt -> b = Some Lt -> c = Some Lt) /\ (a = Some Gt -> b = Some Gt -> c = Some Gt).
Proof.
  intros i j k Hi Hj Hk. destruct some_sol as (t0 & T0).
  destruct (C49_instant_cmp_partial p N B ks g i j R H Hi Hj) as (a & Ea & La & Ga & Qa).
  destruct (C49_instant_cmp_partial p N B ks g j k R H Hj Hk) as (b & Eb & Lb & Gb & Qb).
  destruct (C49_instant_cmp_partial p N B ks g i k R H Hi Hk) as (c & Ec & Lc & Gc & Qc).
  destruct (C49_instant_cmp_partial p N B ks g i i R H Hi Hi) as (d & Ed & _ & _ & Qd).
  destruct (C49_instant_cmp_partial p N B ks g j i R H Hj Hi) as (e & Ee & Le & Ge & Qe).
  assert (S : forall x y : option comparison, (x = Some Lt <-> y = Some Lt) -> (x = Some Gt <-> y = Some Gt) ->
    (x = Some Eq <-> y = Some Eq) -> x = y).
  { intros [[]|] [[]|] X Y Z; intuition discriminate || auto;
      destruct X as (X1 & X2), Y as (Y1 & Y2), Z as (Z1 & Z2);
      first [discriminate (X1 eq_refl)|discriminate (X2 eq_refl)|discriminate (Y1 eq_refl)
            |discriminate (Y2 eq_refl)|discriminate (Z1 eq_refl)|discriminate (Z2 eq_refl)]. }
  exists a, b, c. split; auto. split; auto. split; auto.
  split. { rewrite Ed. f_equal. apply Qd. auto. }
  split.
  { rewrite Ee. f_equal. apply S.
    - rewrite Le. transitivity (a = Some Gt).
      + rewrite Ga. split; intros X t T; specialize (X t T); lia.
      + destruct a as [[]|]; cbn; split; congruence.
    - rewrite Ge. transitivity (a = Some Lt).
      + rewrite La. split; intros X t T; specialize (X t T); lia.
      + destruct a as [[]|]; cbn; split; congruence.
    - rewrite Qe. transitivity (a = Some Eq).
      + rewrite Qa. split; intros X t T; specialize (X t T); lia.
      + destruct a as [[]|]; cbn; split; congruence. }
  split. { intros A. pose proof (proj1 Qa A) as X. apply S; [rewrite Lc, Lb|rewrite Gc, Gb|rewrite Qc, Qb];
    split; intros Y t T; specialize (X t T); specialize (Y t T); lia. }
  split. { intros A. pose proof (proj1 Qb A) as X. apply S; [rewrite Lc, La|rewrite Gc, Ga|rewrite Qc, Qa];
    split; intros Y t T; specialize (X t T); specialize (Y t T); lia. }
  split; intros A A'.
  - apply Lc. intros t T. pose proof (proj1 La A t T). pose proof (proj1 Lb A' t T). lia.
  - apply Gc. intros t T. pose proof (proj1 Ga A t T). pose proof (proj1 Gb A' t T). lia.
Qed.
End Hist.
Example C81_case : room 3 10 /\ history Debug 3 10 [k12; k01] h3 /\
  g_instant_cmp Debug h3 0 1 = Ret (Some Lt) /\ g_instant_cmp Debug h3 1 2 = Ret (Some Lt) /\
  g_instant_cmp Debug h3 0 2 = Ret (Some Lt) /\ g_timespan Debug h3 0 0 = Ret (mkI 0 0).
Proof. split; [exact room3|]. split; [apply h3_history; lia|]. repeat split. Qed.

(** On a graph grown by [propagate], two instants may each be before the other, and an instant
    after itself: t1-t0 = 5 and t2-t1 = 5, the third one accepted is 3 <= t2-t0 <= 4. *)
Theorem C81_refuted : exists p g, 
  one_by_one p g_default [mkK 0 1 false 5 5; mkK 1 2 false 5 5; mkK 0 2 false 3 4] g /\
  g_instant_cmp p g 0 1 = Ret (Some Lt) /\ g_instant_cmp p g 1 0 = Ret (Some Lt) /\
  g_instant_cmp p g 1 1 = Ret (Some Lt) /\ g_timespan p g 1 1 = Ret (mkI 6 (-6)).
Proof.
  exists Debug, (mkG 3 [0; 1; 6; 5; -4; 1; 0; 5; 3]). split; [|repeat split].
  eapply obo_cons; [reflexivity|right; reflexivity|].
  eapply obo_cons; [reflexivity|right; reflexivity|].
  eapply obo_cons; [reflexivity|right; reflexivity|]. apply obo_nil.
Qed.
