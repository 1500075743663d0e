(** C23, C30: exactly which points the union with a window, and collecting, keep. *)
From Verif Require Import Machine TimeValue Spec Tac TimeValueProofs Interval Iter TimeSet
  SpecSets SetProofs CollectProofs SetOpsProofs Prop_Interval Prop_TimeSet.

Lemma keep_one a : forall B t, canon_from B a -> forall i, In i (keep a [t]) <->
  In i a /\ forall k, In k a -> upper k < lower i -> upper k <= upper t.
Proof.
  induction a as [|k0 r IH]; intros B t Ca i; [cbn; tauto|].
  cbn in Ca. destruct Ca as (L & W & Ca). cbn [keep drop_le].
  assert (Hd : forall k, In k (k0 :: r) -> upper k < lower k0 -> False).
  { intros k [<-|H] U; [unfold wf_iv in W; lia|].
    destruct (canon_from_In _ _ _ Ca H) as [? ?]. unfold wf_iv in *. lia. }
  assert (Hr : forall i, In i r -> upper k0 < lower i) by
    (intros m H; destruct (canon_from_In _ _ _ Ca H); lia).
  destruct (upper k0 <=? upper t) eqn:E; cbn [In].
  - rewrite (IH _ t Ca). split.
    + intros [<-|[Hi Hk]].
      * split; auto. intros k Hk U. destruct (Hd _ Hk U).
      * split; auto. intros k [<-|H']; auto. intros _. lia.
    + intros [[<-|Hi] Hk]; [auto|right; split; auto].
  - split.
    + intros [<-|[]]. split; auto. intros k Hk U. destruct (Hd _ Hk U).
    + intros [[<-|Hi] Hk]; auto. specialize (Hk k0 (or_introl eq_refl) (Hr _ Hi)). lia.
Qed.

(** The union of a set with a window that has a point: the points of the window, and those of
    the intervals of the set all of whose predecessors end no later than the window. *)
Theorem C23_or_convex_exactly : forall a c, canonical a -> valid_cx c -> (exists x, In_cx x c) ->
  exists out, set_or_cx a c = Ret out /\ canonical out /\
    forall x, In_set x out <-> In_cx x c \/
      exists i, In i a /\ In_iv x i /\
        forall k, In k a -> upper k < lower i -> upper k <= cx_upper c.
Proof.
  intros a c Ca V [x0 H0].
  assert (W : wf_iv (cx_into c) /\ upper (cx_into c) = cx_upper c).
  { assert (In_iv x0 (cx_into c)) by (apply C11_convex_bounds; auto).
    destruct c; iv; tests_all; tests; cbn in *; try lia. }
  destruct W as [W U].
  destruct (set_or_cx_wf a (cx_into c) Ca W) as (out & E & C & D).
  exists out. split; auto. split; auto. intros x. rewrite D, (proj2 (C11_convex_bounds c x V)).
  apply canonical_from_iff in Ca. unfold In_set. rewrite <- U.
  split; (intros [H|(i & Hi & H)]; [auto|right; exists i]).
  - apply (keep_one _ _ _ Ca) in Hi. tauto.
  - split; [apply (keep_one _ _ _ Ca)|]; tauto.
Qed.
Example C23_or_convex_exactly_case :
  set_or_cx [mkI 1 2; mkI 10 20; mkI 30 40; mkI 50 60] (CRange 5 21)
    = Ret [mkI 1 2; mkI 5 20; mkI 30 40] /\ In_cx 5 (CRange 5 21).
Proof. split; [reflexivity|]. iv; lia. Qed.

Lemma from_step_depth d d' acc i : canonical acc -> wf_iv i ->
  from_step (S d) acc i = from_step (S d') acc i.
Proof.
  intros C W. unfold from_step. destruct (just_after (set_upper acc) <? lower i); auto.
  rewrite into_iter_wf by auto.
  destruct (union_list_spec acc [i] C (canonical_one i W)) as (out & -> & Co & D).
  cbn [bind]. rewrite canonical_from_iff in Co.
  rewrite !(fun d => from_iter_d_gapped d _ _ (canon_gap _ _ Co)). reflexivity.
Qed.
Lemma from_fold_depth d d' l : forall acc, canonical acc -> Forall wf_iv l ->
  ofold (from_step (S d)) acc l = ofold (from_step (S d')) acc l.
Proof.
  induction l as [|i r IH]; intros acc C F; [reflexivity|]. inv F. cbn [ofold].
  rewrite (from_step_depth d d') by auto.
  destruct (from_step_spec d' acc i C H1) as (acc' & -> & C' & _). cbn [bind]. auto.
Qed.
Lemma ofold_snoc : forall A B (f : A -> B -> outcome A) l b a,
  ofold f a (l ++ [b]) = (x <- ofold f a l ;; f x b).
Proof.
  induction l as [|c l IH]; intros b a; cbn.
  - destruct (f a b); reflexivity.
  - destruct (f a c); cbn; auto.
Qed.

(** Collecting one more interval with a point: its points, and those of the intervals
    collected so far all of whose predecessors end no later than it.  With
    [C30_collect_nil], this determines the set collected from every list of such intervals. *)
Theorem C30_collect_step : forall l i r, Forall wf_iv l -> wf_iv i -> from_iter l = Ret r ->
  exists out, from_iter (l ++ [i]) = Ret out /\ canonical out /\
    forall x, In_set x out <-> In_iv x i \/
      exists j, In j r /\ In_iv x j /\
        forall k, In k r -> upper k < lower j -> upper k <= upper i.
Proof.
  intros l i r F W E. destruct l as [|f l].
  { cbn in E. inv E. exists [i]. split; [apply from_iter_canonical; cbn; auto|]. split; [cbn; auto|].
    intros x. rewrite In_set_one. split; auto. intros [H|(j & [] & _)]; auto. }
  inv F. unfold from_iter in *. rewrite from_iter_d_eq in *. cbn [app length] in *.
  rewrite set_of_iv_loose in * by (now apply wf_loose). rewrite ofold_snoc.
  rewrite (from_fold_depth _ (length l)) in E by (auto using canonical_one).
  rewrite (from_fold_depth _ (length l)) by (auto using canonical_one).
  assert (Cr : canonical r).
  { destruct (from_fold_wf (length l) l [f] (canonical_one f H1) H2) as (o & E' & C & _).
    rewrite E in E'. inv E'. auto. }
  rewrite E. cbn [bind].
  destruct (from_step_spec (S (length (l ++ [i]))) r i Cr W) as (out & E' & C' & D).
  exists out. split; [exact E'|]. split; auto. intros x. rewrite D. unfold step_spec.
  apply canonical_from_iff in Cr.
  destruct (just_after (set_upper r) <? lower i) eqn:G.
  - unfold In_set. split; (intros [H|(j & Hj & H)]; [auto|right; exists j]); [|tauto].
    split; auto. split; auto. intros k Hk _.
    pose proof (canon_from_upper_In _ _ _ Cr Hk). destruct (canon_from_In _ _ _ Cr Hk) as [_ Wk].
    unfold wf_iv in *. pts. destruct (negb (Z.abs (set_upper r) =? 9223372036854775807)) eqn:Q; lia.
  - unfold In_set. split; (intros [H|(j & Hj & H)]; [auto|right; exists j]).
    + apply (keep_one _ _ _ Cr) in Hj. tauto.
    + split; [apply (keep_one _ _ _ Cr)|]; tauto.
Qed.
Theorem C30_collect_nil : from_iter [] = Ret [].
Proof. reflexivity. Qed.
Example C30_collect_step_case : from_iter [mkI 10 20; mkI 30 40; mkI 50 60] = Ret [mkI 10 20; mkI 30 40; mkI 50 60]
  /\ from_iter ([mkI 10 20; mkI 30 40; mkI 50 60] ++ [mkI 5 25]) = Ret [mkI 5 25; mkI 30 40].
Proof. split; reflexivity. Qed.

(** ** C34: hints of the complement, once it has started *)

(** [after next s q t]: from [s], [next] has yielded the items [q] and left the state [t]. *)
Inductive after {S A} (next : S -> outcome (option A * S)) : S -> list A -> S -> Prop :=
| after_nil s : after next s [] s
| after_cons s s' t a q : next s = Ret (Some a, s') -> after next s' q t -> after next s (a :: q) t.

Lemma past_after u : - oo < u <= oo -> is_past_infinite (just_after u) = false.
Proof. intros Hu. rewrite just_after_spec by (pts; lia). pts. tests; lia. Qed.
Lemma compl_yields l : forall u, - oo < u <= oo -> canon_from (u + 1) l ->
  yields (fun s => Ret (compl_next s)) (mkCompl l (just_after u)) (not_gaps (just_after u) l).
Proof.
  induction l as [|n r IH]; intros u Hu C; cbn [not_gaps].
  - destruct (is_future_infinite (just_after u)) eqn:E.
    + econstructor. unfold compl_next; cbn [co_lower co_iter]. rewrite past_after by auto. cbn [compl_for]. rewrite E. reflexivity.
    + econstructor 2.
      * unfold compl_next; cbn [co_lower co_iter]. rewrite past_after by auto. cbn [compl_for]. rewrite E. reflexivity.
      * econstructor. reflexivity.
  - cbn in C. destruct C as (L & W & C). econstructor 2.
    + unfold compl_next; cbn [co_lower co_iter]. rewrite past_after by auto. cbn [compl_for].
      replace (just_after u <? lower n) with true
        by (rewrite just_after_spec by (pts; lia); unfold wf_iv in W; tests; pts; lia). reflexivity.
    + apply IH; auto. unfold wf_iv in W; lia.
Qed.

(** the states after the first item *)
Definition started (l : list interval) (s : compl_state) : Prop :=
  s = mkCompl [] oo \/
  exists q n r, l = q ++ n :: r /\ s = mkCompl r (just_after (upper n)).
Lemma started_next l s a s' : canonical l -> started l s -> compl_next s = (Some a, s') -> started l s'.
Proof.
  intros C [->|(q & n & r & E & ->)] H; [discriminate|].
  assert (W : wf_iv n) by (eapply canonical_In; eauto; rewrite E; apply in_app_iff; cbn; auto).
  assert (Hu : - oo < upper n <= oo) by (unfold wf_iv in W; lia).
  assert (Cr : canon_from (upper n + 1) r).
  { apply canonical_from_iff in C. rewrite E in C. clear - C.
    revert C. generalize (- oo - 1). induction q as [|k q IH]; intros b C; cbn in C; [tauto|]. eapply IH. apply C. }
  unfold compl_next in H; cbn [co_lower co_iter] in H. rewrite past_after in H by auto.
  destruct r as [|m r']; cbn [compl_for] in H.
  - destruct (is_future_infinite _); inv H. left. reflexivity.
  - cbn in Cr. destruct Cr as (L & Wm & _).
    replace (just_after (upper n) <? lower m) with true in H
      by (rewrite just_after_spec by (pts; lia); unfold wf_iv in Wm; tests; pts; lia).
    inv H. right. exists (q ++ [n]), m, r'. split; auto. now rewrite <- app_assoc.
Qed.
Lemma started_first l a s : canonical l -> compl_next (compl_init l) = (Some a, s) -> started l s.
Proof.
  intros C H. unfold compl_next, compl_init in H; cbn [co_lower co_iter] in H.
  replace (is_past_infinite (- INF)) with true in H by reflexivity.
  destruct l as [|n r]; [cbn in H; inv H; left; reflexivity|].
  destruct (just_before (lower n) =? - INF); [|inv H; right; exists [], n, r; auto].
  apply canonical_from_iff in C. cbn in C. destruct C as (L & W & C).
  assert (Hu : - oo < upper n <= oo) by (unfold wf_iv in W; lia).
  destruct r as [|m r']; cbn [compl_for] in H.
  - destruct (is_future_infinite _); inv H. left. reflexivity.
  - cbn in C. destruct C as (Lm & Wm & _).
    replace (just_after (upper n) <? lower m) with true in H
      by (rewrite just_after_spec by (pts; lia); unfold wf_iv in Wm; tests; pts; lia).
    inv H. right. exists [n], m, r'. auto.
Qed.
Lemma gaps_length r : forall p, length (not_gaps p r) = 
  (length r + if is_future_infinite (match last_opt r with Some i => just_after (upper i) | None => p end) then 0 else 1)%nat.
Proof.
  induction r as [|i r IH]; intros p; cbn [not_gaps].
  - cbn. destruct (is_future_infinite p); reflexivity.
  - cbn [length]. rewrite IH. destruct r as [|j r']; [reflexivity|]. rewrite last_opt_cons.
    destruct (last_opt (j :: r')) eqn:E; [lia|]. apply last_opt_None in E. discriminate.
Qed.

(** Once started, the lower hint is right, and the upper one is one too small as long as items
    remain, unless the complemented set has the last of the time points; then it is right. *)
Theorem C34_compl_hint_started : forall l q s m, canonical l -> q <> [] ->
  after (fun s => Ret (compl_next s)) (compl_init l) q s -> yields (fun s => Ret (compl_next s)) s m ->
  fst (compl_hint s) <= Z.of_nat (length m) /\
  exists hi, snd (compl_hint s) = Some hi /\
    (oo - 1 <= set_upper l -> Z.of_nat (length m) <= hi) /\
    (set_upper l < oo - 1 -> m <> [] -> Z.of_nat (length m) = hi + 1).
Proof.
  intros l q s m C N A Y.
  assert (S : started l s).
  { remember (compl_init l) as s0 eqn:Es. destruct A as [|s0 s1 t a q0 E A]; [congruence|]. subst s0.
    injection E as E. apply started_first in E; auto. clear Y N. induction A as [|s0 s2 t b q0 E' A IH]; auto. apply IH. injection E' as E'. eapply started_next; eauto. }
  destruct S as [->|(q0 & n & r & E & ->)].
  - assert (m = []) by (inversion Y; subst; [reflexivity|discriminate]). subst m.
    split; [cbn; lia|]. exists 1. split; [reflexivity|]. split; [cbn; lia|congruence].
  - assert (W : wf_iv n) by (eapply canonical_In; eauto; rewrite E; apply in_app_iff; cbn; auto).
    assert (Hu : - oo < upper n <= oo) by (unfold wf_iv in W; lia).
    assert (Cr : canon_from (upper n + 1) r).
    { apply canonical_from_iff in C. rewrite E in C. clear - C.
      revert C. generalize (- oo - 1). induction q0 as [|k q0 IH]; intros b C; cbn in C; [tauto|]. eapply IH. apply C. }
    assert (m = not_gaps (just_after (upper n)) r) by (eapply yields_fun; [exact Y|]; now apply compl_yields).
    subst m. rewrite gaps_length. unfold compl_hint; cbn [co_iter co_lower fst snd].
    assert (U : exists z, last_opt l = Some z /\ wf_iv z /\
      (match last_opt r with Some i => just_after (upper i) | None => just_after (upper n) end) = just_after (upper z) /\
      (upper z < oo - 1 -> upper n < oo - 1)).
    { assert (L : last_opt l = match last_opt r with Some i => Some i | None => Some n end).
      { rewrite E. clear. induction q0 as [|k q0 IH]; cbn [app].
        - destruct r as [|j r]; [reflexivity|]. rewrite last_opt_cons. destruct (last_opt (j :: r)) eqn:E; auto.
          apply last_opt_None in E. discriminate.
        - destruct (q0 ++ n :: r) eqn:E; [destruct q0; discriminate|]. rewrite last_opt_cons. exact IH. }
      destruct (last_opt r) as [z|] eqn:R.
      - exists z. assert (In z r) by (rewrite (last_opt_Some _ _ R); apply in_app_iff; cbn; auto).
        destruct (canon_from_In _ _ _ Cr H). split; auto. split; auto. split; auto. unfold wf_iv in *. lia.
      - exists n. auto. }
    destruct U as (z & L & Wz & -> & B). unfold set_upper. rewrite L.
    assert (J : is_future_infinite (just_after (upper z)) = true <-> oo - 1 <= upper z).
    { rewrite just_after_spec by (unfold wf_iv in *; pts; lia). unfold wf_iv in *. pts. tests; split; intros; lia. }
    split; [destruct (is_future_infinite _); lia|]. eexists. split; [reflexivity|]. split.
    + intros I. rewrite (proj2 J I). destruct (is_finite _); lia.
    + intros I _. destruct (is_future_infinite (just_after (upper z))); [destruct J as [J _]; specialize (J eq_refl); lia|].
      assert (F : is_finite (just_after (upper n)) = true).
      { specialize (B I). rewrite just_after_spec by (pts; lia). unfold is_finite. pts. tests; lia. }
      rewrite F. lia.
Qed.
Example C34_compl_hint_started_case :
  after (fun s => Ret (compl_next s)) (compl_init [mkI 1 2; mkI 5 6]) [mkI (- oo) 0] (mkCompl [mkI 5 6] 3) /\
  compl_hint (mkCompl [mkI 5 6] 3) = (0, Some 1) /\
  yields (fun s => Ret (compl_next s)) (mkCompl [mkI 5 6] 3) [mkI 3 4; mkI 7 oo].
Proof.
  split; [econstructor; [reflexivity|constructor]|]. split; [reflexivity|].
  repeat (econstructor 2; [reflexivity|]). econstructor 1. reflexivity.
Qed.

(** Once exhausted, the union and the intersection announce no item. *)
Theorem C34_exhausted_hint :
  (forall s s', inter_next s = Ret (None, s') -> inter_hint s' = (0, Some 0)) /\
  (forall s s', union_next s = Ret (None, s') -> union_hint s' = (0, Some 0)).
Proof.
  split.
  - assert (G : forall f s s', run_next inter_turn f s = Ret (None, s') -> inter_hint s' = (0, Some 0)).
    { induction f as [|f IH]; intros s s' H; [discriminate|]. cbn in H.
      destruct (inter_turn s) as [s'' [|a|]] eqn:E; eauto; [discriminate|]. inv H.
      clear IH. destruct s as [i j ph t]. unfold inter_turn in E; cbn in E.
      destruct ph, i, j; tests_in E; inv E; reflexivity. }
    intros s s' H. eapply G, H.
  - assert (G : forall f s s', run_next union_turn f s = Ret (None, s') -> union_hint s' = (0, Some 0)).
    { induction f as [|f IH]; intros s s' H; [discriminate|]. cbn in H.
      destruct (union_turn s) as [s'' [|a|]] eqn:E; eauto; [discriminate|]. inv H.
      clear IH. destruct s as [i j ph t]. unfold union_turn in E; cbn in E.
      destruct ph, i, j; tests_in E; inv E; reflexivity. }
    intros s s' H. eapply G, H.
Qed.
Example C34_exhausted_hint_case : union_next (union_init [] []) = Ret (None, mkUnion [] [] UEnd iv_all)
  /\ inter_next (inter_init [] [mkI 1 2; mkI 5 6]) = Ret (None, mkInter [] [mkI 5 6] IEnd iv_all).
Proof. split; reflexivity. Qed.
