(** Lemmas about intervals, canonical lists and the set iterators. *)
From Verif Require Import Machine TimeValue Spec Tac TimeValueProofs Interval Iter TimeSet SpecSets.

Ltac ivs := unfold In_iv, wf_iv, valid_iv, is_empty_repr, iv_empty, iv_all in *; cbn [lower upper] in *.

Lemma iv_eta i : mkI (lower i) (upper i) = i.
Proof. now destruct i. Qed.
Lemma iv_ext i j : lower i = lower j -> upper i = upper j -> i = j.
Proof. destruct i, j; cbn; congruence. Qed.

(** ** Canonical lists *)

Fixpoint canon_from (b : Z) (l : list interval) : Prop :=
  match l with
  | [] => True
  | i :: r => b < lower i /\ wf_iv i /\ canon_from (upper i + 1) r
  end.

Lemma canon_cons b i r : b < lower i -> wf_iv i -> canon_from (upper i + 1) r ->
  canon_from b (i :: r).
Proof. cbn; auto. Qed.

Lemma canon_from_weaken b c l : c <= b -> canon_from b l -> canon_from c l.
Proof. destruct l; cbn; intuition lia. Qed.

Lemma canonical_from_iff l : canonical l <-> canon_from (- oo - 1) l.
Proof.
  assert (G : forall l b, canon_from b l <->
            canonical l /\ match l with [] => True | i :: _ => b < lower i end).
  { clear l. induction l as [|i r IH]; intros b; cbn; [tauto|].
    rewrite (IH (upper i + 1)). destruct r; intuition. }
  rewrite G. destruct l as [|i r]; cbn; [tauto|]. unfold wf_iv. intuition lia.
Qed.

Lemma canon_from_canonical b l : canon_from b l -> canonical l.
Proof.
  intros H. destruct l as [|i r]; [exact I|]. apply canonical_from_iff.
  cbn in *. unfold wf_iv in *. intuition lia.
Qed.

Lemma canon_from_In b l i : canon_from b l -> In i l -> b < lower i /\ wf_iv i.
Proof.
  revert b. induction l as [|j r IH]; cbn; intros b C H; [tauto|].
  destruct C as (L & W & C). destruct H as [->|H]; auto.
  apply IH in C; auto. unfold wf_iv in *. intuition lia.
Qed.

Lemma canon_from_app b l m : canon_from b (l ++ m) <->
  canon_from b l /\ match last_opt l with
                    | None => canon_from b m
                    | Some i => canon_from (upper i + 1) m
                    end.
Proof.
  revert b. induction l as [|i r IH]; intros b; [cbn; tauto|].
  cbn [app canon_from]. rewrite IH. destruct r as [|j r']; [cbn; tauto|].
  change (last_opt (i :: j :: r')) with (last_opt (j :: r')).
  destruct (last_opt (j :: r')) eqn:E; [tauto|].
  exfalso. clear -E. revert j E. induction r' as [|k r' IH]; cbn; intros; [discriminate|].
  apply (IH k E).
Qed.

Lemma In_set_nil x : In_set x [] <-> False.
Proof. split; [intros (i & [] & _)|tauto]. Qed.
Lemma In_set_cons x i l : In_set x (i :: l) <-> In_iv x i \/ In_set x l.
Proof.
  unfold In_set; cbn. split.
  - intros (j & [->|H] & Hx); eauto.
  - intros [H|(j & H & Hx)]; eauto.
Qed.
Lemma In_set_app x l m : In_set x (l ++ m) <-> In_set x l \/ In_set x m.
Proof.
  induction l; cbn [app]; rewrite ?In_set_nil, ?In_set_cons; [tauto|]. rewrite IHl. tauto.
Qed.
Lemma In_set_one x i : In_set x [i] <-> In_iv x i.
Proof. rewrite In_set_cons, In_set_nil. tauto. Qed.
Lemma In_set_rev x l : In_set x (rev l) <-> In_set x l.
Proof. unfold In_set. split; intros (i & H & Hx); exists i; rewrite <- in_rev in *; auto. Qed.
Lemma canon_from_In_set b l x : canon_from b l -> In_set x l -> b < x.
Proof.
  intros C (i & H & F & Hx). apply (canon_from_In _ _ _ C) in H. lia.
Qed.

Lemma wf_nonempty i : wf_iv i -> exists x, In_iv x i.
Proof.
  intros W. exists (if Z.eq_dec (lower i) (- oo) then
                      if Z.eq_dec (upper i) oo then 0 else upper i else lower i).
  destruct (Z.eq_dec (lower i) (- oo)); [destruct (Z.eq_dec (upper i) oo)|];
    unfold In_iv, wf_iv, finite, oo in *; lia.
Qed.

(** the two tests of the iterators, on non-empty intervals *)
Lemma gap_test a i : wf_iv i -> - oo <= a ->
  (a <? just_before (lower i)) = (a + 1 <? lower i).
Proof. intros W Ha. ivs. pts. tests; lia. Qed.

(** ** Turn machines *)

Section Machine.
  Context {S A : Type}.
  Variable step : S -> S * turn A.
  Variable mu : S -> nat.
  Hypothesis dec : forall s s' t, step s = (s', t) -> t <> Stop -> (mu s' < mu s)%nat.

  Inductive emits : S -> list A -> Prop :=
  | em_stop s s' : step s = (s', Stop) -> emits s []
  | em_again s s' l : step s = (s', Again) -> emits s' l -> emits s l
  | em_yield s s' a l : step s = (s', Yield a) -> emits s' l -> emits s (a :: l).

  Lemma emits_total s : exists l, emits s l.
  Proof.
    remember (mu s) as n eqn:En. revert s En.
    induction n as [n IH] using (well_founded_induction Wf_nat.lt_wf). intros s ->.
    destruct (step s) as [s' [|a|]] eqn:E.
    - destruct (IH (mu s')) with (s := s') as [l Hl]; auto.
      { eapply dec; eauto; congruence. }
      exists l. eapply em_again; eauto.
    - destruct (IH (mu s')) with (s := s') as [l Hl]; auto.
      { eapply dec; eauto; congruence. }
      exists (a :: l). eapply em_yield; eauto.
    - exists []. eapply em_stop; eauto.
  Qed.

  Lemma emits_fun s l : emits s l -> forall m, emits s m -> l = m.
  Proof.
    induction 1 as [s s' E|s s' l E H IH|s s' a l E H IH]; intros m Hm; inv Hm; try congruence.
    - rewrite E in H0. inv H0. auto.
    - rewrite E in H0. inv H0. f_equal. auto.
  Qed.

  Lemma run_next_emits f : forall s l, emits s l -> (mu s < f)%nat ->
    match l with
    | [] => exists s', run_next step f s = Ret (None, s')
    | a :: r => exists s', run_next step f s = Ret (Some a, s') /\ emits s' r
                           /\ (mu s' < mu s)%nat
    end.
  Proof.
    induction f as [|f IH]; intros s l H L; [lia|]. inv H; cbn.
    - rewrite H0. eauto.
    - rewrite H0. assert (mu s' < mu s)%nat by (eapply dec; eauto; congruence).
      specialize (IH s' l H1 ltac:(lia)). destruct l; auto.
      destruct IH as (s'' & ? & ? & ?). exists s''. repeat split; auto; lia.
    - rewrite H0. assert (mu s' < mu s)%nat by (eapply dec; eauto; congruence). eauto.
  Qed.

  Lemma run_collect_emits (fuel : S -> nat) :
    (forall s, mu s < fuel s)%nat ->
    forall f s l, emits s l -> (mu s < f)%nat ->
    run_collect (fun s => run_next step (fuel s) s) f s = Ret l.
  Proof.
    intros Hf. induction f as [|f IH]; intros s l H L; [lia|]. cbn.
    pose proof (run_next_emits (fuel s) s l H (Hf s)) as N.
    destruct l as [|a r].
    - destruct N as [s' ->]. reflexivity.
    - destruct N as (s' & -> & E & L'). cbn. rewrite (IH s' r); auto. lia.
  Qed.
End Machine.

(** ** Intersection: exactly the caps of the pairs that overlap or are adjacent *)

Definition touch (i j : interval) : bool :=
  negb (upper i + 1 <? lower j) && negb (upper j + 1 <? lower i).
Definition cap (i j : interval) : interval :=
  mkI (Z.max (lower i) (lower j)) (Z.min (upper i) (upper j)).
Definition caps (i : interval) (b : list interval) : list interval :=
  map (cap i) (filter (touch i) b).
Fixpoint all_caps (a b : list interval) : list interval :=
  match a with [] => [] | i :: r => caps i b ++ all_caps r b end.
Arguments caps : simpl never.
Arguments cap : simpl never.
Arguments touch : simpl never.

Lemma all_caps_In k a b : In k (all_caps a b) <->
  exists i j, In i a /\ In j b /\ touch i j = true /\ k = cap i j.
Proof.
  induction a as [|i r IH]; cbn.
  - split; [tauto|]. intros (i & j & [] & _).
  - rewrite in_app_iff, IH. unfold caps. rewrite in_map_iff. split.
    + intros [(j & <- & H)|(i' & j & H)].
      * apply filter_In in H. exists i, j. tauto.
      * exists i', j. tauto.
    + intros (i' & j & [->|H] & Hj & T & ->).
      * left. exists j. split; auto. apply filter_In. auto.
      * right. exists i', j. tauto.
Qed.

Lemma caps_far i b l : canon_from l b -> upper i + 1 <= l -> caps i b = [].
Proof.
  intros C L. unfold caps.
  replace (filter (touch i) b) with (@nil interval); auto. symmetry.
  apply not_incl_nil_filter || idtac.
  revert l C L. induction b as [|j r IH]; intros l C L; cbn; auto.
  cbn in C. destruct C as (Lj & W & C). unfold touch at 1.
  replace (upper i + 1 <? lower j) with true by lia. cbn.
  apply (IH (upper j + 1)); auto. unfold wf_iv in W. lia.
Qed.

Lemma all_caps_far_r a j b l : canon_from l a -> upper j + 1 <= l ->
  all_caps a (j :: b) = all_caps a b.
Proof.
  revert l. induction a as [|i r IH]; intros l C L; cbn; auto.
  cbn in C. destruct C as (Li & W & C).
  rewrite (IH (upper i + 1)); auto; [|unfold wf_iv in W; lia].
  f_equal. unfold caps; cbn [filter]. unfold touch at 1.
  replace (upper j + 1 <? lower i) with true by lia.
  now rewrite andb_false_r.
Qed.

Lemma caps_touch i j b : touch i j = true -> caps i (j :: b) = cap i j :: caps i b.
Proof. unfold caps; cbn [filter]. now intros ->. Qed.
Lemma caps_no_touch i j b : touch i j = false -> caps i (j :: b) = caps i b.
Proof. unfold caps; cbn [filter]. now intros ->. Qed.

Definition inter_mu (s : inter_state) : nat := length (in_i s) + length (in_j s).

Lemma inter_dec s s' t : inter_turn s = (s', t) -> t <> Stop -> (inter_mu s' < inter_mu s)%nat.
Proof.
  destruct s as [a b ph tmp]. unfold inter_turn, inter_mu; cbn [in_i in_j in_phase in_tmp].
  destruct ph, a, b; intros E N; tests_in E; inv E; cbn; try congruence; try lia.
Qed.

Lemma cap_l i t : upper i <= upper t ->
  (if lower i <? lower t then mkI (lower t) (upper i) else i) = cap i t.
Proof.
  intros. unfold cap. destruct (lower i <? lower t) eqn:E.
  - f_equal; lia.
  - rewrite <- (iv_eta i) at 1. f_equal; lia.
Qed.
Lemma cap_r i t : upper t <= upper i ->
  (if lower t <? lower i then mkI (lower i) (upper t) else t) = cap i t.
Proof.
  intros. unfold cap. destruct (lower t <? lower i) eqn:E.
  - f_equal; lia.
  - rewrite <- (iv_eta t) at 1. f_equal; lia.
Qed.
Lemma cap_comm i j : cap i j = cap j i.
Proof. unfold cap. f_equal; lia. Qed.
Lemma touch_comm i j : touch i j = touch j i.
Proof. unfold touch. apply andb_comm. Qed.

Lemma inter_wait n : forall ri rj t B,
  (length ri + length rj <= n)%nat -> wf_iv t ->
  (canon_from B ri -> canon_from (upper t + 1) rj ->
   emits inter_turn (mkInter ri rj IWaitI t) (all_caps ri (t :: rj))) /\
  (canon_from (upper t + 1) ri -> canon_from B rj ->
   emits inter_turn (mkInter ri rj IWaitJ t) (all_caps (t :: ri) rj)).
Proof.
  induction n as [|n IH]; intros ri rj t B L W; split; intros Ci Cj.
  - destruct ri; [|cbn in L; lia]. cbn. eapply em_stop. reflexivity.
  - destruct ri, rj; try (cbn in L; lia). cbn. eapply em_stop. reflexivity.
  - destruct ri as [|i ri]; [cbn; eapply em_stop; reflexivity|].
    cbn in Ci, L. destruct Ci as (Li & Wi & Ci).
    assert (St : inter_turn (mkInter (i :: ri) rj IWaitI t) =
      if upper i + 1 <? lower t then (mkInter ri rj IWaitI t, Again)
      else if upper t + 1 <? lower i then (mkInter ri rj IWaitJ i, Again)
      else if upper i <=? upper t then (mkInter ri rj IWaitI t, Yield (cap i t))
      else (mkInter ri rj IWaitJ i, Yield (cap i t))).
    { unfold inter_turn. cbn [in_i in_j in_phase in_tmp].
      rewrite !gap_test by (auto; unfold wf_iv in *; lia).
      tests; auto; do 2 f_equal; apply iv_ext; unfold cap; cbn; lia. }
    destruct (upper i + 1 <? lower t) eqn:E1; [|destruct (upper t + 1 <? lower i) eqn:E2;
      [|destruct (upper i <=? upper t) eqn:E3]].
    + eapply em_again; [exact St|]. cbn.
      rewrite caps_no_touch by (unfold touch; rewrite E1; auto).
      rewrite (caps_far i rj (upper t + 1)) by (auto; unfold wf_iv in *; lia).
      cbn. apply (IH ri rj t (upper i + 1)); auto; lia.
    + eapply em_again; [exact St|].
      rewrite (all_caps_far_r _ _ _ (upper t + 1)) by (try apply canon_cons; auto; lia).
      apply (IH ri rj i (upper t + 1)); auto; lia.
    + cbn. rewrite caps_touch by (unfold touch; rewrite E1, E2; auto).
      rewrite (caps_far i rj (upper t + 1)) by (auto; lia).
      cbn. eapply em_yield; [exact St|]. apply (IH ri rj t (upper i + 1)); auto; lia.
    + cbn. rewrite caps_touch by (unfold touch; rewrite E1, E2; auto).
      rewrite (all_caps_far_r _ _ _ (upper i + 1)) by (auto; lia).
      cbn. eapply em_yield; [exact St|]. apply (IH ri rj i (upper t + 1)); auto; lia.
  - destruct rj as [|j rj].
    { assert (G : forall m, all_caps m [] = []) by (induction m; auto).
      rewrite G. eapply em_stop; reflexivity. }
    cbn in Cj, L. destruct Cj as (Lj & Wj & Cj).
    assert (St : inter_turn (mkInter ri (j :: rj) IWaitJ t) =
      if upper j + 1 <? lower t then (mkInter ri rj IWaitJ t, Again)
      else if upper t + 1 <? lower j then (mkInter ri rj IWaitI j, Again)
      else if upper j <=? upper t then (mkInter ri rj IWaitJ t, Yield (cap t j))
      else (mkInter ri rj IWaitI j, Yield (cap t j))).
    { unfold inter_turn. cbn [in_i in_j in_phase in_tmp].
      rewrite !gap_test by (auto; unfold wf_iv in *; lia). rewrite (cap_comm t j).
      tests; auto; do 2 f_equal; apply iv_ext; unfold cap; cbn; lia. }
    destruct (upper j + 1 <? lower t) eqn:E1; [|destruct (upper t + 1 <? lower j) eqn:E2;
      [|destruct (upper j <=? upper t) eqn:E3]].
    + eapply em_again; [exact St|].
      rewrite (all_caps_far_r (t :: ri) j rj (upper j + 1)) by (try apply canon_cons; auto; lia).
      apply (IH ri rj t (upper j + 1)); auto; lia.
    + eapply em_again; [exact St|]. cbn.
      rewrite (caps_far t (j :: rj) (upper t + 1)) by (try apply canon_cons; auto; lia).
      cbn. apply (IH ri rj j (upper t + 1)); auto; lia.
    + cbn. rewrite caps_touch by (unfold touch; rewrite E1, E2; auto).
      rewrite (all_caps_far_r _ _ _ (upper t + 1)) by (auto; lia).
      cbn. eapply em_yield; [exact St|]. apply (IH ri rj t (upper j + 1)); auto; lia.
    + cbn. rewrite caps_touch by (unfold touch; rewrite E1, E2; auto).
      rewrite (caps_far t rj (upper j + 1)) by (auto; lia).
      cbn. eapply em_yield; [exact St|]. apply (IH ri rj j (upper t + 1)); auto; lia.
Qed.

Lemma all_caps_nil_r a : all_caps a [] = [].
Proof. induction a; auto. Qed.

Lemma inter_emits a b : canonical a -> canonical b ->
  emits inter_turn (inter_init a b) (all_caps a b).
Proof.
  rewrite !canonical_from_iff. intros Ca Cb. unfold inter_init.
  destruct a as [|i ri]; [cbn; eapply em_stop; reflexivity|].
  destruct b as [|j rj]; [rewrite all_caps_nil_r; eapply em_stop; reflexivity|].
  cbn in Ca, Cb. destruct Ca as (Li & Wi & Ci), Cb as (Lj & Wj & Cj).
  assert (St : inter_turn (mkInter (i :: ri) (j :: rj) IInit iv_all) =
      if upper i + 1 <? lower j then (mkInter ri rj IWaitI j, Again)
      else if upper j + 1 <? lower i then (mkInter ri rj IWaitJ i, Again)
      else if upper i <=? upper j then (mkInter ri rj IWaitI j, Yield (cap i j))
      else (mkInter ri rj IWaitJ i, Yield (cap i j))).
  { unfold inter_turn. cbn [in_i in_j in_phase in_tmp].
    rewrite !gap_test by (auto; unfold wf_iv in *; lia).
    tests; auto; do 2 f_equal; apply iv_ext; unfold cap; cbn; lia. }
  destruct (upper i + 1 <? lower j) eqn:E1; [|destruct (upper j + 1 <? lower i) eqn:E2;
      [|destruct (upper i <=? upper j) eqn:E3]].
  - eapply em_again; [exact St|]. cbn.
    rewrite caps_no_touch by (unfold touch; rewrite E1; auto).
    rewrite (caps_far i rj (upper j + 1)) by (auto; unfold wf_iv in *; lia).
    cbn. apply (inter_wait _ ri rj j (upper i + 1) (le_n _)); auto.
  - eapply em_again; [exact St|].
    rewrite (all_caps_far_r _ _ _ (upper j + 1)) by (try apply canon_cons; auto; lia).
    apply (inter_wait _ ri rj i (upper j + 1) (le_n _)); auto.
  - cbn. rewrite caps_touch by (unfold touch; rewrite E1, E2; auto).
    rewrite (caps_far i rj (upper j + 1)) by (auto; lia).
    cbn. eapply em_yield; [exact St|]. apply (inter_wait _ ri rj j (upper i + 1) (le_n _)); auto.
  - cbn. rewrite caps_touch by (unfold touch; rewrite E1, E2; auto).
    rewrite (all_caps_far_r _ _ _ (upper i + 1)) by (auto; lia).
    cbn. eapply em_yield; [exact St|]. apply (inter_wait _ ri rj i (upper j + 1) (le_n _)); auto.
Qed.

Lemma inter_collect_emits s l : emits inter_turn s l -> inter_collect s = Ret l.
Proof.
  intros H. unfold inter_collect, inter_next.
  apply (run_collect_emits inter_turn inter_mu inter_dec inter_fuel); auto;
    unfold inter_fuel, inter_mu; lia.
Qed.

Lemma inter_list_caps a b : canonical a -> canonical b -> inter_list a b = Ret (all_caps a b).
Proof. intros. apply inter_collect_emits. now apply inter_emits. Qed.

Lemma In_set_all_caps x a b : In_set x (all_caps a b) <-> In_set x a /\ In_set x b.
Proof.
  unfold In_set. split.
  - intros (k & H & Hx). apply all_caps_In in H. destruct H as (i & j & Hi & Hj & T & ->).
    unfold cap in Hx; ivs. split; [exists i|exists j]; intuition lia.
  - intros [(i & Hi & Hx) (j & Hj & Hx')]. exists (cap i j). split.
    + apply all_caps_In. exists i, j. repeat split; auto. unfold touch; ivs. lia.
    + unfold cap; ivs. intuition lia.
Qed.

(** ** Lists that collecting only appends *)

Definition loose (i : interval) : Prop :=
  - oo <= lower i /\ lower i < oo /\ - oo < upper i /\ upper i <= oo.
Fixpoint gap_from (b : Z) (l : list interval) : Prop :=
  match l with
  | [] => True
  | i :: r => b < lower i /\ loose i /\ gap_from (upper i + 1) r
  end.

Lemma wf_loose i : wf_iv i -> loose i.
Proof. unfold wf_iv, loose; lia. Qed.
Lemma canon_gap b l : canon_from b l -> gap_from b l.
Proof. revert b; induction l; cbn; intros; intuition auto using wf_loose. Qed.
Lemma gap_from_weaken b c l : c <= b -> gap_from b l -> gap_from c l.
Proof. destruct l; cbn; intuition lia. Qed.

Lemma last_opt_snoc {A} (l : list A) x : last_opt (l ++ [x]) = Some x.
Proof.
  induction l as [|y r IH]; auto. cbn [app]. destruct (r ++ [x]) eqn:E; auto.
  destruct r; discriminate.
Qed.

Definition from_step d (r : tset) (i : interval) : outcome tset :=
  if just_after (set_upper r) <? lower i then Ret (r ++ [i])
  else u <- union_list r (iv_into_iter i) ;; from_iter_d d u.

Lemma from_iter_d_eq d l : from_iter_d (S d) l =
  match l with
  | [] => Ret []
  | first :: rest => ofold (from_step d) (set_of_convex (CIv first)) rest
  end.
Proof. reflexivity. Qed.

Lemma push_test k i : loose k -> upper k + 1 < lower i -> loose i ->
  just_after (upper k) <? lower i = true.
Proof. unfold loose. intros. pts. tests; lia. Qed.

Lemma from_fold_gapped d l : forall acc k, last_opt acc = Some k -> loose k ->
  gap_from (upper k + 1) l -> ofold (from_step d) acc l = Ret (acc ++ l).
Proof.
  induction l as [|i r IH]; intros acc k E Lk G; cbn [ofold].
  - now rewrite app_nil_r.
  - cbn in G. destruct G as (Gi & Li & G).
    assert (Hs : from_step d acc i = Ret (acc ++ [i])).
    { unfold from_step. unfold set_upper. rewrite E. now rewrite push_test. }
    rewrite Hs. cbn [bind].
    rewrite (IH (acc ++ [i]) i) by (auto using last_opt_snoc).
    now rewrite <- app_assoc.
Qed.

Lemma set_of_iv_loose i : loose i -> set_of_convex (CIv i) = [i].
Proof.
  intros L. unfold set_of_convex; cbn. unfold iv_is_empty, loose in *. pts.
  tests; [lia|]. now rewrite iv_eta.
Qed.

Lemma from_iter_d_gapped d b l : gap_from b l -> from_iter_d (S d) l = Ret l.
Proof.
  intros G. rewrite from_iter_d_eq. destruct l as [|i r]; auto.
  cbn in G. destruct G as (Gi & Li & G).
  rewrite set_of_iv_loose by auto.
  rewrite (from_fold_gapped d r [i] i); auto.
Qed.
Lemma from_iter_gapped b l : gap_from b l -> from_iter l = Ret l.
Proof. apply from_iter_d_gapped. Qed.
Lemma from_iter_canonical l : canonical l -> from_iter l = Ret l.
Proof. rewrite canonical_from_iff. intros. eapply from_iter_gapped, canon_gap; eauto. Qed.

Lemma caps_gap i b : forall B c, wf_iv i -> canon_from B b -> c < lower i \/ c <= B ->
  gap_from c (caps i b).
Proof.
  induction b as [|j r IH]; intros B c W C H; cbn; auto.
  cbn in C. destruct C as (Lj & Wj & C). unfold caps. cbn [filter].
  destruct (touch i j) eqn:T.
  - cbn [map gap_from]. unfold cap at 1 2 3; cbn [lower upper]. split; [lia|]. split.
    + unfold loose, wf_iv in *; cbn; lia.
    + apply (IH (upper j + 1)); auto. lia.
  - apply (IH (upper j + 1)); auto. unfold wf_iv in *; lia.
Qed.

Lemma gap_app l : forall c u m, gap_from c l -> (forall k, In k l -> upper k <= u) ->
  c <= u + 1 -> gap_from (u + 1) m -> gap_from c (l ++ m).
Proof.
  induction l as [|i r IH]; cbn; intros c u m G U L Gm.
  - eapply gap_from_weaken; eauto.
  - destruct G as (Gi & Li & G). split; auto. split; auto.
    apply (IH _ u); auto. specialize (U i (or_introl eq_refl)). lia.
Qed.

Lemma all_caps_gap a b : forall B B', canon_from B a -> canon_from B' b ->
  gap_from B (all_caps a b).
Proof.
  induction a as [|i r IH]; cbn; intros B B' Ca Cb; auto.
  destruct Ca as (Li & W & Ca).
  apply (gap_app _ _ (upper i)).
  - apply (caps_gap i b B'); auto.
  - intros k. unfold caps. rewrite in_map_iff. intros (j & <- & _). unfold cap; cbn. lia.
  - unfold wf_iv in W. lia.
  - eapply IH; eauto.
Qed.

Lemma set_and_caps a b : canonical a -> canonical b -> set_and a b = Ret (all_caps a b).
Proof.
  intros Ca Cb. unfold set_and. rewrite inter_list_caps by auto. cbn.
  rewrite canonical_from_iff in *. eapply from_iter_gapped, all_caps_gap; eauto.
Qed.

(** ** Union *)

Fixpoint drop_le (u : Z) (b : list interval) : list interval :=
  match b with
  | [] => []
  | j :: r => if upper j <=? u then drop_le u r else b
  end.

(** the intervals of [a] that the union of [a] and [b] takes into account *)
Fixpoint keep (a b : list interval) : list interval :=
  match a with
  | [] => []
  | i :: r =>
    match b with
    | [] => []
    | j :: rb =>
      if upper i <=? upper j then i :: keep r b
      else i :: match drop_le (upper i) rb with [] => [] | b' => keep r b' end
    end
  end.
Definition union_kept (a b : list interval) : list interval :=
  match b with [] => a | _ => keep a b end.

(** what is kept when the first list waits: [t] comes from it *)
Definition keep_j (t : interval) (ri rj : list interval) : list interval :=
  match drop_le (upper t) rj with [] => [] | b' => keep ri b' end.

Lemma keep_head_upper ri t t' rj : upper t = upper t' -> keep ri (t :: rj) = keep ri (t' :: rj).
Proof.
  intros E. induction ri as [|i r IH]; cbn; auto. rewrite E, IH. reflexivity.
Qed.

Definition union_mu (s : union_state) : nat :=
  length (un_i s) + length (un_j s) +
  match un_phase s with UWaitI | UWaitJ => 1 | _ => 0 end.

Lemma union_dec s s' t : union_turn s = (s', t) -> t <> Stop -> (union_mu s' < union_mu s)%nat.
Proof.
  destruct s as [a b ph tmp]. unfold union_turn, union_mu; cbn [un_i un_j un_phase un_tmp].
  destruct ph, a, b; intros E N; tests_in E; inv E; cbn; try congruence; try lia.
Qed.

Lemma union_only_i ri rj t : emits union_turn (mkUnion ri rj UOnlyI t) ri.
Proof.
  induction ri.
  - eapply em_stop; reflexivity.
  - eapply em_yield; [reflexivity|]. exact IHri.
Qed.
Lemma union_only_j ri rj t : emits union_turn (mkUnion ri rj UOnlyJ t) rj.
Proof.
  induction rj.
  - eapply em_stop; reflexivity.
  - eapply em_yield; [reflexivity|]. exact IHrj.
Qed.

Definition hull (i j : interval) : interval :=
  mkI (Z.min (lower i) (lower j)) (Z.max (upper i) (upper j)).

Lemma In_hull x i j : wf_iv i -> wf_iv j ->
  upper i + 1 <? lower j = false -> upper j + 1 <? lower i = false ->
  (In_iv x (hull i j) <-> In_iv x i \/ In_iv x j).
Proof. intros. unfold hull; ivs. unfold finite. lia. Qed.
Lemma hull_wf i j : wf_iv i -> wf_iv j -> wf_iv (hull i j).
Proof. unfold hull; ivs. lia. Qed.

Definition union_goal (s : union_state) (B : Z) (P : Z -> Prop) : Prop :=
  exists out, emits union_turn s out /\ canon_from B out /\ forall x, In_set x out <-> P x.

Lemma goal_again s s' B P P' : union_turn s = (s', Again) -> union_goal s' B P' ->
  (forall x, P' x <-> P x) -> union_goal s B P.
Proof.
  intros E (out & H & C & D) HP. exists out. split; [eapply em_again; eauto|].
  split; auto. intros. now rewrite D.
Qed.
Lemma goal_yield s s' i B P P' : union_turn s = (s', Yield i) -> B < lower i -> wf_iv i ->
  union_goal s' (upper i + 1) P' -> (forall x, In_iv x i \/ P' x <-> P x) -> union_goal s B P.
Proof.
  intros E L W (out & H & C & D) HP. exists (i :: out). split; [eapply em_yield; eauto|].
  split; [cbn; auto|]. intros. now rewrite In_set_cons, D.
Qed.

Lemma goal_only_j ri rj t B : canon_from B rj ->
  union_goal (mkUnion ri rj UOnlyJ t) B (fun x => In_set x rj).
Proof. intros C. exists rj. split; [apply union_only_j|]. split; [auto|reflexivity]. Qed.

Lemma drop_le_In u b j : In j (drop_le u b) -> In j b.
Proof. induction b; cbn; auto. destruct (upper a <=? u); cbn; tauto. Qed.

Lemma keep_j_stay t t' j ri rj : upper j <= upper t' -> upper t = upper t' ->
  keep_j t ri (j :: rj) = keep_j t' ri rj.
Proof.
  intros H E. unfold keep_j; cbn. rewrite E. now replace (upper j <=? upper t') with true by lia.
Qed.
Lemma keep_j_go t j ri rj : upper t < upper j -> keep_j t ri (j :: rj) = keep ri (j :: rj).
Proof.
  intros H. unfold keep_j; cbn. now replace (upper j <=? upper t) with false by lia.
Qed.
Lemma keep_stay i t ri rj : upper i <= upper t ->
  keep (i :: ri) (t :: rj) = i :: keep ri (t :: rj).
Proof. intros H. cbn. now replace (upper i <=? upper t) with true by lia. Qed.
Lemma keep_go i t ri rj : upper t < upper i ->
  keep (i :: ri) (t :: rj) = i :: keep_j i ri rj.
Proof. intros H. cbn. now replace (upper i <=? upper t) with false by lia. Qed.

Lemma union_wait n : forall ri rj t B,
  (length ri + length rj <= n)%nat -> wf_iv t -> B < lower t ->
  (canon_from B ri -> canon_from (upper t + 1) rj ->
   union_goal (mkUnion ri rj UWaitI t) B
     (fun x => In_iv x t \/ In_set x rj \/ In_set x (keep ri (t :: rj)))) /\
  (canon_from (upper t + 1) ri -> canon_from B rj ->
   union_goal (mkUnion ri rj UWaitJ t) B
     (fun x => In_iv x t \/ In_set x rj \/ In_set x (keep_j t ri rj))).
Proof.
  induction n as [|n IH]; intros ri rj t B L W LB; split; intros Ci Cj.
  - destruct ri, rj; try (cbn in L; lia).
    eapply goal_yield; [reflexivity|auto|auto| |].
    + apply goal_only_j; cbn; auto.
    + intros. cbn. rewrite In_set_nil. tauto.
  - destruct ri, rj; try (cbn in L; lia).
    eapply goal_yield; [reflexivity|auto|auto| |].
    + apply goal_only_j; cbn; auto.
    + intros. cbn. rewrite In_set_nil. tauto.
  - destruct ri as [|i ri].
    + eapply goal_yield; [reflexivity|auto|auto| |].
      * apply goal_only_j; cbn; auto.
      * intros. cbn. rewrite In_set_nil. tauto.
    + cbn in Ci, L. destruct Ci as (Li & Wi & Ci).
      assert (St : union_turn (mkUnion (i :: ri) rj UWaitI t) =
        if upper i + 1 <? lower t then (mkUnion ri rj UWaitI t, Yield i)
        else if upper t + 1 <? lower i then (mkUnion ri rj UWaitJ i, Yield t)
        else if upper i <=? upper t then (mkUnion ri rj UWaitI (hull i t), Again)
        else (mkUnion ri rj UWaitJ (hull i t), Again)).
      { unfold union_turn. cbn [un_i un_j un_phase un_tmp].
        rewrite !gap_test by (auto; unfold wf_iv in *; lia). unfold hull.
        tests; auto; do 3 f_equal; lia. }
      destruct (upper i + 1 <? lower t) eqn:E1; [|destruct (upper t + 1 <? lower i) eqn:E2;
        [|destruct (upper i <=? upper t) eqn:E3]].
      * eapply goal_yield; [exact St|auto|auto| |].
        -- apply (IH ri rj t (upper i + 1)); auto; lia.
        -- intros x. rewrite keep_stay by (unfold wf_iv in *; lia). rewrite In_set_cons. tauto.
      * eapply goal_yield; [exact St|auto|auto| |].
        -- apply (IH ri rj i (upper t + 1)); auto; lia.
        -- intros x. rewrite keep_go by (unfold wf_iv in *; lia). rewrite In_set_cons. tauto.
      * eapply goal_again; [exact St| |].
        -- apply (IH ri rj (hull i t) B); auto using hull_wf; try lia.
           ++ unfold hull; cbn; lia.
           ++ eapply canon_from_weaken; [|eassumption]. unfold wf_iv in *; lia.
           ++ eapply canon_from_weaken; [|eassumption]. unfold hull; cbn; lia.
        -- intros x. cbn beta. rewrite In_hull by auto. rewrite keep_stay by lia.
           rewrite In_set_cons.
           rewrite (keep_head_upper ri (hull i t) t) by (unfold hull; cbn; lia). tauto.
      * eapply goal_again; [exact St| |].
        -- apply (IH ri rj (hull i t) B); auto using hull_wf; try lia.
           ++ unfold hull; cbn; lia.
           ++ eapply canon_from_weaken; [|eassumption]. unfold hull; cbn; lia.
           ++ eapply canon_from_weaken; [|eassumption]. unfold wf_iv in *; lia.
        -- intros x. cbn beta. rewrite In_hull by auto. rewrite keep_go by lia.
           rewrite In_set_cons.
           unfold keep_j. replace (upper (hull i t)) with (upper i) by (unfold hull; cbn; lia).
           tauto.
  - destruct rj as [|j rj].
    + eapply goal_yield; [reflexivity|auto|auto| |].
      * apply goal_only_j; cbn; auto.
      * intros. cbn. rewrite In_set_nil. tauto.
    + cbn in Cj, L. destruct Cj as (Lj & Wj & Cj).
      assert (St : union_turn (mkUnion ri (j :: rj) UWaitJ t) =
        if upper j + 1 <? lower t then (mkUnion ri rj UWaitJ t, Yield j)
        else if upper t + 1 <? lower j then (mkUnion ri rj UWaitI j, Yield t)
        else if upper j <=? upper t then (mkUnion ri rj UWaitJ (hull j t), Again)
        else (mkUnion ri rj UWaitI (hull j t), Again)).
      { unfold union_turn. cbn [un_i un_j un_phase un_tmp].
        rewrite !gap_test by (auto; unfold wf_iv in *; lia). unfold hull.
        tests; auto; do 3 f_equal; lia. }
      destruct (upper j + 1 <? lower t) eqn:E1; [|destruct (upper t + 1 <? lower j) eqn:E2;
        [|destruct (upper j <=? upper t) eqn:E3]].
      * eapply goal_yield; [exact St|auto|auto| |].
        -- apply (IH ri rj t (upper j + 1)); auto; lia.
        -- intros x. rewrite In_set_cons.
           rewrite (keep_j_stay t t) by (auto; unfold wf_iv in *; lia). tauto.
      * eapply goal_yield; [exact St|auto|auto| |].
        -- apply (IH ri rj j (upper t + 1)); auto; lia.
        -- intros x. rewrite In_set_cons.
           rewrite keep_j_go by (unfold wf_iv in *; lia). tauto.
      * eapply goal_again; [exact St| |].
        -- apply (IH ri rj (hull j t) B); auto using hull_wf; try lia.
           ++ unfold hull; cbn; lia.
           ++ eapply canon_from_weaken; [|eassumption]. unfold hull; cbn; lia.
           ++ eapply canon_from_weaken; [|eassumption]. unfold wf_iv in *; lia.
        -- intros x. cbn beta. rewrite In_hull by auto.
           rewrite (keep_j_stay t (hull j t) j) by (unfold hull; cbn; lia).
           rewrite In_set_cons. tauto.
      * eapply goal_again; [exact St| |].
        -- apply (IH ri rj (hull j t) B); auto using hull_wf; try lia.
           ++ unfold hull; cbn; lia.
           ++ eapply canon_from_weaken; [|eassumption]. unfold wf_iv in *; lia.
           ++ eapply canon_from_weaken; [|eassumption]. unfold hull; cbn; lia.
        -- intros x. cbn beta. rewrite In_hull by auto.
           rewrite keep_j_go by lia. rewrite In_set_cons.
           rewrite (keep_head_upper ri (hull j t) j) by (unfold hull; cbn; lia). tauto.
Qed.

Lemma union_emits a b : canonical a -> canonical b ->
  union_goal (union_init a b) (- oo - 1) (fun x => In_set x b \/ In_set x (union_kept a b)).
Proof.
  rewrite !canonical_from_iff. intros Ca Cb. unfold union_init.
  destruct a as [|i ri].
  { destruct b as [|j rj].
    - exists []. split; [eapply em_stop; reflexivity|]. cbn. split; auto. intros; rewrite In_set_nil; tauto.
    - exists (j :: rj). split; [|split; [auto|intros; cbn; rewrite In_set_nil; tauto]].
      eapply em_yield; [reflexivity|]. apply union_only_j. }
  destruct b as [|j rj].
  { exists (i :: ri). split; [|split; [auto|intros; cbn; rewrite In_set_nil; tauto]].
    eapply em_yield; [reflexivity|]. apply union_only_i. }
  cbn in Ca, Cb. destruct Ca as (Li & Wi & Ci), Cb as (Lj & Wj & Cj).
  assert (St : union_turn (mkUnion (i :: ri) (j :: rj) UInit iv_all) =
        if upper i + 1 <? lower j then (mkUnion ri rj UWaitI j, Yield i)
        else if upper j + 1 <? lower i then (mkUnion ri rj UWaitJ i, Yield j)
        else if upper i <=? upper j then (mkUnion ri rj UWaitI (hull i j), Again)
        else (mkUnion ri rj UWaitJ (hull i j), Again)).
  { unfold union_turn. cbn [un_i un_j un_phase un_tmp].
    rewrite !gap_test by (auto; unfold wf_iv in *; lia). unfold hull.
    tests; auto; do 3 f_equal; lia. }
  unfold union_kept.
  destruct (upper i + 1 <? lower j) eqn:E1; [|destruct (upper j + 1 <? lower i) eqn:E2;
        [|destruct (upper i <=? upper j) eqn:E3]].
  - eapply goal_yield; [exact St|auto|auto| |].
    + apply (union_wait _ ri rj j (upper i + 1) (le_n _)); auto; lia.
    + intros x. rewrite keep_stay by (unfold wf_iv in *; lia). rewrite !In_set_cons. tauto.
  - eapply goal_yield; [exact St|auto|auto| |].
    + apply (union_wait _ ri rj i (upper j + 1) (le_n _)); auto; lia.
    + intros x. rewrite keep_go by (unfold wf_iv in *; lia). rewrite !In_set_cons. tauto.
  - eapply goal_again; [exact St| |].
    + apply (union_wait _ ri rj (hull i j) (- oo - 1) (le_n _)); auto using hull_wf.
      * unfold hull; cbn; lia.
      * eapply canon_from_weaken; [|eassumption]. unfold wf_iv in *; lia.
      * eapply canon_from_weaken; [|eassumption]. unfold hull; cbn; lia.
    + intros x. cbn beta. rewrite In_hull by auto. rewrite keep_stay by lia.
      rewrite !In_set_cons.
      rewrite (keep_head_upper ri (hull i j) j) by (unfold hull; cbn; lia). tauto.
  - eapply goal_again; [exact St| |].
    + apply (union_wait _ ri rj (hull i j) (- oo - 1) (le_n _)); auto using hull_wf.
      * unfold hull; cbn; lia.
      * eapply canon_from_weaken; [|eassumption]. unfold hull; cbn; lia.
      * eapply canon_from_weaken; [|eassumption]. unfold wf_iv in *; lia.
    + intros x. cbn beta. rewrite In_hull by auto. rewrite keep_go by lia.
      rewrite !In_set_cons.
      unfold keep_j. replace (upper (hull i j)) with (upper i) by (unfold hull; cbn; lia).
      tauto.
Qed.

Lemma union_collect_emits s l : emits union_turn s l -> union_collect s = Ret l.
Proof.
  intros H. unfold union_collect, union_next.
  apply (run_collect_emits union_turn union_mu union_dec union_fuel); auto.
  all: intros; unfold union_fuel, union_mu; try destruct (un_phase _); lia.
Qed.

Lemma union_list_spec a b : canonical a -> canonical b ->
  exists out, union_list a b = Ret out /\ canonical out /\
    forall x, In_set x out <-> In_set x b \/ In_set x (union_kept a b).
Proof.
  intros Ca Cb. destruct (union_emits a b Ca Cb) as (out & E & C & D).
  exists out. split; [now apply union_collect_emits|]. split; auto.
  eapply canon_from_canonical; eauto.
Qed.

Lemma set_or_spec a b : canonical a -> canonical b ->
  exists out, set_or a b = Ret out /\ canonical out /\
    forall x, In_set x out <-> In_set x b \/ In_set x (union_kept a b).
Proof.
  intros Ca Cb. destruct (union_list_spec a b Ca Cb) as (out & E & C & D).
  exists out. unfold set_or. rewrite E. cbn [bind]. rewrite from_iter_canonical; auto.
Qed.
