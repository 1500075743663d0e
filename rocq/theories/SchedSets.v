(** Sets with loosely delimited pieces: what intersections produce.

    The intersecting iterator also yields a piece for two adjacent intervals, whose lower
    bound is then just after its upper bound (C24_and_refuted).  Such pieces have no point;
    here they are followed through further intersections, truncations and translations. *)
From Verif Require Import Machine TimeValue Spec Tac TimeValueProofs Interval Iter TimeSet Relns
  Transl SpecSets SetProofs CollectProofs Prop_Interval SetOpsProofs Prop_TimeSet Prop_Transl.

Definition near (i : interval) : Prop :=
  - oo <= lower i /\ lower i <= upper i + 1 /\ upper i <= oo /\ lower i < oo /\ - oo < upper i.
Fixpoint near_from (b : Z) (l : list interval) : Prop :=
  match l with
  | [] => True
  | i :: r => b < lower i /\ near i /\ near_from (upper i + 1) r
  end.
Lemma near_loose i : near i -> loose i.
Proof. unfold near, loose. lia. Qed.
Lemma near_gap b l : near_from b l -> gap_from b l.
Proof. revert b; induction l; cbn; intros; intuition auto using near_loose. Qed.
Lemma wf_near i : wf_iv i -> near i.
Proof. unfold wf_iv, near. lia. Qed.
Lemma canon_near b l : canon_from b l -> near_from b l.
Proof. revert b; induction l; cbn; intros; intuition auto using wf_near. Qed.
Lemma near_from_weaken b c l : c <= b -> near_from b l -> near_from c l.
Proof. destruct l; cbn; intuition lia. Qed.
Lemma near_from_In b l i : near_from b l -> In i l -> b < lower i /\ near i.
Proof.
  revert b. induction l as [|j r IH]; cbn; intros b H I; [tauto|]. destruct I as [->|I]; [tauto|].
  destruct H as (Lj & Nj & H). destruct (IH _ H I). unfold near in Nj. split; auto. lia.
Qed.
Lemma near_cons b i r : b < lower i -> near i -> near_from (upper i + 1) r -> near_from b (i :: r).
Proof. cbn. auto. Qed.
Lemma ngap_test a i : near i -> - oo <= a ->
  (a <? just_before (lower i)) = (a + 1 <? lower i).
Proof.
  unfold near. intros W Ha. unfold just_before, is_finite. change INF with oo.
  destruct (Z.abs (lower i) =? oo) eqn:T; unfold negb; lia.
Qed.

Lemma n_caps_far i b l : near_from l b -> upper i + 1 <= l -> caps i b = [].
Proof.
  intros C L. unfold caps.
  replace (filter (touch i) b) with (@nil interval); auto. symmetry.
  apply not_incl_nil_filter || idtac.
  revert l C L. induction b as [|j r IH]; intros l C L; cbn; auto.
  cbn in C. destruct C as (Lj & W & C). unfold touch at 1.
  replace (upper i + 1 <? lower j) with true by lia. cbn.
  apply (IH (upper j + 1)); auto. unfold near in W. lia.
Qed.

Lemma n_all_caps_far_r a j b l : near_from l a -> upper j + 1 <= l ->
  all_caps a (j :: b) = all_caps a b.
Proof.
  revert l. induction a as [|i r IH]; intros l C L; cbn; auto.
  cbn in C. destruct C as (Li & W & C).
  rewrite (IH (upper i + 1)); auto; [|unfold near in W; lia].
  f_equal. unfold caps; cbn [filter]. unfold touch at 1.
  replace (upper j + 1 <? lower i) with true by lia.
  now rewrite andb_false_r.
Qed.

Lemma n_inter_wait n : forall ri rj t B,
  (length ri + length rj <= n)%nat -> near t ->
  (near_from B ri -> near_from (upper t + 1) rj ->
   emits inter_turn (mkInter ri rj IWaitI t) (all_caps ri (t :: rj))) /\
  (near_from (upper t + 1) ri -> near_from B rj ->
   emits inter_turn (mkInter ri rj IWaitJ t) (all_caps (t :: ri) rj)).
Proof.
  induction n as [|n IH]; intros ri rj t B L W; split; intros Ci Cj.
  - destruct ri; [|cbn in L; lia]. cbn. eapply em_stop. reflexivity.
  - destruct ri, rj; try (cbn in L; lia). cbn. eapply em_stop. reflexivity.
  - destruct ri as [|i ri]; [cbn; eapply em_stop; reflexivity|].
    cbn in Ci, L. destruct Ci as (Li & Wi & Ci).
    assert (St : inter_turn (mkInter (i :: ri) rj IWaitI t) =
      if upper i + 1 <? lower t then (mkInter ri rj IWaitI t, Again)
      else if upper t + 1 <? lower i then (mkInter ri rj IWaitJ i, Again)
      else if upper i <=? upper t then (mkInter ri rj IWaitI t, Yield (cap i t))
      else (mkInter ri rj IWaitJ i, Yield (cap i t))).
    { unfold inter_turn. cbn [in_i in_j in_phase in_tmp].
      rewrite !ngap_test by (auto; unfold near in *; lia).
      tests; auto; do 2 f_equal; apply iv_ext; unfold cap; cbn; lia. }
    destruct (upper i + 1 <? lower t) eqn:E1; [|destruct (upper t + 1 <? lower i) eqn:E2;
      [|destruct (upper i <=? upper t) eqn:E3]].
    + eapply em_again; [exact St|]. cbn.
      rewrite caps_no_touch by (unfold touch; rewrite E1; auto).
      rewrite (n_caps_far i rj (upper t + 1)) by (auto; unfold near in *; lia).
      cbn. apply (IH ri rj t (upper i + 1)); auto; lia.
    + eapply em_again; [exact St|].
      rewrite (n_all_caps_far_r _ _ _ (upper t + 1)) by (try apply near_cons; auto; lia).
      apply (IH ri rj i (upper t + 1)); auto; lia.
    + cbn. rewrite caps_touch by (unfold touch; rewrite E1, E2; auto).
      rewrite (n_caps_far i rj (upper t + 1)) by (auto; lia).
      cbn. eapply em_yield; [exact St|]. apply (IH ri rj t (upper i + 1)); auto; lia.
    + cbn. rewrite caps_touch by (unfold touch; rewrite E1, E2; auto).
      rewrite (n_all_caps_far_r _ _ _ (upper i + 1)) by (auto; lia).
      cbn. eapply em_yield; [exact St|]. apply (IH ri rj i (upper t + 1)); auto; lia.
  - destruct rj as [|j rj].
    { assert (G : forall m, all_caps m [] = []) by (induction m; auto).
      rewrite G. eapply em_stop; reflexivity. }
    cbn in Cj, L. destruct Cj as (Lj & Wj & Cj).
    assert (St : inter_turn (mkInter ri (j :: rj) IWaitJ t) =
      if upper j + 1 <? lower t then (mkInter ri rj IWaitJ t, Again)
      else if upper t + 1 <? lower j then (mkInter ri rj IWaitI j, Again)
      else if upper j <=? upper t then (mkInter ri rj IWaitJ t, Yield (cap t j))
      else (mkInter ri rj IWaitI j, Yield (cap t j))).
    { unfold inter_turn. cbn [in_i in_j in_phase in_tmp].
      rewrite !ngap_test by (auto; unfold near in *; lia). rewrite (cap_comm t j).
      tests; auto; do 2 f_equal; apply iv_ext; unfold cap; cbn; lia. }
    destruct (upper j + 1 <? lower t) eqn:E1; [|destruct (upper t + 1 <? lower j) eqn:E2;
      [|destruct (upper j <=? upper t) eqn:E3]].
    + eapply em_again; [exact St|].
      rewrite (n_all_caps_far_r (t :: ri) j rj (upper j + 1)) by (try apply near_cons; auto; lia).
      apply (IH ri rj t (upper j + 1)); auto; lia.
    + eapply em_again; [exact St|]. cbn.
      rewrite (n_caps_far t (j :: rj) (upper t + 1)) by (try apply near_cons; auto; lia).
      cbn. apply (IH ri rj j (upper t + 1)); auto; lia.
    + cbn. rewrite caps_touch by (unfold touch; rewrite E1, E2; auto).
      rewrite (n_all_caps_far_r _ _ _ (upper t + 1)) by (auto; lia).
      cbn. eapply em_yield; [exact St|]. apply (IH ri rj t (upper j + 1)); auto; lia.
    + cbn. rewrite caps_touch by (unfold touch; rewrite E1, E2; auto).
      rewrite (n_caps_far t rj (upper j + 1)) by (auto; lia).
      cbn. eapply em_yield; [exact St|]. apply (IH ri rj j (upper t + 1)); auto; lia.
Qed.

Lemma n_inter_emits a b B B' : near_from B a -> near_from B' b ->
  emits inter_turn (inter_init a b) (all_caps a b).
Proof.
  intros Ca Cb. unfold inter_init.
  destruct a as [|i ri]; [cbn; eapply em_stop; reflexivity|].
  destruct b as [|j rj]; [rewrite all_caps_nil_r; eapply em_stop; reflexivity|].
  cbn in Ca, Cb. destruct Ca as (Li & Wi & Ci), Cb as (Lj & Wj & Cj).
  assert (St : inter_turn (mkInter (i :: ri) (j :: rj) IInit iv_all) =
      if upper i + 1 <? lower j then (mkInter ri rj IWaitI j, Again)
      else if upper j + 1 <? lower i then (mkInter ri rj IWaitJ i, Again)
      else if upper i <=? upper j then (mkInter ri rj IWaitI j, Yield (cap i j))
      else (mkInter ri rj IWaitJ i, Yield (cap i j))).
  { unfold inter_turn. cbn [in_i in_j in_phase in_tmp].
    rewrite !ngap_test by (auto; unfold near in *; lia).
    tests; auto; do 2 f_equal; apply iv_ext; unfold cap; cbn; lia. }
  destruct (upper i + 1 <? lower j) eqn:E1; [|destruct (upper j + 1 <? lower i) eqn:E2;
      [|destruct (upper i <=? upper j) eqn:E3]].
  - eapply em_again; [exact St|]. cbn.
    rewrite caps_no_touch by (unfold touch; rewrite E1; auto).
    rewrite (n_caps_far i rj (upper j + 1)) by (auto; unfold near in *; lia).
    cbn. apply (n_inter_wait _ ri rj j (upper i + 1) (le_n _)); auto.
  - eapply em_again; [exact St|].
    rewrite (n_all_caps_far_r _ _ _ (upper j + 1)) by (try apply near_cons; auto; lia).
    apply (n_inter_wait _ ri rj i (upper j + 1) (le_n _)); auto.
  - cbn. rewrite caps_touch by (unfold touch; rewrite E1, E2; auto).
    rewrite (n_caps_far i rj (upper j + 1)) by (auto; lia).
    cbn. eapply em_yield; [exact St|]. apply (n_inter_wait _ ri rj j (upper i + 1) (le_n _)); auto.
  - cbn. rewrite caps_touch by (unfold touch; rewrite E1, E2; auto).
    rewrite (n_all_caps_far_r _ _ _ (upper i + 1)) by (auto; lia).
    cbn. eapply em_yield; [exact St|]. apply (n_inter_wait _ ri rj i (upper j + 1) (le_n _)); auto.
Qed.

Lemma n_inter_list_caps a b B B' : near_from B a -> near_from B' b ->
  inter_list a b = Ret (all_caps a b).
Proof. intros. apply inter_collect_emits. eapply n_inter_emits; eauto. Qed.

Lemma n_caps_near i b : forall B c, near i -> near_from B b -> c < lower i \/ c <= B ->
  near_from c (caps i b).
Proof.
  induction b as [|j r IH]; intros B c W C H; cbn; auto.
  cbn in C. destruct C as (Lj & Wj & C). unfold caps. cbn [filter].
  destruct (touch i j) eqn:T.
  - cbn [map near_from]. unfold cap at 1 2 3; cbn [lower upper]. split; [lia|]. split.
    + unfold touch in T. unfold near in *; cbn; lia.
    + apply (IH (upper j + 1)); auto. lia.
  - apply (IH (upper j + 1)); auto. unfold near in *; lia.
Qed.
Lemma near_app l : forall c u m, near_from c l -> (forall k, In k l -> upper k <= u) ->
  c <= u + 1 -> near_from (u + 1) m -> near_from c (l ++ m).
Proof.
  induction l as [|i r IH]; cbn; intros c u m G U L Gm.
  - eapply near_from_weaken; eauto.
  - destruct G as (Gi & Li & G). split; auto. split; auto.
    apply (IH _ u); auto. specialize (U i (or_introl eq_refl)). lia.
Qed.
Lemma n_all_caps_near a b : forall B B', near_from B a -> near_from B' b ->
  near_from B (all_caps a b).
Proof.
  induction a as [|i r IH]; cbn; intros B B' Ca Cb; auto.
  destruct Ca as (Li & W & Ca).
  apply (near_app _ _ (upper i)).
  - apply (n_caps_near i b B'); auto.
  - intros k. unfold caps. rewrite in_map_iff. intros (j & <- & _). unfold cap; cbn. lia.
  - unfold near in W. lia.
  - eapply IH; eauto.
Qed.
Lemma n_from_iter b l : near_from b l -> from_iter l = Ret l.
Proof. intros. eapply from_iter_gapped, near_gap; eauto. Qed.
(** [&] of two such sets *)
Lemma n_set_and a b B B' : near_from B a -> near_from B' b ->
  set_and a b = Ret (all_caps a b) /\ near_from B (all_caps a b) /\
  forall x, In_set x (all_caps a b) <-> In_set x a /\ In_set x b.
Proof.
  intros Ca Cb. pose proof (n_all_caps_near a b B B' Ca Cb) as N. unfold set_and.
  rewrite (n_inter_list_caps a b B B') by auto. cbn [bind]. rewrite (n_from_iter B) by auto.
  split; auto. split; auto. intros x. apply In_set_all_caps.
Qed.

(** ** Truncation *)

Lemma near_app_inv b a m : near_from b (a ++ m) ->
  near_from b a /\ exists c, b <= c /\ near_from c m /\ forall i, In i a -> upper i + 1 <= c.
Proof.
  revert b. induction a as [|j r IH]; intros b C.
  - split; [exact I|]. exists b. cbn in *. split; [lia|]. split; auto. tauto.
  - cbn in C. destruct C as (L & W & C). destruct (IH _ C) as (C1 & c & Lc & C2 & U).
    split; [cbn; auto|]. exists c. unfold near in W. split; [lia|]. split; auto.
    intros i [->|H]; auto.
Qed.
Lemma near_In_set b l x : near_from b l -> In_set x l -> b < x.
Proof.
  intros C (i & I & F & H). destruct (near_from_In _ _ _ C I). lia.
Qed.
Lemma near_app_one c a m B : near_from B a -> B <= c -> (forall k, In k a -> upper k + 1 <= c) ->
  near_from c m -> near_from B (a ++ m).
Proof.
  intros Ca L U Cm. apply (near_app a B (c - 1)); auto.
  - intros k I. apply U in I. lia.
  - lia.
  - replace (c - 1 + 1) with c by lia. auto.
Qed.

Lemma n_truncate_before B l t : near_from B l -> valid t -> t < oo ->
  near_from B (fst (set_truncate_before l t)) /\
  (forall x, In_set x (fst (set_truncate_before l t)) <-> In_set x l /\ t <= x).
Proof.
  intros C Vt Lt. unfold set_truncate_before.
  pose proof (position_spec (fun i => t <=? upper i) l) as P.
  destruct (position (fun i => t <=? upper i) l) as [n|].
  - destruct P as (a & i & b & -> & <- & Hi & Fa).
    destruct (near_app_inv _ _ _ C) as (Ca & c & Lc & Cb & U).
    destruct Cb as (Lci & W & Cb').
    assert (Ti : near (fst (iv_truncate_before i t)) /\
                 (forall x, In_iv x (fst (iv_truncate_before i t)) <-> In_iv x i /\ t <= x) /\
                 upper (fst (iv_truncate_before i t)) = upper i /\
                 lower i <= lower (fst (iv_truncate_before i t))).
    { unfold iv_truncate_before. destruct (t <=? lower i) eqn:E1.
      - cbn [fst snd]. split; auto. split; [intros x; unfold In_iv; intuition lia|]. lia.
      - destruct (upper i <? t) eqn:E2; [lia|]. cbn [fst snd lower upper].
        split; [unfold near, valid in *; cbn; lia|].
        split; [intros x; unfold In_iv; cbn; intuition lia|]. lia. }
    destruct Ti as (TW & TI & TU & TL).
    assert (CB : near_from B (fst (iv_truncate_before i t) :: b)).
    { apply near_cons; auto; [lia|]. now rewrite TU. }
    assert (DB : forall x, In_set x (fst (iv_truncate_before i t) :: b) <-> In_set x (i :: b) /\ t <= x).
    { intros x. rewrite !In_set_cons, TI.
      pose proof (near_In_set _ _ x Cb'). split; [|tauto].
      intros [H1|H1]; [tauto|]. specialize (H H1). split; auto. lia. }
    destruct a as [|k a].
    + cbn [length app]. destruct (iv_truncate_before i t) as [i' s]; cbn [fst snd] in *. auto.
    + cbn [length]. change (S (length a)) with (length (k :: a)). rewrite skipn_app_len.
      cbn [update_at fst snd]. split; auto.
      intros x. rewrite DB, In_set_app.
      assert (In_set x (k :: a) -> x < t).
      { intros (m & Hm & _ & Hx). rewrite Forall_forall in Fa. apply Fa in Hm. lia. }
      intuition lia.
  - assert (N : forall x, In_set x l -> x < t).
    { intros x (m & Hm & _ & Hx). rewrite Forall_forall in P. apply P in Hm. lia. }
    destruct l as [|i r]; cbn [fst snd]; (split; [exact I|]); intros x; rewrite In_set_nil; [tauto|].
    split; [tauto|]. intros [H1 H2]. apply N in H1. lia.
Qed.

Lemma n_truncate_after B l t : near_from B l -> valid t -> - oo < t ->
  near_from B (fst (set_truncate_after l t)) /\
  (forall x, In_set x (fst (set_truncate_after l t)) <-> In_set x l /\ x <= t).
Proof.
  intros C Vt Lt. unfold set_truncate_after.
  pose proof (rposition_spec (fun i => lower i <=? t) l) as P.
  destruct (rposition (fun i => lower i <=? t) l) as [n|].
  - destruct P as (a & i & b & -> & <- & Hi & Fb).
    destruct (near_app_inv _ _ _ C) as (Ca & c & Lc & Cb & U).
    destruct Cb as (Lci & W & Cb').
    assert (Ti : near (fst (iv_truncate_after i t)) /\
                 (forall x, In_iv x (fst (iv_truncate_after i t)) <-> In_iv x i /\ x <= t) /\
                 lower (fst (iv_truncate_after i t)) = lower i).
    { unfold iv_truncate_after. destruct (upper i <=? t) eqn:E1.
      - cbn [fst snd]. split; auto. split; [intros x; unfold In_iv; intuition lia|]. lia.
      - destruct (t <? lower i) eqn:E2; [lia|]. cbn [fst snd lower upper].
        split; [unfold near, valid in *; cbn; lia|].
        split; [intros x; unfold In_iv; cbn; intuition lia|]. lia. }
    destruct Ti as (TW & TI & TL).
    assert (CB : near_from B (a ++ [fst (iv_truncate_after i t)])).
    { apply (near_app_one c); auto. apply near_cons; auto; [lia|exact I]. }
    assert (DB : forall x, In_set x (a ++ [fst (iv_truncate_after i t)]) <->
                           In_set x (a ++ i :: b) /\ x <= t).
    { intros x. rewrite !In_set_app, In_set_one, In_set_cons, TI.
      assert (In_set x a -> x < lower i).
      { intros (m & Hm & _ & Hx). apply U in Hm. lia. }
      assert (In_set x b -> t < x).
      { intros (m & Hm & _ & Hx). rewrite Forall_forall in Fb. apply Fb in Hm. lia. }
      split; [|intuition lia]. intros [H1|H1]; [|tauto]. split; auto. apply H in H1. lia. }
    rewrite app_length. cbn [length].
    destruct (Nat.eqb (length a + 1) (length a + S (length b))) eqn:E.
    + assert (b = []) by (destruct b; auto; apply Nat.eqb_eq in E; cbn in E; lia). subst b.
      rewrite update_at_app. cbn [fst snd]. auto.
    + rewrite firstn_app_len, update_at_app. cbn [fst snd]. auto.
  - assert (N : forall x, In_set x l -> t < x).
    { intros x (m & Hm & _ & Hx). rewrite Forall_forall in P. apply P in Hm. lia. }
    destruct l as [|i r]; cbn [fst snd]; (split; [exact I|]); intros x; rewrite In_set_nil; [tauto|].
    split; [tauto|]. intros [H1 H2]. apply N in H1. lia.
Qed.

(** ** Containment and overlap are sound *)

Lemma n_find l v : forall B, near_from B l ->
  match find (fun ts => v <=? upper ts) l with
  | Some k => In k l /\ v <= upper k /\ (forall m, In m l -> m = k \/ upper m < v \/ upper k + 1 < lower m)
  | None => forall m, In m l -> upper m < v
  end.
Proof.
  induction l as [|i r IH]; intros B C; cbn [find]; [intros ? []|].
  destruct C as (L & W & C). destruct (v <=? upper i) eqn:E.
  - split; [cbn; auto|]. split; [lia|]. intros m [->|H]; auto. right. right.
    apply (near_from_In _ _ _ C) in H. lia.
  - specialize (IH _ C). destruct (find (fun ts => v <=? upper ts) r) as [k|].
    + destruct IH as (H1 & H2 & H3). split; [cbn; auto|]. split; auto.
      intros m [<-|H]; auto. right. left. lia.
    + intros m [<-|H]; auto. lia.
Qed.
Lemma n_overlaps_cx l c B x : near_from B l -> set_overlaps_cx l c = false ->
  In_set x l -> cx_lower c <= x <= cx_upper c -> False.
Proof.
  intros C O (m & Hm & F & Hx) Hc. unfold set_overlaps_cx in O.
  pose proof (n_find l (cx_lower c) B C) as P.
  destruct (find (fun ts => cx_lower c <=? upper ts) l) as [k|].
  - destruct P as (Ik & Lk & Q). destruct (near_from_In _ _ _ C Ik) as (_ & Nk). unfold near in Nk.
    destruct (Q m Hm) as [->|[?|?]]; lia.
  - specialize (P m Hm). lia.
Qed.
Lemma n_upper l B x : near_from B l -> In_set x l -> set_lower l <= x <= set_upper l.
Proof.
  intros C (m & Hm & F & Hx). split.
  - destruct l as [|i r]; [destruct Hm|]. simpl. destruct Hm as [->|Hm]; [lia|].
    destruct C as (_ & N & C). destruct (near_from_In _ _ _ C Hm). unfold near in N. lia.
  - unfold set_upper. destruct (last_opt l) as [z|] eqn:E.
    + pose proof (last_opt_Some _ _ E) as El. rewrite El in C, Hm.
      destruct (near_app_inv _ _ _ C) as (_ & c & _ & (Lz & Nz & _) & U).
      apply in_app_iff in Hm as [Hm|[->|[]]]; [|lia]. apply U in Hm. unfold near in Nz. lia.
    + apply last_opt_None in E. subst. destruct Hm.
Qed.

(** ** Translation *)

Lemma checked_cases p lo up : valid lo -> valid up ->
  (lo <= up /\ lo < oo /\ - oo < up /\ iv_checked p lo up = Ret (mkI lo up) /\ wf_iv (mkI lo up)) \/
  ((forall x, finite x -> ~ lo <= x <= up) /\
   iv_checked p lo up = match p with Debug => Panic | Release => Ret iv_empty end).
Proof.
  intros V1 V2. unfold iv_checked, iv_new. destruct (Z.compare_spec lo up) as [E|E|E].
  - subst. unfold iv_singleton. destruct (is_finite up) eqn:T.
    + left. assert (- oo < up < oo) by (pts; lia). unfold iv_is_empty; cbn [lower].
      replace (is_future_infinite up) with false by (pts; lia). split; [lia|]. split; [lia|]. split; [lia|].
      split; [destruct p; reflexivity|unfold wf_iv; cbn; lia].
    + right. split; [intros x F; pts; lia|]. destruct p; reflexivity.
  - destruct (Z.eq_dec lo oo) as [->|N].
    + exfalso. unfold valid in *. lia.
    + left. assert (lo < oo) by (unfold valid in *; lia). unfold iv_is_empty; cbn [lower].
      replace (is_future_infinite lo) with false by (pts; lia). unfold valid in *. split; [lia|]. split; [lia|].
      split; [lia|]. split; [destruct p; reflexivity|unfold wf_iv; cbn; lia].
  - right. split; [intros x F; lia|]. destruct p; reflexivity.
Qed.
Definition sum_box (i j : interval) (x : Z) : Prop :=
  finite x /\ lsum (lower i) (lower j) <= x <= usum (upper i) (upper j).
Lemma n_add_piece p i j : near i -> wf_iv j ->
  (exists k, iv_add_span p i j = Ret k /\ wf_iv k /\ k = mkI (lsum (lower i) (lower j)) (usum (upper i) (upper j))) \/
  ((forall x, ~ sum_box i j x) /\
   iv_add_span p i j = match p with Debug => Panic | Release => Ret iv_empty end).
Proof.
  intros Wi Wj.
  assert (E : iv_add_span p i j = iv_checked p (lsum (lower i) (lower j)) (usum (upper i) (upper j))).
  { unfold iv_add_span. unfold wf_iv, near in *.
    rewrite add_lower, add_upper by (unfold valid; lia). reflexivity. }
  rewrite E.
  destruct (checked_cases p (lsum (lower i) (lower j)) (usum (upper i) (upper j))) as [(_ & _ & _ & -> & W)|(X & ->)].
  - unfold lsum. unfold near, wf_iv in *. pts. tests; lia.
  - unfold usum. unfold near, wf_iv in *. pts. tests; lia.
  - left. eauto.
  - right. split; auto. intros x (F & H). exact (X x F H).
Qed.

Lemma n_fold_add p j l : wf_iv j -> forall acc src B, near_from B l ->
  canonical acc -> Forall wf_iv src -> (forall x, In_set x acc <-> In_set x src) ->
  (forall e i, In e src -> In i l -> lower e <= usum (upper i) (upper j)) ->
  (p = Debug /\ ofold (fun r i => x <- iv_add_span p i j ;; set_or_cx r (CIv x)) acc l = Panic /\
     exists i, In i l /\ forall x, ~ sum_box i j x) \/
  exists out, ofold (fun r i => x <- iv_add_span p i j ;; set_or_cx r (CIv x)) acc l = Ret out /\
    canonical out /\
    forall x, In_set x out <-> In_set x src \/ exists i, In i l /\ sum_box i j x.
Proof.
  intros Wj. induction l as [|i r IH]; intros acc src B N C Ws D O.
  - right. exists acc. split; auto. split; auto. intros x. rewrite D. split; auto.
    intros [H|(i & [] & _)]; auto.
  - destruct N as (L & Ni & N). cbn [ofold].
    destruct (n_add_piece p i j Ni Wj) as [(k & -> & Wk & Ek)|(X & E)].
    + cbn [bind]. destruct (set_or_cx_wf acc k C Wk) as (acc' & -> & C' & D'). cbn [bind].
      rewrite (forward_step acc k src) in D'; auto.
      2: { apply Forall_forall. intros e He. rewrite Ek. apply O; simpl; auto. }
      destruct (IH acc' (src ++ [k]) _ N C') as [(-> & E & (i' & Hi & X))|(out & E & Co & Do)].
      * apply Forall_app; auto.
      * intros x. rewrite D', In_set_app, In_set_one, D. tauto.
      * intros e i' He Hi. apply in_app_iff in He as [He|[<-|[]]]; [apply O; simpl; auto|].
        rewrite Ek. cbn [lower]. apply lsum_usum. destruct (near_from_In _ _ _ N Hi) as (L' & Ni').
        unfold near, wf_iv in *. lia.
      * left. split; auto. split; auto. exists i'. simpl. auto.
      * right. exists out. split; auto. split; auto. intros x. rewrite Do, In_set_app, In_set_one.
        assert (K : In_iv x k <-> sum_box i j x) by (rewrite Ek; unfold In_iv, sum_box; simpl; tauto).
        rewrite K. split.
        -- intros [[H|H]|(i' & Hi & H)]; auto; right; [exists i|exists i']; simpl; auto.
        -- intros [H|(i' & [<-|Hi] & H)]; eauto.
    + destruct p.
      * left. rewrite E. split; auto. split; auto. exists i. simpl. auto.
      * rewrite E. cbn [bind]. destruct (or_empty acc C) as (acc' & -> & C' & D'). cbn [bind].
        destruct (IH acc' src _ N C') as [(Q & _)|(out & Eo & Co & Do)]; auto.
        -- intros x. now rewrite D', D.
        -- intros e i' He Hi. apply O; simpl; auto.
        -- discriminate.
        -- right. exists out. split; auto. split; auto. intros x. rewrite Do. split.
           ++ intros [H|(i' & Hi & H)]; auto. right. exists i'. simpl. auto.
           ++ intros [H|(i' & [<-|Hi] & H)]; eauto. destruct (X _ H).
Qed.
Lemma n_add_span p l j B : near_from B l -> wf_iv j ->
  (p = Debug /\ set_add_span p l j = Panic /\ exists i, In i l /\ forall x, ~ sum_box i j x) \/
  exists out, set_add_span p l j = Ret out /\ canonical out /\
    forall x, In_set x out <-> exists i, In i l /\ sum_box i j x.
Proof.
  intros N Wj. destruct (n_fold_add p j l Wj [] [] B N) as [H|(out & E & C & D)]; simpl; auto; try tauto.
  - right. exists out. split; auto. split; auto. intros x. rewrite D, In_set_nil. tauto.
Qed.
(** No point reachable by the constraint is lost. *)
Lemma sum_box_in i j x y : near i -> wf_iv j -> In_iv y i -> finite x -> In_ext (x - y) j -> sum_box i j x.
Proof.
  unfold sum_box, In_iv, In_ext, lsum, usum, near, wf_iv. intros Ni Wj (Fy & Hy) Fx (H1 & H2).
  split; auto. unfold clamp. pts. tests; lia.
Qed.
