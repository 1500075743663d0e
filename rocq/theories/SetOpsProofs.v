(** Lemmas about complement, truncation, containment and the shape of intersections. *)
From Verif Require Import Machine TimeValue Spec Tac TimeValueProofs Interval Iter TimeSet Relns
  SpecSets SetProofs CollectProofs.

Lemma In_iv_dec x i : {In_iv x i} + {~ In_iv x i}.
Proof.
  unfold In_iv, finite.
  destruct (Z_lt_dec (- oo) x), (Z_lt_dec x oo), (Z_le_dec (lower i) x), (Z_le_dec x (upper i));
    (left; lia) || (right; lia).
Qed.
Lemma In_set_dec x l : {In_set x l} + {~ In_set x l}.
Proof.
  induction l as [|i r IH].
  - right. now rewrite In_set_nil.
  - destruct (In_iv_dec x i); [left; apply In_set_cons; auto|].
    destruct IH; [left; apply In_set_cons; auto|right].
    rewrite In_set_cons. tauto.
Qed.
Lemma In_set_finite x l : In_set x l -> finite x.
Proof. intros (i & _ & F & _). auto. Qed.

(** ** Complement *)

Lemma not_gaps_spec l : forall u, - oo < u <= oo -> canon_from (u + 1) l ->
  canon_from u (not_gaps (just_after u) l) /\
  forall x, In_set x (not_gaps (just_after u) l) <-> finite x /\ u < x /\ ~ In_set x l.
Proof.
  induction l as [|tw r IH]; intros u Hu C.
  - cbn [not_gaps]. rewrite just_after_spec by (pts; lia).
    destruct (is_future_infinite (if (u =? oo) || (u =? - oo) then u else u + 1)) eqn:E.
    + split; [exact I|]. intros x. rewrite !In_set_nil. pts. tests_in E; lia.
    + split.
      * cbn. split; [|split; [|exact I]]; unfold wf_iv; cbn [lower upper]; pts; tests_in E; tests; lia.
      * intros x. rewrite In_set_one, In_set_nil. unfold In_iv; cbn [lower upper].
        pts; tests_in E; tests; lia.
  - cbn in C. destruct C as (L & W & C).
    assert (Hu' : u < oo - 1) by (unfold wf_iv in W; lia).
    destruct (IH (upper tw)) as [IC ID]; auto; [unfold wf_iv in W; lia|].
    cbn [not_gaps].
    replace (just_after u) with (u + 1)
      by (rewrite just_after_spec by (pts; lia); pts; tests; lia).
    replace (just_before (lower tw)) with (lower tw - 1)
      by (unfold wf_iv in W; rewrite just_before_spec by (pts; lia); pts; tests; lia).
    split.
    + apply canon_cons; cbn [lower upper]; [lia|unfold wf_iv in *; cbn [lower upper]; lia|].
      eapply canon_from_weaken; [|exact IC]. unfold wf_iv in W. lia.
    + intros x. rewrite !In_set_cons, ID. unfold In_iv at 1; cbn [lower upper].
      pose proof (canon_from_In_set _ _ x C). unfold In_iv, wf_iv, finite in *.
      destruct (Z_lt_le_dec x (lower tw)).
      * intuition lia.
      * destruct (Z_le_gt_dec x (upper tw)); intuition lia.
Qed.

Lemma set_not_spec l : canonical l ->
  canonical (set_not l) /\ forall x, In_set x (set_not l) <-> finite x /\ ~ In_set x l.
Proof.
  rewrite canonical_from_iff. intros C. destruct l as [|i r].
  - cbn [set_not]. split.
    + unfold set_all. apply canonical_one. unfold wf_iv, iv_all; cbn; pts; lia.
    + intros x. unfold set_all. rewrite In_set_one, In_set_nil. unfold In_iv, iv_all; cbn; pts; lia.
  - cbn [canon_from] in C. destruct C as (L & W & C). cbn [set_not].
    destruct (not_gaps_spec r (upper i)) as [IC ID]; auto; [unfold wf_iv in W; lia|].
    rewrite just_before_spec by (unfold wf_iv in W; pts; lia).
    destruct (is_past_infinite _) eqn:E.
    + cbn [app]. split; [eapply canon_from_canonical; eauto|].
      intros x. rewrite ID, In_set_cons.
      pose proof (canon_from_In_set _ _ x C).
      unfold In_iv, wf_iv in *. pts. tests_in E; intuition lia.
    + cbn [app]. assert (- oo + 1 < lower i) by (unfold wf_iv in W; pts; tests_in E; lia).
      replace (if (lower i =? oo) || (lower i =? - oo) then lower i else lower i - 1)
        with (lower i - 1) by (unfold wf_iv in W; pts; tests; lia).
      split.
      * apply (canon_from_canonical (- oo - 1)). apply canon_cons; cbn [lower upper].
        -- pts; lia.
        -- unfold wf_iv in *; cbn; pts; lia.
        -- eapply canon_from_weaken; [|exact IC]. unfold wf_iv in W; lia.
      * intros x. rewrite !In_set_cons, ID. unfold In_iv at 1; cbn [lower upper].
        pose proof (canon_from_In_set _ _ x C).
        unfold In_iv, wf_iv in *. unfold INF, i64_max in *. pts.
        destruct (Z_lt_le_dec x (lower i)); [|destruct (Z_le_gt_dec x (upper i))];
          intuition lia.
Qed.

Definition compl_run := run_collect (fun s => Ret (compl_next s)).

Lemma compl_run_S f s : compl_run (S f) s =
  match compl_next s with
  | (None, _) => Ret []
  | (Some a, s') => l <- compl_run f s' ;; Ret (a :: l)
  end.
Proof. reflexivity. Qed.
Arguments compl_run : simpl never.

Lemma compl_run_gaps l : forall u f, - oo < u <= oo -> canon_from (u + 1) l ->
  (length l + 2 <= f)%nat -> compl_run f (mkCompl l (just_after u)) = Ret (not_gaps (just_after u) l).
Proof.
  assert (P : forall u, - oo < u <= oo -> is_past_infinite (just_after u) = false).
  { intros u Hu. rewrite just_after_spec by (pts; lia). pts. tests; lia. }
  induction l as [|n r IH]; intros u f Hu C Hf; (destruct f as [|f]; [lia|]).
  - rewrite compl_run_S. unfold compl_next; cbn [co_lower co_iter].
    rewrite P by auto. cbn [compl_for not_gaps]. destruct (is_future_infinite (just_after u)) eqn:E; auto.
    destruct f as [|f]; [cbn in Hf; lia|]. reflexivity.
  - cbn in C. destruct C as (L & W & C). rewrite compl_run_S.
    unfold compl_next; cbn [co_lower co_iter]. rewrite P by auto. cbn [compl_for not_gaps].
    replace (just_after u <? lower n) with true
      by (rewrite just_after_spec by (pts; lia); unfold wf_iv in W; tests; pts; lia).
    rewrite IH; auto; [unfold wf_iv in W; lia|cbn in Hf; lia].
Qed.

Lemma compl_list_not l : canonical l -> compl_list l = Ret (set_not l).
Proof.
  rewrite canonical_from_iff. intros C. unfold compl_list, compl_collect, compl_init, compl_fuel.
  destruct l as [|i r]; [reflexivity|].
  destruct C as (L & W & C). cbn [co_iter length].
  assert (Hu : - oo < upper i <= oo) by (unfold wf_iv in W; lia).
  pose proof (compl_run_gaps r (upper i)) as R.
  fold compl_run. rewrite compl_run_S. unfold compl_next; cbn [co_lower co_iter].
  replace (is_past_infinite (- INF)) with true by reflexivity.
  unfold set_not. unfold is_past_infinite at 1.
  change (- i64_max) with (- INF).
  destruct (just_before (lower i) =? - INF) eqn:E.
  - cbn [app]. specialize (R (S (S (S (length r)))) Hu C ltac:(lia)).
    assert (P : is_past_infinite (just_after (upper i)) = false).
    { rewrite just_after_spec by (pts; lia). pts. tests; lia. }
    rewrite compl_run_S in R. unfold compl_next at 1 in R.
    cbn [co_lower co_iter] in R. rewrite P in R. exact R.
  - cbn [app]. rewrite R by (auto; lia). reflexivity.
Qed.

Lemma canonical_In l i : canonical l -> In i l -> wf_iv i.
Proof. rewrite canonical_from_iff. intros C H. eapply canon_from_In in C as [_ W]; eauto. Qed.

(** ** When intersections are canonical, and empty *)

Lemma touch_near i j : wf_iv i -> wf_iv j ->
  (touch i j = true <-> exists x y, In_iv x i /\ In_iv y j /\ Z.abs (x - y) <= 1).
Proof.
  intros Wi Wj. unfold touch. split.
  - intros T. destruct (Z_le_gt_dec (Z.max (lower i) (lower j)) (Z.min (upper i) (upper j))) as [H|H].
    + assert (W : wf_iv (cap i j)) by (unfold wf_iv, cap in *; cbn [lower upper]; lia).
      destruct (wf_nonempty _ W) as [x Hx]. exists x, x. unfold In_iv, cap, finite in *; cbn [lower upper] in *.
      lia.
    + destruct (Z_lt_le_dec (upper i) (lower j)).
      * exists (upper i), (lower j). unfold In_iv, wf_iv, finite in *. lia.
      * exists (lower i), (upper j). unfold In_iv, wf_iv, finite in *. lia.
  - intros (x & y & Hx & Hy & D). unfold In_iv in *. lia.
Qed.

Lemma all_caps_nil_iff a b : canonical a -> canonical b ->
  (all_caps a b = [] <->
   forall x y, In_set x a -> In_set y b -> 1 < Z.abs (x - y)).
Proof.
  intros Ca Cb. split.
  - intros E x y (i & Hi & Hx) (j & Hj & Hy).
    destruct (Z_lt_le_dec 1 (Z.abs (x - y))); auto. exfalso.
    assert (In (cap i j) (all_caps a b)).
    { apply all_caps_In. exists i, j. repeat split; auto.
      apply touch_near; eauto using canonical_In. }
    rewrite E in H. destruct H.
  - intros H. destruct (all_caps a b) as [|k r] eqn:E; auto. exfalso.
    assert (I : In k (all_caps a b)) by (rewrite E; cbn; auto).
    apply all_caps_In in I. destruct I as (i & j & Hi & Hj & T & _).
    apply touch_near in T; eauto using canonical_In.
    destruct T as (x & y & Hx & Hy & D).
    specialize (H x y ltac:(exists i; auto) ltac:(exists j; auto)). lia.
Qed.

Lemma gap_canon l : forall B, gap_from B l -> Forall (fun i => lower i <= upper i) l ->
  canon_from B l.
Proof.
  induction l as [|i r IH]; cbn; intros B G F; auto. inv F. destruct G as (L & O & G).
  split; auto. split; auto. unfold wf_iv, loose in *. lia.
Qed.

Lemma canon_In_iff b l i x : canon_from b l -> In i l -> In_set x l ->
  lower i - 1 <= x <= upper i + 1 -> In_iv x i.
Proof.
  intros C Hi (k & Hk & F & Hx) R. split; auto.
  revert b C Hi Hk. induction l as [|j r IH]; intros b C Hi Hk; [destruct Hi|].
  cbn in C. destruct C as (L & W & C).
  destruct Hi as [->|Hi], Hk as [->|Hk]; auto; [| |eapply IH; eauto].
  - destruct (canon_from_In _ _ _ C Hk). unfold wf_iv in *. lia.
  - destruct (canon_from_In _ _ _ C Hi). unfold wf_iv in *. lia.
Qed.

(** ** Truncation *)

Lemma position_spec {A} (p : A -> bool) l :
  match position p l with
  | Some n => exists a x b, l = a ++ x :: b /\ length a = n /\ p x = true /\
                Forall (fun y => p y = false) a
  | None => Forall (fun y => p y = false) l
  end.
Proof.
  induction l as [|x r IH]; cbn; auto. destruct (p x) eqn:E.
  - exists [], x, r. auto.
  - destruct (position p r) as [n|]; cbn.
    + destruct IH as (a & y & b & -> & L & P & F). exists (x :: a), y, b.
      cbn. repeat split; auto.
    + auto.
Qed.
Lemma rposition_spec {A} (p : A -> bool) l :
  match rposition p l with
  | Some n => exists a x b, l = a ++ x :: b /\ length a = n /\ p x = true /\
                Forall (fun y => p y = false) b
  | None => Forall (fun y => p y = false) l
  end.
Proof.
  induction l as [|x r IH]; cbn; auto. destruct (rposition p r) as [n|].
  - destruct IH as (a & y & b & -> & L & P & F). exists (x :: a), y, b.
    cbn. repeat split; auto.
  - destruct (p x) eqn:E.
    + exists [], x, r. auto.
    + auto.
Qed.
Lemma skipn_app_len {A} (a b : list A) : skipn (length a) (a ++ b) = b.
Proof. induction a; auto. Qed.
Lemma update_at_app {A} f (a : list A) x b : update_at (length a) f (a ++ x :: b) = a ++ f x :: b.
Proof. induction a; cbn; auto. now rewrite IHa. Qed.
Lemma firstn_app_len {A} (a b : list A) x : firstn (length a + 1) (a ++ x :: b) = a ++ [x].
Proof. induction a; cbn; auto. now rewrite IHa. Qed.

Lemma canon_from_app_inv b a m : canon_from b (a ++ m) ->
  canon_from b a /\ exists c, canon_from c m /\ forall i, In i a -> upper i + 1 <= c.
Proof.
  revert b. induction a as [|j r IH]; intros b C.
  - split; [exact I|]. exists b. cbn in *. split; auto. tauto.
  - cbn in C. destruct C as (L & W & C). destruct (IH _ C) as (C1 & c & C2 & U).
    split; [cbn; auto|]. destruct r as [|k r].
    + exists (upper j + 1). split; auto. cbn. intros i [->|[]]. lia.
    + exists c. split; auto. intros i [->|H]; [|apply U; auto].
      destruct (canon_from_In _ _ _ C1 (or_introl eq_refl)) as [Lk Wk].
      specialize (U k (or_introl eq_refl)). unfold wf_iv in Wk. lia.
Qed.

Lemma truncate_before_spec l t : canonical l -> valid t -> t < oo ->
  canonical (fst (set_truncate_before l t)) /\
  (forall x, In_set x (fst (set_truncate_before l t)) <-> In_set x l /\ t <= x) /\
  (snd (set_truncate_before l t) = true <-> fst (set_truncate_before l t) <> l).
Proof.
  intros C Vt Lt. unfold set_truncate_before.
  pose proof (position_spec (fun i => t <=? upper i) l) as P.
  destruct (position (fun i => t <=? upper i) l) as [n|].
  - destruct P as (a & i & b & -> & <- & Hi & Fa).
    apply canonical_from_iff in C. destruct (canon_from_app_inv _ _ _ C) as (Ca & c & Cb & U).
    assert (Cib : canon_from c (i :: b)) by auto.
    destruct Cib as (Lc & W & Cb').
    assert (Ti : wf_iv (fst (iv_truncate_before i t)) /\
                 (forall x, In_iv x (fst (iv_truncate_before i t)) <-> In_iv x i /\ t <= x) /\
                 (snd (iv_truncate_before i t) = true <-> fst (iv_truncate_before i t) <> i) /\
                 upper (fst (iv_truncate_before i t)) = upper i /\
                 lower i <= lower (fst (iv_truncate_before i t))).
    { unfold iv_truncate_before. destruct (t <=? lower i) eqn:E1.
      - cbn [fst snd]. split; auto. split; [intros x; unfold In_iv; intuition lia|].
        split; [split; congruence|]. lia.
      - destruct (upper i <? t) eqn:E2; [lia|]. cbn [fst snd lower upper].
        split; [unfold wf_iv, valid in *; cbn; lia|].
        split; [intros x; unfold In_iv; cbn; intuition lia|].
        split; [|lia]. split; auto. intros _ E. rewrite <- E in E1. cbn in E1. lia. }
    destruct Ti as (TW & TI & TS & TU & TL).
    assert (CB : canonical (fst (iv_truncate_before i t) :: b)).
    { apply (canon_from_canonical c). apply canon_cons; auto; [lia|]. now rewrite TU. }
    assert (DB : forall x, In_set x (fst (iv_truncate_before i t) :: b) <-> In_set x (i :: b) /\ t <= x).
    { intros x. rewrite !In_set_cons, TI.
      pose proof (canon_from_In_set _ _ x Cb'). split; [|tauto].
      intros [H1|H1]; [tauto|]. specialize (H H1). split; auto. lia. }
    destruct a as [|k a].
    + cbn [length app]. destruct (iv_truncate_before i t) as [i' s]; cbn [fst snd] in *.
      split; auto. split; auto. rewrite TS. split; intros H E; apply H; congruence.
    + cbn [length]. change (S (length a)) with (length (k :: a)). rewrite skipn_app_len.
      cbn [update_at fst snd]. split; auto. split.
      * intros x. rewrite DB, In_set_app.
        assert (In_set x (k :: a) -> x < t).
        { intros (m & Hm & _ & Hx). rewrite Forall_forall in Fa. apply Fa in Hm. lia. }
        intuition lia.
      * split; auto. intros _ E. assert (length (fst (iv_truncate_before i t) :: b)
          = length ((k :: a) ++ i :: b)) by congruence. rewrite app_length in H. cbn in H. lia.
  - assert (N : forall x, In_set x l -> x < t).
    { intros x (m & Hm & _ & Hx). rewrite Forall_forall in P. apply P in Hm. lia. }
    destruct l as [|i r]; cbn [fst snd].
    + split; [exact I|]. split; [|split; congruence]. intros x. rewrite In_set_nil. tauto.
    + split; [exact I|]. split; [|split; congruence]. intros x. rewrite In_set_nil.
      split; [tauto|]. intros [H1 H2]. apply N in H1. lia.
Qed.

Lemma truncate_after_spec l t : canonical l -> valid t -> - oo < t ->
  canonical (fst (set_truncate_after l t)) /\
  (forall x, In_set x (fst (set_truncate_after l t)) <-> In_set x l /\ x <= t) /\
  (snd (set_truncate_after l t) = true <-> fst (set_truncate_after l t) <> l).
Proof.
  intros C Vt Lt. unfold set_truncate_after.
  pose proof (rposition_spec (fun i => lower i <=? t) l) as P.
  destruct (rposition (fun i => lower i <=? t) l) as [n|].
  - destruct P as (a & i & b & -> & <- & Hi & Fb).
    apply canonical_from_iff in C. destruct (canon_from_app_inv _ _ _ C) as (Ca & c & Cb & U).
    destruct Cb as (Lc & W & Cb').
    assert (Ti : wf_iv (fst (iv_truncate_after i t)) /\
                 (forall x, In_iv x (fst (iv_truncate_after i t)) <-> In_iv x i /\ x <= t) /\
                 (snd (iv_truncate_after i t) = true <-> fst (iv_truncate_after i t) <> i) /\
                 lower (fst (iv_truncate_after i t)) = lower i).
    { unfold iv_truncate_after. destruct (upper i <=? t) eqn:E1.
      - cbn [fst snd]. split; auto. split; [intros x; unfold In_iv; intuition lia|].
        split; [split; congruence|]. lia.
      - destruct (t <? lower i) eqn:E2; [lia|]. cbn [fst snd lower upper].
        split; [unfold wf_iv, valid in *; cbn; lia|].
        split; [intros x; unfold In_iv; cbn; intuition lia|].
        split; [|lia]. split; auto. intros _ E. rewrite <- E in E1. cbn in E1. lia. }
    destruct Ti as (TW & TI & TS & TL).
    assert (CB : canonical (a ++ [fst (iv_truncate_after i t)])).
    { apply (canon_from_canonical (- oo - 1)). apply canon_from_app. split; auto.
      destruct (last_opt a) as [z|] eqn:E.
      - apply canon_cons; auto; [|exact I]. rewrite TL.
        assert (In z a) by (rewrite (last_opt_Some _ _ E); apply in_app_iff; cbn; auto).
        apply U in H. lia.
      - apply canon_cons; auto; [|exact I]. unfold wf_iv in TW. lia. }
    assert (DB : forall x, In_set x (a ++ [fst (iv_truncate_after i t)]) <->
                           In_set x (a ++ i :: b) /\ x <= t).
    { intros x. rewrite !In_set_app, In_set_one, In_set_cons, TI.
      assert (In_set x a -> x < lower i).
      { intros (m & Hm & _ & Hx). apply U in Hm. lia. }
      assert (In_set x b -> t < x).
      { intros (m & Hm & _ & Hx). rewrite Forall_forall in Fb. apply Fb in Hm. lia. }
      split; [|intuition lia]. intros [H1|H1]; [|tauto]. split; auto. apply H in H1. lia. }
    rewrite app_length. cbn [length].
    destruct (Nat.eqb (length a + 1) (length a + S (length b))) eqn:E.
    + assert (b = []) by (destruct b; auto; apply Nat.eqb_eq in E; cbn in E; lia). subst b.
      rewrite update_at_app. cbn [fst snd]. rewrite nth_error_app2, Nat.sub_diag by lia.
      cbn [nth_error]. split; auto. split; auto. rewrite TS. split; intros H E'; apply H.
      * apply app_inv_head in E'. congruence.
      * now rewrite E'.
    + rewrite firstn_app_len, update_at_app. cbn [fst snd]. split; auto. split; auto.
      split; auto. intros _ E'.
      apply (f_equal (@length interval)) in E'. rewrite !app_length in E'. cbn in E'.
      apply Nat.eqb_neq in E. lia.
  - assert (N : forall x, In_set x l -> t < x).
    { intros x (m & Hm & _ & Hx). rewrite Forall_forall in P. apply P in Hm. lia. }
    destruct l as [|i r]; cbn [fst snd].
    + split; [exact I|]. split; [|split; congruence]. intros x. rewrite In_set_nil. tauto.
    + split; [exact I|]. split; [|split; congruence]. intros x. rewrite In_set_nil.
      split; [tauto|]. intros [H1 H2]. apply N in H1. lia.
Qed.

(** ** Containment, overlap *)

Lemma find_upper l v : forall B, canon_from B l ->
  match find (fun ts => v <=? upper ts) l with
  | Some k => In k l /\ v <= upper k /\ (forall m, In m l -> m = k \/ upper m < v \/ upper k + 1 < lower m)
  | None => forall m, In m l -> upper m < v
  end.
Proof.
  induction l as [|i r IH]; intros B C; cbn [find]; [intros ? []|].
  destruct C as (L & W & C). destruct (v <=? upper i) eqn:E.
  - split; [cbn; auto|]. split; [lia|]. intros m [->|H]; auto. right. right.
    apply (canon_from_In _ _ _ C) in H. lia.
  - specialize (IH _ C). destruct (find (fun ts => v <=? upper ts) r) as [k|].
    + destruct IH as (H1 & H2 & H3). split; [cbn; auto|]. split; auto.
      intros m [<-|H]; auto. right. left. lia.
    + intros m [<-|H]; auto. lia.
Qed.

(** ** Union: what is lost *)

Lemma keep_no_tie a : forall b B B', canon_from B a -> canon_from B' b -> b <> [] ->
  (forall i, In i a -> upper i <> set_upper b) ->
  forall i, In i (keep a b) <->
    In i a /\ forall k, In k a -> upper k < lower i -> upper k < set_upper b.
Proof.
  induction a as [|k0 r IH]; intros b B B' Ca Cb N T i; [cbn; tauto|].
  destruct b as [|j rb]; [congruence|]. cbn in Ca. destruct Ca as (L & W & Ca). cbn [keep].
  assert (Hd : forall k, In k (k0 :: r) -> upper k < lower k0 -> False).
  { intros k [<-|H] U; [unfold wf_iv in W; lia|].
    destruct (canon_from_In _ _ _ Ca H) as [? ?]. unfold wf_iv in *. lia. }
  assert (Hr : forall i, In i r -> upper k0 < lower i) by
    (intros m H; destruct (canon_from_In _ _ _ Ca H); lia).
  pose proof (canon_from_upper_In _ _ j Cb (or_introl eq_refl)) as Uj.
  destruct (upper k0 <=? upper j) eqn:E.
  - cbn [In]. rewrite (IH (j :: rb) _ _ Ca Cb N) by (intros; apply T; cbn; auto).
    assert (upper k0 < set_upper (j :: rb)) by (specialize (T k0 (or_introl eq_refl)); lia).
    split.
    + intros [<-|[Hi Hk]].
      * split; auto. intros k Hk U. destruct (Hd _ Hk U).
      * split; auto. intros k [<-|H']; auto.
    + intros [[<-|Hi] Hk]; [auto|right; split; auto].
  - pose proof Cb as (Lj & Wj & Cb').
    destruct (drop_le (upper k0) rb) as [|j' rb'] eqn:D.
    + apply (drop_le_nil _ _ _ Cb') in D.
      assert (set_upper (j :: rb) <= upper k0).
      { destruct rb; [unfold set_upper; cbn; lia|]. destruct D as [D|D]; [discriminate|].
        now rewrite set_upper_cons. }
      cbn [In]. split.
      * intros [<-|[]]. split; auto. intros k Hk U. destruct (Hd _ Hk U).
      * intros [[<-|Hi] Hk]; auto. specialize (Hk k0 (or_introl eq_refl) (Hr _ Hi)). lia.
    + assert (Nd : drop_le (upper k0) rb <> []) by (rewrite D; congruence).
      assert (SU : set_upper (j' :: rb') = set_upper (j :: rb)).
      { rewrite <- D. rewrite drop_le_upper by auto. destruct rb; [cbn in D; discriminate|].
        now rewrite set_upper_cons. }
      assert (upper k0 < set_upper (j :: rb)).
      { destruct (Z_lt_le_dec (upper k0) (set_upper (j :: rb))); auto. exfalso. apply Nd.
        apply (drop_le_nil _ _ _ Cb'). destruct rb; [auto|right; now rewrite set_upper_cons in *]. }
      cbn [In]. rewrite (IH (j' :: rb') (upper k0 + 1) (upper j + 1)); auto.
      * rewrite SU. split.
        -- intros [<-|[Hi Hk]].
           ++ split; auto. intros k Hk U. destruct (Hd _ Hk U).
           ++ split; auto. intros k [<-|H']; auto.
        -- intros [[<-|Hi] Hk]; [auto|right; split; auto].
      * rewrite <- D. now apply drop_le_canon.
      * congruence.
      * intros m Hm. rewrite SU. apply T. cbn; auto.
Qed.
