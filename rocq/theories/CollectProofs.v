(** Union and collection: when they are exact; canonical forms are unique. *)
From Verif Require Import Machine TimeValue Spec Tac TimeValueProofs Interval Iter TimeSet
  SpecSets SetProofs.

(** ** Last elements *)

Lemma last_opt_None {A} (l : list A) : last_opt l = None <-> l = [].
Proof.
  split; [|now intros ->]. induction l as [|x r IH]; auto.
  destruct r; [discriminate|]. intros H. apply IH in H. discriminate.
Qed.
Lemma last_opt_Some {A} (l : list A) x : last_opt l = Some x -> l = removelast l ++ [x].
Proof.
  induction l as [|y r IH]; [discriminate|]. destruct r as [|z r].
  - cbn. congruence.
  - intros H. cbn [removelast app]. f_equal. apply IH. exact H.
Qed.
Lemma last_opt_cons {A} (x y : A) r : last_opt (x :: y :: r) = last_opt (y :: r).
Proof. reflexivity. Qed.
Lemma removelast_cons {A} (x y : A) r : removelast (x :: y :: r) = x :: removelast (y :: r).
Proof. reflexivity. Qed.

Lemma set_upper_cons i j r : set_upper (i :: j :: r) = set_upper (j :: r).
Proof. reflexivity. Qed.

Lemma canon_from_upper b l : canon_from b l -> l <> [] -> b < set_upper l.
Proof.
  revert b. induction l as [|i r IH]; intros b C N; [congruence|].
  cbn in C. destruct C as (L & W & C). destruct r as [|j r].
  - unfold set_upper; cbn. unfold wf_iv in W. lia.
  - rewrite set_upper_cons. specialize (IH _ C ltac:(congruence)). unfold wf_iv in W. lia.
Qed.

Lemma canon_from_upper_In b l i : canon_from b l -> In i l -> upper i <= set_upper l.
Proof.
  revert b. induction l as [|j r IH]; intros b C H; [destruct H|].
  cbn in C. destruct C as (L & W & C). destruct r as [|k r].
  - destruct H as [->|[]]. unfold set_upper; cbn; lia.
  - rewrite set_upper_cons. destruct H as [->|H].
    + pose proof (canon_from_upper _ _ C ltac:(congruence)). lia.
    + eapply IH; eauto.
Qed.

(** ** What the union keeps *)

Lemma drop_le_upper u b : drop_le u b <> [] -> set_upper (drop_le u b) = set_upper b.
Proof.
  induction b as [|j r IH]; cbn [drop_le]; auto.
  destruct (upper j <=? u); auto. intros N. rewrite IH by auto.
  destruct r; [cbn in N; congruence|]. now rewrite set_upper_cons.
Qed.
Lemma drop_le_nil u b B : canon_from B b -> (drop_le u b = [] <-> b = [] \/ set_upper b <= u).
Proof.
  revert B. induction b as [|j r IH]; intros B C; [cbn; tauto|].
  cbn [drop_le]. cbn in C. destruct C as (L & W & C).
  destruct (upper j <=? u) eqn:E.
  - rewrite (IH _ C). destruct r as [|k r].
    + unfold set_upper; cbn. intuition lia.
    + rewrite set_upper_cons. intuition congruence.
  - split; [congruence|]. intros [H|H]; [congruence|]. exfalso.
    assert (upper j <= set_upper (j :: r)).
    { apply (canon_from_upper_In B); cbn; auto. }
    lia.
Qed.
Lemma drop_le_canon u b B : canon_from B b -> canon_from B (drop_le u b).
Proof.
  revert B. induction b as [|j r IH]; intros B C; auto. cbn [drop_le].
  cbn in C. destruct C as (L & W & C). destruct (upper j <=? u); [|cbn; auto].
  eapply canon_from_weaken; [|apply IH; eassumption]. unfold wf_iv in W; lia.
Qed.

(** Everything that is dropped lies beyond [b]. *)
Lemma keep_prefix a : forall b B B', canon_from B a -> canon_from B' b -> b <> [] ->
  exists rest, a = keep a b ++ rest /\ canon_from (set_upper b + 1) rest.
Proof.
  induction a as [|i r IH]; intros b B B' Ca Cb N.
  - exists []. split; [reflexivity|exact I].
  - cbn in Ca. destruct Ca as (L & W & Ca). destruct b as [|j rb]; [congruence|].
    cbn [keep]. destruct (upper i <=? upper j) eqn:E.
    + destruct (IH (j :: rb) _ _ Ca Cb N) as (rest & E1 & C1).
      exists rest. split; auto. cbn. now f_equal.
    + destruct (drop_le (upper i) rb) as [|k b'] eqn:D.
      * exists r. split; auto. eapply canon_from_weaken; [|eassumption].
        cbn in Cb. destruct Cb as (Lj & Wj & Cb).
        apply (drop_le_nil _ _ _ Cb) in D. destruct D as [->|D].
        -- unfold set_upper; cbn; lia.
        -- destruct rb; [unfold set_upper; cbn; lia|]. rewrite set_upper_cons. lia.
      * cbn in Cb. destruct Cb as (Lj & Wj & Cb).
        assert (Cd : canon_from (upper j + 1) (k :: b')).
        { rewrite <- D. now apply drop_le_canon. }
        destruct (IH (k :: b') _ _ Ca Cd ltac:(congruence)) as (rest & E1 & C1).
        exists rest. split; [cbn; now f_equal|].
        rewrite <- D in C1. rewrite drop_le_upper in C1 by congruence.
        destruct rb; [discriminate|]. now rewrite set_upper_cons.
Qed.

Lemma keep_incl a b i : In i (keep a b) -> In i a.
Proof.
  revert b. induction a as [|k r IH]; intros b; cbn; auto.
  destruct b as [|j rb]; [intros []|].
  destruct (upper k <=? upper j).
  - cbn. intros [H|H]; eauto.
  - destruct (drop_le (upper k) rb); cbn; intros [H|H]; eauto. destruct H.
Qed.

(** Nothing is dropped if all the intervals of [a] but the last end before [b] ends. *)
Lemma keep_all a : forall b B, canon_from B b -> b <> [] ->
  Forall (fun i => upper i < set_upper b) (removelast a) -> keep a b = a.
Proof.
  induction a as [|i r IH]; intros b B C N F; auto.
  destruct b as [|j rb]; [congruence|]. cbn [keep].
  destruct r as [|i2 r].
  - destruct (upper i <=? upper j); auto. now destruct (drop_le (upper i) rb).
  - rewrite removelast_cons in F. inv F.
    destruct (upper i <=? upper j) eqn:E.
    + f_equal. eapply IH; eauto.
    + cbn in C. destruct C as (L & W & C).
      destruct (drop_le (upper i) rb) as [|k b'] eqn:D.
      * exfalso. apply (drop_le_nil _ _ _ C) in D. destruct D as [->|D].
        -- unfold set_upper in H1; cbn in H1; lia.
        -- destruct rb; [unfold set_upper in H1; cbn in H1; lia|].
           rewrite set_upper_cons in H1. lia.
      * f_equal. apply (IH _ (upper j + 1)); [|congruence|].
        -- rewrite <- D. now apply drop_le_canon.
        -- rewrite <- D. rewrite drop_le_upper by congruence.
           destruct rb; [discriminate|]. now rewrite set_upper_cons in H2.
Qed.

Lemma keep_one_all a t : Forall (fun i => upper i <= upper t) (removelast a) -> keep a [t] = a.
Proof.
  induction a as [|i r IH]; intros F; auto. cbn.
  destruct r as [|i2 r].
  - cbn. now destruct (upper i <=? upper t).
  - rewrite removelast_cons in F. inv F. replace (upper i <=? upper t) with true by lia.
    f_equal. auto.
Qed.

(** If nothing is dropped then they do end, at the latest, where [b] ends. *)
Lemma keep_all_inv a : forall b B B', canon_from B a -> canon_from B' b -> b <> [] ->
  keep a b = a -> Forall (fun i => upper i <= set_upper b) (removelast a).
Proof.
  induction a as [|i r IH]; intros b B B' Ca Cb N K; [constructor|].
  destruct b as [|j rb]; [congruence|]. cbn [keep] in K.
  destruct r as [|i2 r]; [constructor|]. rewrite removelast_cons.
  cbn [canon_from] in Ca. destruct Ca as (L & W & Ca).
  destruct (upper i <=? upper j) eqn:E.
  - injection K as K. constructor; [|eapply IH; eauto].
    assert (upper j <= set_upper (j :: rb)) by (eapply canon_from_upper_In; eauto; cbn; auto).
    lia.
  - cbn in Cb. destruct Cb as (Lj & Wj & Cb).
    destruct (drop_le (upper i) rb) as [|k b'] eqn:D; [discriminate|].
    injection K as K.
    assert (Cd : canon_from (upper j + 1) (k :: b')) by (rewrite <- D; now apply drop_le_canon).
    assert (U : set_upper (k :: b') = set_upper (j :: rb)).
    { rewrite <- D, drop_le_upper by congruence. destruct rb; [discriminate|].
      now rewrite set_upper_cons. }
    rewrite <- U. constructor; [|eapply IH; eauto; congruence].
    assert (~ set_upper (k :: b') <= upper i); [|lia].
    intros H. rewrite U in H.
    assert (drop_le (upper i) rb = []); [|congruence].
    apply (drop_le_nil _ _ _ Cb). right. destruct rb; [discriminate|].
    now rewrite set_upper_cons in H.
Qed.

(** Points of the union *)
Lemma union_kept_incl a b x : In_set x (union_kept a b) -> In_set x a.
Proof.
  destruct b as [|j rb]; cbn [union_kept]; auto. intros (i & H & Hx). exists i.
  split; auto. eapply keep_incl; eauto.
Qed.

Lemma union_exact_iff a b : canonical a -> canonical b ->
  ((forall x, In_set x a -> In_set x b \/ In_set x (union_kept a b)) <-> union_kept a b = a).
Proof.
  intros Ca Cb. split; [|intros ->; auto].
  intros H. destruct b as [|j rb]; [reflexivity|]. cbn [union_kept] in *.
  pose proof Ca as Ca'. rewrite canonical_from_iff in Ca', Cb.
  destruct (keep_prefix a (j :: rb) _ _ Ca' Cb ltac:(congruence)) as (rest & E & C).
  destruct rest as [|k rest]; [now rewrite app_nil_r in E|]. exfalso.
  cbn in C. destruct C as (L & W & C).
  destruct (wf_nonempty k W) as [x Hx].
  assert (Hk : In_set x (keep a (j :: rb) ++ k :: rest)).
  { apply In_set_app. right. apply In_set_cons. auto. }
  rewrite <- E in Hk. apply H in Hk. destruct Hk as [Hk|Hk].
  - destruct Hk as (m & Hm & Hx'). pose proof (canon_from_upper_In _ _ _ Cb Hm).
    unfold In_iv in *. lia.
  - remember (keep a (j :: rb)) as q eqn:Eq. clear Eq.
    rewrite E in Ca'. rewrite canon_from_app in Ca'. destruct Ca' as (Cq & Cr).
    destruct Hk as (m & Hm & Hx').
    pose proof (canon_from_upper_In _ _ _ Cq Hm) as U.
    destruct (last_opt q) as [z|] eqn:Z.
    + cbn in Cr. unfold set_upper in U. rewrite Z in U. unfold In_iv in *. lia.
    + apply last_opt_None in Z. subst. destruct Hm.
Qed.

(** ** Canonical forms are unique *)

Lemma canon_lower_not b l i : canon_from b l -> In i l -> ~ In_set (lower i - 1) l.
Proof.
  revert b. induction l as [|j r IH]; intros b C H; [destruct H|].
  cbn in C. destruct C as (L & W & C). rewrite In_set_cons. intros [Hx|Hx].
  - destruct H as [->|H]; [unfold In_iv in Hx; lia|].
    destruct (canon_from_In _ _ _ C H). unfold In_iv in Hx. lia.
  - destruct H as [->|H]; [|eapply IH; eauto].
    apply (canon_from_In_set _ _ _ C) in Hx. unfold wf_iv in W. lia.
Qed.
Lemma canon_upper_not b l i : canon_from b l -> In i l -> ~ In_set (upper i + 1) l.
Proof.
  revert b. induction l as [|j r IH]; intros b C H; [destruct H|].
  cbn in C. destruct C as (L & W & C). rewrite In_set_cons. intros [Hx|Hx].
  - destruct H as [->|H]; [unfold In_iv in Hx; lia|].
    destruct (canon_from_In _ _ _ C H) as [? Wi]. unfold In_iv, wf_iv in *. lia.
  - destruct H as [->|H]; [|eapply IH; eauto].
    apply (canon_from_In_set _ _ _ C) in Hx. lia.
Qed.

Lemma canonical_unique l : forall m b c, canon_from b l -> canon_from c m ->
  strict_ends l -> strict_ends m -> (forall x, In_set x l <-> In_set x m) -> l = m.
Proof.
  induction l as [|i r IH]; intros [|j s] b c Cl Cm Sl Sm E; auto.
  - cbn in Cm. destruct Cm as (_ & W & _). destruct (wf_nonempty j W) as [x Hx].
    exfalso. apply (In_set_nil x). apply E. apply In_set_cons; auto.
  - cbn in Cl. destruct Cl as (_ & W & _). destruct (wf_nonempty i W) as [x Hx].
    exfalso. apply (In_set_nil x). apply E. apply In_set_cons; auto.
  - pose proof Cl as Cl0. pose proof Cm as Cm0.
    cbn in Cl, Cm. destruct Cl as (Lb & Wi & Cr), Cm as (Lc & Wj & Cs).
    unfold strict_ends in *. inv Sl. inv Sm. rename H1 into Si, H3 into Sj.
    (* compare the first intervals *)
    assert (Hlow : forall (i j : interval) r s b c,
      canon_from b (i :: r) -> canon_from c (j :: s) ->
      (lower i <> - oo + 1 /\ upper i <> oo - 1) ->
      (lower j <> - oo + 1 /\ upper j <> oo - 1) ->
      (forall x, In_set x (i :: r) -> In_set x (j :: s)) -> lower j <= lower i).
    { clear. intros i j r s b c Cl Cm Si Sj E.
      destruct (Z_le_gt_dec (lower j) (lower i)) as [|G]; auto. exfalso.
      pose proof Cm as Cm0. cbn in Cl, Cm. destruct Cl as (_ & Wi & _), Cm as (_ & Wj & Cs).
      assert (F : exists x, In_iv x i /\ x < lower j).
      { unfold In_iv, wf_iv, finite in *.
        destruct (Z.eq_dec (lower i) (- oo)) as [e|e].
        - exists (- oo + 1). unfold oo in *. lia.
        - exists (lower i). unfold oo in *. lia. }
      destruct F as (x & Hx & Lx). assert (Hm : In_set x (j :: s)).
      { apply E. apply In_set_cons. auto. }
      apply In_set_cons in Hm. destruct Hm as [Hm|Hm]; [unfold In_iv in Hm; lia|].
      apply (canon_from_In_set _ _ _ Cs) in Hm. unfold wf_iv in *. lia. }
    assert (EL : lower i = lower j).
    { apply Z.le_antisymm.
      - apply (Hlow j i s r c b); auto. intros; now apply E.
      - apply (Hlow i j r s b c); auto. intros; now apply E. }
    assert (Hup : forall (i j : interval) r s b c,
      canon_from b (i :: r) -> canon_from c (j :: s) ->
      (upper i <> oo - 1) -> (upper j <> oo - 1) -> lower i = lower j ->
      (forall x, In_set x (i :: r) -> In_set x (j :: s)) -> upper i <= upper j).
    { clear. intros i j r s b c Cl Cm Si Sj EL E.
      destruct (Z_le_gt_dec (upper i) (upper j)) as [|G]; auto. exfalso.
      pose proof Cm as Cm0. cbn in Cl. destruct Cl as (_ & Wi & _).
      apply (canon_upper_not _ _ j Cm0); [cbn; auto|].
      cbn in Cm. destruct Cm as (_ & Wj & _).
      apply E. apply In_set_cons. left. unfold In_iv, wf_iv, finite in *. unfold oo in *. lia. }
    assert (EU : upper i = upper j).
    { apply Z.le_antisymm.
      - apply (Hup i j r s b c); try tauto. intros; now apply E.
      - apply (Hup j i s r c b); try tauto; auto. intros; now apply E. }
    assert (Ei : i = j) by (destruct i, j; cbn in *; congruence). subst j.
    f_equal. apply (IH s (upper i + 1) (upper i + 1)); auto.
    intros x. specialize (E x). rewrite !In_set_cons in E.
    split; intros Hx.
    + pose proof (canon_from_In_set _ _ _ Cr Hx). destruct (proj1 E (or_intror Hx)); auto.
      unfold In_iv in *; lia.
    + pose proof (canon_from_In_set _ _ _ Cs Hx). destruct (proj2 E (or_intror Hx)); auto.
      unfold In_iv in *; lia.
Qed.

(** ** Collecting *)

Lemma into_iter_wf i : wf_iv i -> iv_into_iter i = [i].
Proof.
  intros W. unfold iv_into_iter, iv_is_empty. ivs. pts. tests; [lia|]. now rewrite iv_eta.
Qed.
Lemma canonical_one i : wf_iv i -> canonical [i].
Proof. cbn. auto. Qed.

(** points after adding [i] to [acc] *)
Definition step_spec (acc : tset) (i : interval) (x : Z) : Prop :=
  In_iv x i \/ In_set x (if just_after (set_upper acc) <? lower i then acc else keep acc [i]).

Lemma from_step_spec d acc i : canonical acc -> wf_iv i ->
  exists acc', from_step (S d) acc i = Ret acc' /\ canonical acc' /\
    forall x, In_set x acc' <-> step_spec acc i x.
Proof.
  intros C W. unfold from_step, step_spec.
  destruct (just_after (set_upper acc) <? lower i) eqn:E.
  - exists (acc ++ [i]). split; auto. split.
    + rewrite canonical_from_iff in *. rewrite canon_from_app. split; auto.
      unfold set_upper in E. destruct (last_opt acc) as [k|] eqn:L.
      * cbn. split; auto. apply last_opt_Some in L.
        assert (In k acc) by (rewrite L; apply in_app_iff; cbn; auto).
        destruct (canon_from_In _ _ _ C H) as [_ Wk].
        unfold wf_iv in *. pts. destruct (negb (Z.abs (upper k) =? 9223372036854775807)) eqn:F; lia.
      * cbn. unfold wf_iv in *. split; auto. lia.
    + intros x. rewrite In_set_app, In_set_one. tauto.
  - rewrite into_iter_wf by auto.
    destruct (union_list_spec acc [i] C (canonical_one i W)) as (out & -> & Co & D).
    cbn [bind]. exists out. split; [|split; auto].
    + rewrite canonical_from_iff in Co. eapply from_iter_d_gapped, canon_gap; eauto.
    + intros x. rewrite D, In_set_one. cbn [union_kept]. tauto.
Qed.

Fixpoint collect_spec (P : tset -> Prop) (l : list interval) (acc : tset) : Prop :=
  match l with
  | [] => P acc
  | i :: r => exists acc', canonical acc' /\ (forall x, In_set x acc' <-> step_spec acc i x)
                           /\ collect_spec P r acc'
  end.

Lemma from_fold_wf d l : forall acc, canonical acc -> Forall wf_iv l ->
  exists out, ofold (from_step (S d)) acc l = Ret out /\ canonical out /\
    (forall x, In_set x out -> In_set x acc \/ In_set x l) /\
    (l = [] \/ forall x i, last_opt l = Some i -> In_iv x i -> In_set x out).
Proof.
  induction l as [|i r IH]; intros acc C F.
  - exists acc. cbn. auto.
  - inv F. destruct (from_step_spec d acc i C H1) as (acc' & E & C' & D).
    destruct (IH acc' C' H2) as (out & E' & Co & S & T).
    exists out. cbn [ofold]. rewrite E. cbn [bind]. split; auto. split; auto. split.
    + intros x Hx. apply S in Hx. rewrite In_set_cons. destruct Hx as [Hx|Hx]; [|tauto].
      apply D in Hx. destruct Hx as [Hx|Hx]; [tauto|]. left.
      destruct (just_after (set_upper acc) <? lower i); auto.
      destruct Hx as (k & Hk & Hx). exists k. split; auto. eapply keep_incl; eauto.
    + right. intros x k L Hx. destruct r as [|j r].
      * cbn in L. injection L as ->. cbn in E'. injection E' as ->.
        apply D. left. auto.
      * rewrite last_opt_cons in L. destruct T as [T|T]; [congruence|]. eapply T; eauto.
Qed.

Lemma from_iter_wf l : Forall wf_iv l ->
  exists out, from_iter l = Ret out /\ canonical out /\
    (forall x, In_set x out -> In_set x l) /\
    (forall x i, last_opt l = Some i -> In_iv x i -> In_set x out).
Proof.
  intros F. unfold from_iter. rewrite from_iter_d_eq. destruct l as [|i r].
  - exists []. cbn. repeat split; auto. discriminate.
  - inv F. rewrite set_of_iv_loose by (now apply wf_loose).
    destruct (from_fold_wf (Datatypes.S (length r)) r [i] (canonical_one i H1) H2) as (out & E & C & S & T).
    exists out. split; [exact E|]. split; auto. split.
    + intros x Hx. apply S in Hx. rewrite In_set_cons. rewrite In_set_one in Hx. tauto.
    + intros x k L Hx. destruct T as [->|T].
      * cbn in L, E. injection L as ->. injection E as <-. apply In_set_one. auto.
      * destruct r; [|rewrite last_opt_cons in L; eapply T; eauto].
        cbn in L, E. injection L as ->. injection E as <-. apply In_set_one. auto.
Qed.

(** no interval lies entirely before an earlier one *)
Definition forward (l : list interval) : Prop :=
  ForallOrdPairs (fun a b => lower a <= upper b) l.

Lemma canonical_removelast_upper b l z : canon_from b l -> last_opt l = Some z ->
  Forall (fun i => upper i < lower z) (removelast l).
Proof.
  revert b. induction l as [|i r IH]; intros b C L; [constructor|].
  destruct r as [|j r]; [constructor|]. rewrite last_opt_cons in L. rewrite removelast_cons.
  destruct C as (Lb & W & C). change (canon_from (upper i + 1) (j :: r)) in C. constructor.
  - apply last_opt_Some in L. assert (In z (j :: r)) by (rewrite L; apply in_app_iff; cbn; auto).
    destruct (canon_from_In _ _ _ C H). lia.
  - eapply IH; eauto.
Qed.

Lemma forward_step acc i src : canonical acc -> wf_iv i -> Forall wf_iv src ->
  (forall x, In_set x acc <-> In_set x src) ->
  Forall (fun e => lower e <= upper i) src ->
  keep acc [i] = acc.
Proof.
  intros C W Ws E F. apply keep_one_all.
  destruct (last_opt acc) as [z|] eqn:L.
  - pose proof C as C0. rewrite canonical_from_iff in C0.
    pose proof (canonical_removelast_upper _ _ _ C0 L) as R.
    assert (Hz : lower z <= upper i).
    { apply last_opt_Some in L. assert (Iz : In z acc) by (rewrite L; apply in_app_iff; cbn; auto).
      destruct (canon_from_In _ _ _ C0 Iz) as [_ Wz].
      destruct (Z.eq_dec (lower z) (- oo)); [unfold wf_iv in *; lia|].
      assert (In_set (lower z) acc) as Hx.
      { exists z. split; auto. unfold In_iv, wf_iv, finite in *. lia. }
      apply E in Hx. destruct Hx as (e & He & Hx).
      rewrite Forall_forall in F, Ws. specialize (F e He). specialize (Ws e He).
      destruct (Z_lt_ge_dec (lower e) (lower z)) as [Lt|Ge]; [|unfold In_iv in Hx; lia].
      destruct (Z.eq_dec (lower z) (- oo + 1)); [unfold wf_iv in *; lia|].
      exfalso. apply (canon_lower_not _ _ z C0 Iz). apply E. exists e. split; auto.
      unfold In_iv, wf_iv, finite in *. lia. }
    eapply Forall_impl; [|exact R]. cbn. intros; lia.
  - apply last_opt_None in L. subst. constructor.
Qed.

Lemma from_fold_forward d l : forall acc src, canonical acc -> Forall wf_iv src ->
  (forall x, In_set x acc <-> In_set x src) ->
  Forall wf_iv l -> forward (src ++ l) ->
  exists out, ofold (from_step (S d)) acc l = Ret out /\ canonical out /\
    (forall x, In_set x out <-> In_set x (src ++ l)).
Proof.
  induction l as [|i r IH]; intros acc src C Ws E F O.
  - exists acc. rewrite app_nil_r. cbn. auto.
  - inv F. destruct (from_step_spec d acc i C H1) as (acc' & Es & C' & D).
    assert (Fi : Forall (fun e => lower e <= upper i) src).
    { clear - O. induction src; [constructor|]. cbn in O. inv O. constructor; auto.
      rewrite Forall_forall in H1. apply H1. apply in_app_iff; cbn; auto. }
    assert (E' : forall x, In_set x acc' <-> In_set x (src ++ [i])).
    { intros x. rewrite D. unfold step_spec.
      rewrite (forward_step acc i src) by auto.
      rewrite In_set_app, In_set_one, <- E.
      destruct (just_after (set_upper acc) <? lower i); tauto. }
    destruct (IH acc' (src ++ [i])) as (out & Eo & Co & Do); auto.
    { apply Forall_app; auto. }
    { now rewrite <- app_assoc. }
    exists out. cbn [ofold]. rewrite Es. cbn [bind]. split; auto. split; auto.
    intros x. rewrite Do, <- app_assoc. reflexivity.
Qed.

Lemma from_iter_forward l : Forall wf_iv l -> forward l ->
  exists out, from_iter l = Ret out /\ canonical out /\ (forall x, In_set x out <-> In_set x l).
Proof.
  intros F O. unfold from_iter. rewrite from_iter_d_eq. destruct l as [|i r].
  - exists []. cbn. repeat split; auto.
  - inv F. rewrite set_of_iv_loose by (now apply wf_loose).
    destruct (from_fold_forward (Datatypes.S (length r)) r [i] [i]) as (out & E & C & D); auto.
    { now apply canonical_one. }
    { intros; reflexivity. }
    exists out. split; [exact E|]. split; auto.
Qed.

Lemma set_or_cx_wf a i : canonical a -> wf_iv i ->
  exists out, set_or_cx a (CIv i) = Ret out /\ canonical out /\
    forall x, In_set x out <-> In_iv x i \/ In_set x (keep a [i]).
Proof.
  intros Ca W. unfold set_or_cx; cbn [cx_into]. rewrite into_iter_wf by auto.
  destruct (union_list_spec a [i] Ca (canonical_one i W)) as (out & -> & C & D).
  exists out. cbn [bind]. rewrite from_iter_canonical by auto. split; auto. split; auto.
  intros x. rewrite D, In_set_one. reflexivity.
Qed.
