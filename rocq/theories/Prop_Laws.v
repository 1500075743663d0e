(** C92 The laws of the algebra of time sets: which identities of [&], [|] and [!] hold as
    equalities of sets, as [PartialEq] compares them (the same list of intervals). *)
From Verif Require Import Machine TimeValue Spec Tac TimeValueProofs Interval Iter TimeSet Relns
  Transl SpecSets SetProofs CollectProofs Prop_Interval SetOpsProofs Prop_TimeSet Prop_Transl
  SchedSets.

(** ** [&] *)

Lemma caps_app i a b : caps i (a ++ b) = caps i a ++ caps i b.
Proof. unfold caps. now rewrite filter_app, map_app. Qed.
Lemma all_caps_app a b c : all_caps (a ++ b) c = all_caps a c ++ all_caps b c.
Proof. induction a as [|i r IH]; cbn; auto. now rewrite IH, app_assoc. Qed.

Lemma caps_caps i j c :
  (if touch i j then caps (cap i j) c else []) = caps i (caps j c).
Proof.
  induction c as [|k r IH].
  - unfold caps; cbn. now destruct (touch i j).
  - destruct (touch j k) eqn:Tjk.
    + rewrite (caps_touch j) by auto. destruct (touch i j) eqn:Tij.
      * destruct (touch (cap i j) k) eqn:T.
        -- rewrite caps_touch by auto. rewrite (caps_touch i (cap j k)).
           ++ rewrite IH. f_equal. unfold cap; cbn [lower upper]. f_equal; lia.
           ++ unfold touch, cap in *; cbn [lower upper] in *. lia.
        -- rewrite caps_no_touch by auto. rewrite (caps_no_touch i (cap j k)); [exact IH|].
           unfold touch, cap in *; cbn [lower upper] in *. lia.
      * rewrite (caps_no_touch i (cap j k)); [exact IH|].
        unfold touch, cap in *; cbn [lower upper] in *. lia.
    + rewrite (caps_no_touch j) by auto. destruct (touch i j) eqn:Tij; [|exact IH].
      rewrite caps_no_touch; [exact IH|]. unfold touch, cap in *; cbn [lower upper] in *. lia.
Qed.
Lemma caps_all_caps i b c : all_caps (caps i b) c = caps i (all_caps b c).
Proof.
  induction b as [|j r IH]; cbn [all_caps].
  - reflexivity.
  - rewrite caps_app, <- IH, <- caps_caps. destruct (touch i j) eqn:T.
    + rewrite caps_touch by auto. reflexivity.
    + rewrite caps_no_touch by auto. reflexivity.
Qed.
Lemma all_caps_assoc a b c : all_caps (all_caps a b) c = all_caps a (all_caps b c).
Proof.
  induction a as [|i r IH]; cbn [all_caps]; auto.
  now rewrite all_caps_app, caps_all_caps, IH.
Qed.

Lemma all_caps_cons_r a j s : forall B, near_from B a ->
  near_from (upper j + 1) s ->
  all_caps a (j :: s) = caps j a ++ all_caps a s.
Proof.
  induction a as [|i r IH]; intros B Ca Cs; [reflexivity|].
  cbn in Ca. destruct Ca as (Li & Wi & Cr). cbn [all_caps].
  rewrite (IH _ Cr Cs). destruct (touch i j) eqn:T.
  - rewrite caps_touch by auto. rewrite (caps_touch j i) by (now rewrite touch_comm).
    rewrite (cap_comm j i). cbn. f_equal. rewrite !app_assoc. f_equal.
    destruct (Z_le_gt_dec (upper i) (upper j)).
    + rewrite (n_caps_far i s (upper j + 1)) by (auto; lia). now rewrite app_nil_r.
    + rewrite (n_caps_far j r (upper i + 1)) by (auto; lia). now rewrite app_nil_r.
  - rewrite caps_no_touch by auto. rewrite (caps_no_touch j i) by (now rewrite touch_comm).
    rewrite !app_assoc. f_equal.
    destruct (Z_le_gt_dec (upper i) (upper j)).
    + rewrite (n_caps_far i s (upper j + 1)) by (auto; lia). now rewrite app_nil_r.
    + rewrite (n_caps_far j r (upper i + 1)) by (auto; lia). now rewrite app_nil_r.
Qed.
Lemma all_caps_comm a b B B' : near_from B a -> near_from B' b -> all_caps a b = all_caps b a.
Proof.
  revert B'. induction b as [|j s IH]; intros B' Ca Cb; [apply all_caps_nil_r|].
  cbn in Cb. destruct Cb as (_ & _ & Cs). cbn [all_caps].
  rewrite (all_caps_cons_r a j s B) by auto. f_equal. eapply IH; eauto.
Qed.

Lemma canonical_near a : canonical a -> near_from (- oo - 1) a.
Proof. rewrite canonical_from_iff. apply canon_near. Qed.

(** The order of the operands of [&], and the order of several [&], never matters. *)
Theorem C92_and_comm : forall a b, canonical a -> canonical b ->
  exists r, set_and a b = Ret r /\ set_and b a = Ret r.
Proof.
  intros a b Ca Cb. exists (all_caps a b). rewrite !set_and_caps by auto. split; auto.
  f_equal. eapply all_caps_comm; now apply canonical_near.
Qed.
Theorem C92_and_assoc : forall a b c, canonical a -> canonical b -> canonical c ->
  exists ab bc r, set_and a b = Ret ab /\ set_and b c = Ret bc /\
    set_and ab c = Ret r /\ set_and a bc = Ret r.
Proof.
  intros a b c Ca Cb Cc. apply canonical_near in Ca, Cb, Cc.
  destruct (n_set_and a b _ _ Ca Cb) as (E1 & N1 & _), (n_set_and b c _ _ Cb Cc) as (E2 & N2 & _).
  exists (all_caps a b), (all_caps b c), (all_caps a (all_caps b c)).
  split; auto. split; auto.
  destruct (n_set_and _ c _ _ N1 Cc) as (E3 & _), (n_set_and a _ _ _ Ca N2) as (E4 & _).
  rewrite E3, E4, all_caps_assoc. auto.
Qed.
(** both at once, on sets side by side: the results hold a piece without points *)
Example C92_and_case :
  set_and [mkI 1 5; mkI 8 9] [mkI 6 8; mkI 12 20] = Ret [mkI 6 5; mkI 8 8] /\
  set_and [mkI 6 8; mkI 12 20] [mkI 1 5; mkI 8 9] = Ret [mkI 6 5; mkI 8 8] /\
  set_and [mkI 6 5; mkI 8 8] [mkI 0 8] = Ret [mkI 6 5; mkI 8 8].
Proof. vm_compute. auto. Qed.

(** each interval of [a] is within one of [b] *)
Definition within (a b : list interval) : Prop := forall i, In i a ->
  exists j, In j b /\ lower j <= lower i /\ upper i <= upper j.

Lemma within_points a b : canonical a -> canonical b -> strict_ends b ->
  (forall x, In_set x a -> In_set x b) -> within a b.
Proof.
  intros Ca Cb Sb H i Hi. pose proof (canonical_In _ _ Ca Hi) as Wi.
  set (x := if Z.eq_dec (lower i) (- oo) then - oo + 1 else lower i).
  set (y := if Z.eq_dec (upper i) oo then oo - 1 else upper i).
  assert (Ix : In_iv x i /\ In_iv y i).
  { unfold x, y, wf_iv, In_iv, finite, oo in *.
    destruct (Z.eq_dec (lower i) _), (Z.eq_dec (upper i) _); lia. }
  destruct Ix as [Ix Iy].
  destruct (H x) as (j & Hj & Jx); [exists i; auto|].
  assert (Wj := canonical_In _ _ Cb Hj).
  exists j. split; auto.
  unfold strict_ends in Sb. rewrite Forall_forall in Sb. destruct (Sb j Hj) as [S1 S2].
  apply canonical_from_iff in Cb.
  assert (U : upper j < oo -> upper i <= upper j).
  { intros Uj. destruct (Z_le_gt_dec (upper i) (upper j)) as [|G]; auto. exfalso.
    apply (canon_upper_not _ _ _ Cb Hj). apply H. exists i. split; auto.
    unfold x, wf_iv, In_iv, finite, oo in *. destruct (Z.eq_dec (lower i) _); lia. }
  unfold x, y, wf_iv, In_iv, finite, oo in *.
  destruct (Z.eq_dec (lower i) _), (Z.eq_dec (upper i) _); lia.
Qed.
Lemma within_refl a : within a a.
Proof. intros i Hi. exists i. split; auto. lia. Qed.

Lemma all_caps_within a b : canonical a -> canonical b -> within a b -> all_caps a b = a.
Proof.
  intros Ca Cb. apply canonical_from_iff in Ca, Cb. revert Ca. generalize (- oo - 1) at 1.
  induction a as [|i r IH]; intros B Ca H; auto. cbn in Ca. destruct Ca as (Li & Wi & Cr).
  cbn [all_caps]. rewrite (IH _ Cr) by (intros k Hk; apply H; cbn; auto).
  destruct (H i (or_introl eq_refl)) as (j & Hj & L & U). change (i :: r) with ([i] ++ r). f_equal.
  clear H IH Cr r B Li. revert Cb Hj. generalize (- oo - 1).
  induction b as [|k s IHs]; intros B Cb Hj; [destruct Hj|].
  cbn in Cb. destruct Cb as (Lk & Wk & Cs). destruct Hj as [->|Hj].
  - rewrite caps_touch by (unfold touch, wf_iv in *; lia).
    rewrite (caps_far i s (upper j + 1)) by (auto; lia).
    f_equal. apply iv_ext; unfold cap; cbn; lia.
  - destruct (canon_from_In _ _ _ Cs Hj) as [Lj _].
    rewrite caps_no_touch by (unfold touch, wf_iv in *; lia). eauto.
Qed.

(** The part of [a] in a set that holds all its points is [a]. *)
Theorem C92_and_subset : forall a b, canonical a -> canonical b -> strict_ends b ->
  (forall x, In_set x a -> In_set x b) ->
  set_and a b = Ret a /\ set_and b a = Ret a.
Proof.
  intros a b Ca Cb Sb H. assert (W := within_points a b Ca Cb Sb H).
  destruct (C92_and_comm a b Ca Cb) as (r & E1 & E2). rewrite E2, <- E1.
  rewrite set_and_caps by auto. now rewrite all_caps_within.
Qed.
Theorem C92_and_units : forall a, canonical a ->
  set_and a a = Ret a /\ set_and a set_all = Ret a /\ set_and set_all a = Ret a /\
  set_and a [] = Ret [] /\ set_and [] a = Ret [].
Proof.
  intros a Ca.
  assert (Call : canonical set_all) by (apply (C22_constructors 0 0 0); unfold valid, finite, oo; lia).
  assert (W : within a set_all).
  { intros i Hi. exists iv_all. split; [cbn; auto|].
    pose proof (canonical_In _ _ Ca Hi) as Wi. unfold wf_iv in Wi. cbn [iv_all lower upper]. change INF with oo. lia. }
  destruct (C92_and_comm a set_all Ca Call) as (r & E1 & E2).
  split; [rewrite set_and_caps by auto; rewrite all_caps_within; auto using within_refl|].
  split; [rewrite set_and_caps by auto; now rewrite all_caps_within|].
  split; [rewrite E2, <- E1; rewrite set_and_caps by auto; now rewrite all_caps_within|].
  split; [|reflexivity]. rewrite set_and_caps by (auto; cbn; auto). now rewrite all_caps_nil_r.
Qed.
Example C92_and_subset_case : set_and [mkI 3 5; mkI 8 oo] [mkI 1 5; mkI 7 oo] = Ret [mkI 3 5; mkI 8 oo].
Proof. reflexivity. Qed.

(** ** [|]: what is within the second operand adds nothing *)

Lemma n_touch p j : near p -> near j -> lower j <= lower p -> upper p <= upper j ->
  (upper p <? just_before (lower j)) = false /\ (upper j <? just_before (lower p)) = false.
Proof. intros Np Nj L U. rewrite !ngap_test by (auto; unfold near in *; lia). unfold near in *. lia. Qed.

Lemma union_within n : forall ps t rj B,
  (length ps + length rj <= n)%nat -> wf_iv t -> canon_from (upper t + 1) rj -> near_from B ps ->
  (within ps (t :: rj) -> emits union_turn (mkUnion ps rj UWaitI t) (t :: rj)) /\
  (within ps rj -> emits union_turn (mkUnion ps rj UWaitJ t) (t :: rj)) /\
  (forall p, near p -> near_from (upper p + 1) ps -> within (p :: ps) rj ->
     emits union_turn (mkUnion ps rj UWaitJ p) rj).
Proof.
  induction n as [|n IH]; intros ps t rj B L W C N.
  - destruct ps, rj; try (cbn in L; lia). split; [|split].
    + intros _. eapply em_yield; [reflexivity|]. apply union_only_j.
    + intros _. eapply em_yield; [reflexivity|]. apply union_only_j.
    + intros p _ _ H. destruct (H p (or_introl eq_refl)) as (j & [] & _).
  - assert (Later : forall p q j, near p -> near_from (upper p + 1) ps -> In q ps ->
              upper j <= upper p -> upper q <= upper j -> False).
    { intros p q j Np Nq Hq Uj Uq. destruct (near_from_In _ _ _ Nq Hq) as [Lq Wq].
      unfold near in *. lia. }
    split; [|split].
    + intros H. destruct ps as [|p ps].
      { eapply em_yield; [reflexivity|]. apply union_only_j. }
      cbn in N, L. destruct N as (Lp & Np & Nps).
      destruct (H p (or_introl eq_refl)) as (j & [<-|Hj] & Lj & Uj).
      * destruct (n_touch p t Np (wf_near _ W) Lj Uj) as [T1 T2].
        eapply em_again.
        { unfold union_turn; cbn [un_i un_j un_phase un_tmp]. rewrite T1, T2.
          replace (lower p <? lower t) with false by lia.
          replace (upper p <=? upper t) with true by lia. rewrite iv_eta. reflexivity. }
        apply (IH ps t rj (upper p + 1)); auto; [lia|].
        intros q Hq. apply H. cbn; auto.
      * destruct (canon_from_In _ _ _ C Hj) as [Lj' Wj].
        eapply em_yield.
        { unfold union_turn; cbn [un_i un_j un_phase un_tmp].
          rewrite !ngap_test by (auto using wf_near; unfold near, wf_iv in *; lia).
          replace (upper p + 1 <? lower t) with false by (unfold near, wf_iv in *; lia).
          replace (upper t + 1 <? lower p) with true by lia. reflexivity. }
        apply (IH ps t rj (upper p + 1)); auto; [lia|].
        intros q [<-|Hq]; [exists j; auto|].
        destruct (H q (or_intror Hq)) as (k & [<-|Hk] & Lk & Uk); [|exists k; auto].
        exfalso. destruct (near_from_In _ _ _ Nps Hq) as [Lq Wq]. unfold near, wf_iv in *. lia.
    + intros H. destruct rj as [|k rj].
      { eapply em_yield; [reflexivity|]. apply union_only_j. }
      cbn in C, L. destruct C as (Lk & Wk & C).
      eapply em_yield.
      { unfold union_turn; cbn [un_i un_j un_phase un_tmp].
        rewrite !ngap_test by (auto using wf_near; unfold wf_iv in *; lia).
        replace (upper k + 1 <? lower t) with false by (unfold wf_iv in *; lia).
        replace (upper t + 1 <? lower k) with true by lia. reflexivity. }
      apply (IH ps k rj B); auto. lia.
    + intros p Np Nps H. destruct rj as [|k rj].
      { destruct (H p (or_introl eq_refl)) as (j & [] & _). }
      cbn in C, L. destruct C as (Lk & Wk & C).
      destruct (H p (or_introl eq_refl)) as (j & [<-|Hj] & Lj & Uj).
      * destruct (n_touch p k Np (wf_near _ Wk) Lj Uj) as [T1 T2].
        destruct (Z.eq_dec (upper k) (upper p)) as [E|E].
        -- eapply em_again.
           { unfold union_turn; cbn [un_i un_j un_phase un_tmp]. rewrite T1, T2.
             replace (upper k <=? upper p) with true by lia.
             replace (mkI (if lower k <? lower p then lower k else lower p) (upper p)) with k.
             2: { apply iv_ext; cbn; [destruct (lower k <? lower p) eqn:?; lia|lia]. }
             reflexivity. }
           apply (IH ps k rj B); auto; [lia|].
           intros q Hq. destruct (H q (or_intror Hq)) as (m & [<-|Hm] & Lm & Um); [|exists m; auto].
           exfalso. eapply (Later p q k); eauto. lia.
        -- eapply em_again.
           { unfold union_turn; cbn [un_i un_j un_phase un_tmp]. rewrite T1, T2.
             replace (upper k <=? upper p) with false by lia.
             replace (mkI (if lower k <? lower p then lower k else lower p) (upper k)) with k.
             2: { apply iv_ext; cbn; [destruct (lower k <? lower p) eqn:?; lia|lia]. }
             reflexivity. }
           apply (IH ps k rj B); auto; [lia|].
           intros q Hq. apply H. cbn; auto.
      * destruct (canon_from_In _ _ _ C Hj) as [Lj' Wj].
        eapply em_yield.
        { unfold union_turn; cbn [un_i un_j un_phase un_tmp].
          rewrite !ngap_test by (auto using wf_near; unfold near, wf_iv in *; lia).
          replace (upper k + 1 <? lower p) with true by lia. reflexivity. }
        apply (IH ps k rj B); auto; [lia|].
        intros q [<-|Hq]; [exists j; auto|].
        destruct (H q (or_intror Hq)) as (m & [<-|Hm] & Lm & Um); [|exists m; auto].
        exfalso. destruct (near_from_In _ _ _ Nps Hq) as [Lq Wq]. unfold near, wf_iv in *. lia.
Qed.

Lemma set_or_within ps b B : near_from B ps -> canonical b -> within ps b -> set_or ps b = Ret b.
Proof.
  intros N Cb H. unfold set_or.
  assert (E : union_list ps b = Ret b).
  { unfold union_list. apply union_collect_emits. unfold union_init.
    apply canonical_from_iff in Cb. destruct b as [|t rj].
    - destruct ps as [|p ps]; [eapply em_stop; reflexivity|].
      destruct (H p (or_introl eq_refl)) as (j & [] & _).
    - cbn in Cb. destruct Cb as (Lt & W & C). destruct ps as [|p ps].
      + eapply em_yield; [reflexivity|]. apply union_only_j.
      + (* the first turn reads both *)
        cbn in N. destruct N as (Lp & Np & Nps).
        destruct (H p (or_introl eq_refl)) as (j & [<-|Hj] & Lj & Uj).
        * destruct (n_touch p t Np (wf_near _ W) Lj Uj) as [T1 T2].
          eapply em_again.
          { unfold union_turn; cbn [un_i un_j un_phase un_tmp]. rewrite T1, T2.
            replace (upper p <=? upper t) with true by lia.
            replace (mkI (Z.min (lower p) (lower t)) (upper t)) with t by (apply iv_ext; cbn; lia).
            reflexivity. }
          apply (union_within _ ps t rj (upper p + 1) (le_n _)); auto.
          intros q Hq. apply H. cbn; auto.
        * destruct (canon_from_In _ _ _ C Hj) as [Lj' Wj].
          eapply em_yield.
          { unfold union_turn; cbn [un_i un_j un_phase un_tmp].
            rewrite !ngap_test by (auto using wf_near; unfold near, wf_iv in *; lia).
            replace (upper p + 1 <? lower t) with false by (unfold near, wf_iv in *; lia).
            replace (upper t + 1 <? lower p) with true by lia. reflexivity. }
          apply (union_within _ ps t rj (upper p + 1) (le_n _)); auto.
          intros q [<-|Hq]; [exists j; auto|].
          destruct (H q (or_intror Hq)) as (k & [<-|Hk] & Lk & Uk); [|exists k; auto].
          exfalso. destruct (near_from_In _ _ _ Nps Hq) as [Lq Wq]. unfold near, wf_iv in *. lia. }
  rewrite E. cbn [bind]. now apply from_iter_canonical.
Qed.

Theorem C92_or_subset : forall a b, canonical a -> canonical b -> strict_ends b ->
  (forall x, In_set x a -> In_set x b) -> set_or a b = Ret b.
Proof.
  intros a b Ca Cb Sb H. apply (set_or_within a b (- oo - 1)); auto using canonical_near.
  now apply within_points.
Qed.
Lemma union_all_j rj B : canon_from B rj -> - oo - 1 <= B ->
  emits union_turn (mkUnion [] rj UWaitJ iv_all) [iv_all].
Proof.
  revert B. induction rj as [|j rj IH]; intros B C L.
  - eapply em_yield; [reflexivity|]. apply union_only_j.
  - cbn in C. destruct C as (Lj & Wj & C). eapply em_again; [|eapply IH; [exact C|unfold wf_iv in Wj; lia]].
    unfold union_turn; cbn [un_i un_j un_phase un_tmp].
    rewrite !gap_test by (auto; unfold wf_iv in *; cbn [iv_all lower upper]; change INF with oo; unfold oo in *; lia).
    cbn [iv_all lower upper]. change INF with oo. unfold wf_iv in Wj.
    replace (upper j + 1 <? - oo) with false by lia.
    replace (oo + 1 <? lower j) with false by lia.
    replace (upper j <=? oo) with true by lia.
    replace (lower j <? - oo) with false by lia. reflexivity.
Qed.
Theorem C92_or_units : forall a, canonical a ->
  set_or a a = Ret a /\ set_or a [] = Ret a /\ set_or [] a = Ret a /\
  set_or a set_all = Ret set_all /\ set_or set_all a = Ret set_all.
Proof.
  intros a Ca.
  assert (Call : canonical set_all) by (apply (C22_constructors 0 0 0); unfold valid, finite, oo; lia).
  assert (W : within a set_all).
  { intros i Hi. exists iv_all. split; [cbn; auto|].
    pose proof (canonical_In _ _ Ca Hi) as Wi. unfold wf_iv in Wi. cbn [iv_all lower upper]. change INF with oo. lia. }
  split; [apply (set_or_within a a (- oo - 1)); auto using canonical_near, within_refl|].
  split.
  { destruct (set_or_spec a [] Ca I) as (out & E & _).
    unfold set_or, union_list in *. rewrite (union_collect_emits _ a) in *.
    - cbn [bind] in *. now apply from_iter_canonical.
    - unfold union_init. destruct a as [|i r]; [eapply em_stop; reflexivity|].
      eapply em_yield; [reflexivity|]. apply union_only_i.
    - unfold union_init. destruct a as [|i r]; [eapply em_stop; reflexivity|].
      eapply em_yield; [reflexivity|]. apply union_only_i. }
  split; [apply (set_or_within [] a (- oo - 1)); cbn; auto; intros i []|].
  split; [apply (set_or_within a set_all (- oo - 1)); auto using canonical_near|].
  unfold set_or, union_list. rewrite (union_collect_emits _ set_all); [cbn [bind]; now apply from_iter_canonical|].
  unfold union_init. destruct a as [|i r].
  - eapply em_yield; [reflexivity|]. apply union_only_i.
  - apply canonical_from_iff in Ca. cbn in Ca. destruct Ca as (Li & Wi & C).
    assert (T : union_turn (mkUnion [iv_all] (i :: r) UInit iv_all) =
      (mkUnion [] r (if upper i =? oo then UWaitI else UWaitJ) iv_all, Again)).
    { unfold union_turn; cbn [un_i un_j un_phase un_tmp].
      rewrite !gap_test by (auto; unfold wf_iv in *; cbn [iv_all lower upper]; change INF with oo; unfold oo in *; lia).
      cbn [iv_all lower upper]. change INF with oo. unfold wf_iv in Wi.
      replace (upper i + 1 <? - oo) with false by lia.
      replace (oo + 1 <? lower i) with false by lia.
      replace (Z.min (- oo) (lower i)) with (- oo) by lia.
      destruct (upper i =? oo) eqn:E.
      - replace (oo <=? upper i) with true by lia. now replace (upper i) with oo by lia.
      - now replace (oo <=? upper i) with false by lia. }
    eapply em_again; [exact T|]. destruct (upper i =? oo) eqn:E.
    + destruct r as [|j r]; [eapply em_yield; [reflexivity|]; apply union_only_j|].
      cbn in C. destruct C as (Lj & Wj & _). unfold wf_iv in Wj. lia.
    + eapply union_all_j; [exact C|unfold wf_iv in Wi; lia].
Qed.

Definition strict1 (i : interval) : Prop := lower i <> - oo + 1 /\ upper i <> oo - 1.
Lemma union_strict s l : emits union_turn s l ->
  Forall strict1 (un_i s) -> Forall strict1 (un_j s) ->
  match un_phase s with UWaitI | UWaitJ => strict1 (un_tmp s) | _ => True end -> Forall strict1 l.
Proof.
  induction 1 as [s s' E|s s' l E H IH|s s' a l E H IH]; intros Hi Hj Ht; auto.
  - destruct s as [ri rj ph t]. unfold union_turn in E. cbn [un_i un_j un_phase un_tmp] in *.
    destruct ph, ri as [|i ri], rj as [|j rj]; tests_in E; inv E;
    repeat match goal with H : Forall _ (_ :: _) |- _ => inv H end;
    apply IH; cbn [un_i un_j un_phase un_tmp]; auto; unfold strict1 in *; cbn; lia.
  - destruct s as [ri rj ph t]. unfold union_turn in E. cbn [un_i un_j un_phase un_tmp] in *.
    destruct ph, ri as [|i ri], rj as [|j rj]; tests_in E; inv E;
    repeat match goal with H : Forall _ (_ :: _) |- _ => inv H end;
    constructor; auto;
    apply IH; cbn [un_i un_j un_phase un_tmp]; auto.
Qed.

Lemma or_strict a b out : canonical a -> canonical b -> strict_ends a -> strict_ends b ->
  set_or a b = Ret out -> strict_ends out.
Proof.
  intros Ca Cb Sa Sb E. destruct (union_emits a b Ca Cb) as (o & H & C & _).
  unfold set_or, union_list in E. rewrite (union_collect_emits _ _ H) in E. cbn [bind] in E.
  rewrite from_iter_canonical in E by (eapply canon_from_canonical; eauto). inv E.
  apply (union_strict _ _ H); auto. cbn. auto.
Qed.

(** Absorption holds with the set that absorbs as second operand of [|]. *)
Theorem C92_absorption_and : forall a b, canonical a -> canonical b -> strict_ends a -> strict_ends b ->
  exists o, set_or b a = Ret o /\ set_and a o = Ret a.
Proof.
  intros a b Ca Cb Sa Sb.
  destruct (C23_or_partial b a Cb Ca) as (o & E & _ & Co & H & _). exists o. split; auto.
  apply C92_and_subset; auto. apply (or_strict b a); auto.
Qed.
Theorem C92_absorption_or : forall a b, canonical a -> canonical b ->
  exists o, set_and a b = Ret o /\ set_or o a = Ret a.
Proof.
  intros a b Ca Cb.
  pose proof (canonical_near a Ca) as Na. pose proof (canonical_near b Cb) as Nb.
  destruct (n_set_and a b _ _ Na Nb) as (E & N & _). exists (all_caps a b). split; auto.
  apply (set_or_within _ _ _ N Ca). intros k Hk. apply all_caps_In in Hk.
  destruct Hk as (i & j & Hi & Hj & _ & ->). exists i. split; auto. unfold cap; cbn. lia.
Qed.
Example C92_absorption_case :
  set_or [mkI 1 2; mkI 30 40] [mkI 2 5; mkI 8 9] = Ret [mkI 1 5; mkI 8 9; mkI 30 40] /\
  set_and [mkI 2 5; mkI 8 9] [mkI 1 5; mkI 8 9; mkI 30 40] = Ret [mkI 2 5; mkI 8 9] /\
  set_and [mkI 2 5; mkI 8 9] [mkI 6 8] = Ret [mkI 6 5; mkI 8 8] /\
  set_or [mkI 6 5; mkI 8 8] [mkI 2 5; mkI 8 9] = Ret [mkI 2 5; mkI 8 9].
Proof. vm_compute. auto. Qed.

(** ** [!] *)

Lemma gaps_strict l : forall u, - oo < u <= oo -> canon_from (u + 1) l ->
  strict_ends (not_gaps (just_after u) l).
Proof.
  unfold strict_ends. induction l as [|tw r IH]; intros u Hu C; cbn [not_gaps].
  - destruct (is_future_infinite (just_after u)) eqn:E; constructor; [|constructor].
    rewrite just_after_spec in * by (pts; lia). cbn [lower upper]. change INF with oo. pts.
    tests_in E; tests; lia.
  - cbn in C. destruct C as (L & W & C). unfold wf_iv in W. constructor; [|apply IH; auto; lia].
    cbn [lower upper]. rewrite just_after_spec, just_before_spec by (pts; lia). pts. tests; lia.
Qed.
Lemma not_strict l : canonical l -> strict_ends (set_not l).
Proof.
  rewrite canonical_from_iff. intros C. destruct l as [|i r].
  - cbn [set_not]. unfold strict_ends, set_all. constructor; [|constructor].
    cbn [iv_all lower upper]. change INF with oo. unfold oo. lia.
  - cbn [canon_from] in C. destruct C as (L & W & C). cbn [set_not]. unfold strict_ends.
    apply Forall_app. split.
    + destruct (is_past_infinite _) eqn:E; constructor; [|constructor].
      cbn [lower upper]. change INF with oo. unfold wf_iv in W.
      rewrite just_before_spec by (pts; lia). pts. tests; lia.
    + apply gaps_strict; auto. unfold wf_iv in W. lia.
Qed.

(** The complements of intervals and of points are those of the sets: they are unbounded
    wherever the interval is bounded (C15). *)
Theorem C15_agrees : forall i t, wf_iv i -> finite t ->
  iv_not i = set_not [i] /\ pt_not t = set_not [mkI t t] /\ iv_not iv_empty = set_not [].
Proof.
  intros i t W F. split; [|split; [|reflexivity]].
  - unfold iv_not, set_not. cbn [not_gaps].
    assert (iv_is_empty i = false) as -> by (unfold iv_is_empty, is_future_infinite; clear - W; iv; lia).
    destruct (is_past_infinite (just_before (lower i))); destruct (is_future_infinite (just_after (upper i))); reflexivity.
  - destruct (Z.eq_dec t (oo - 1)) as [->|]; [reflexivity|]. destruct (Z.eq_dec t (- oo + 1)) as [->|]; [reflexivity|].
    unfold pt_not, set_not. cbn [not_gaps lower upper]. unfold iv_before, iv_after, iv_is_empty.
    rewrite just_before_spec, just_after_spec by (clear - F; pts; lia).
    unfold is_past_infinite, is_future_infinite, INF, i64_max. pts. tests; cbn [lower app] in *; auto; lia.
Qed.
Theorem C15_ends : forall i t, proper_iv i -> valid t -> strict_ends (iv_not i) /\ strict_ends (pt_not t).
Proof.
  assert (Sa : strict_ends [iv_all]).
  { unfold strict_ends. constructor; [|constructor]. iv. lia. }
  intros i t P V. split.
  - destruct P as [W|E].
    + rewrite (proj1 (C15_agrees i 0 W ltac:(unfold finite, oo; lia))). apply not_strict.
      unfold canonical. auto.
    + unfold iv_not. destruct E as (E & _). unfold iv_is_empty. rewrite E. exact Sa.
  - destruct (Z.eq_dec t oo) as [->|N1]; [exact Sa|]. destruct (Z.eq_dec t (- oo)) as [->|N2]; [exact Sa|].
    assert (F : finite t) by (unfold finite, valid in *; lia).
    assert (W : wf_iv (mkI t t)) by (iv; lia).
    rewrite (proj1 (proj2 (C15_agrees (mkI t t) t W F))). apply not_strict. unfold canonical. auto.
Qed.
Example C15_ends_case : wf_iv (mkI (- oo) 4) /\ iv_not (mkI (- oo) 4) = [mkI 5 oo] /\ iv_not (mkI 3 (oo - 1)) = [mkI (- oo) 2].
Proof. split; [iv; lia|]. split; reflexivity. Qed.

(** Complementing twice gives the set back exactly when its infinite ends are written as such. *)
Theorem C92_not_not : forall a, canonical a -> (set_not (set_not a) = a <-> strict_ends a).
Proof.
  intros a Ca. destruct (C25_not a Ca) as [Cn _]. split.
  - intros E. rewrite <- E. now apply not_strict.
  - intros S. apply C25_not_involutive; auto. now apply not_strict.
Qed.

Lemma removelast_before a B : canon_from B a -> forall i, In i (removelast a) ->
  exists l, In l a /\ upper i + 1 < lower l.
Proof.
  revert B. induction a as [|k r IH]; intros B C i Hi; [destruct Hi|].
  cbn in C. destruct C as (L & W & C). destruct r as [|m r]; [destruct Hi|].
  change (removelast (k :: m :: r)) with (k :: removelast (m :: r)) in Hi.
  destruct Hi as [<-|Hi].
  - exists m. split; [cbn; auto|]. cbn in C. lia.
  - destruct (IH _ C i Hi) as (l & Hl & U). exists l. split; auto. cbn; auto.
Qed.

(** Excluded middle: a set and its complement cover the time, whatever the order. *)
Lemma or_compl a b : canonical a -> canonical b -> strict_ends a -> strict_ends b ->
  (forall x, finite x -> In_set x a <-> ~ In_set x b) -> set_or a b = Ret set_all.
Proof.
  intros Ca Cb Sa Sb D.
  destruct (C23_or_partial a b Ca Cb) as (o & E & _ & Co & _ & _ & X).
  rewrite E. f_equal.
  assert (Call : canonical set_all /\ forall x, In_set x set_all <-> finite x)
    by (split; apply (C22_constructors 0 0 0); unfold valid, finite, oo; lia).
  destruct Call as [Call Pall].
  assert (Hx : forall x, In_set x o <-> In_set x a \/ In_set x b).
  { apply X. destruct b as [|j rb]; [auto|right]. apply Forall_forall. intros i Hi.
    pose proof Ca as Ca'. rewrite canonical_from_iff in Ca'.
    destruct (removelast_before _ _ Ca' i Hi) as (l & Hl & U).
    assert (Hi' : In i a) by (clear - Hi; induction a as [|k [|m r] IH]; [destruct Hi|destruct Hi|];
      destruct Hi as [<-|Hi]; [cbn; auto|right; apply IH; exact Hi]).
    pose proof (canonical_In _ _ Ca Hi') as Wi. pose proof (canonical_In _ _ Ca Hl) as Wl.
    pose proof (canon_upper_not _ _ _ Ca' Hi') as Nu.
    assert (F : finite (upper i + 1)) by (unfold finite, wf_iv in *; lia).
    assert (In_set (upper i + 1) (j :: rb)).
    { destruct (In_set_dec (upper i + 1) (j :: rb)) as [|N]; auto. exfalso. apply Nu, D; auto. }
    destruct H as (k & Hk & Ik). pose proof Cb as Cb'. rewrite canonical_from_iff in Cb'.
    pose proof (canon_from_upper_In _ _ _ Cb' Hk). unfold In_iv in Ik. lia. }
  apply (canonical_unique o set_all (- oo - 1) (- oo - 1)); try (now apply canonical_from_iff).
  - apply (or_strict a b); auto.
  - unfold strict_ends, set_all. constructor; [|constructor].
    cbn [iv_all lower upper]. change INF with oo. unfold oo. lia.
  - intros x. rewrite Hx, Pall. split.
    + intros [H|H]; eapply In_set_finite; eauto.
    + intros F. destruct (In_set_dec x b); auto. left. now apply D.
Qed.
Theorem C92_excluded_middle : forall a, canonical a -> strict_ends a ->
  set_or a (set_not a) = Ret set_all /\ set_or (set_not a) a = Ret set_all.
Proof.
  intros a Ca Sa. destruct (C25_not a Ca) as [Cn D]. pose proof (not_strict a Ca) as Sn.
  split; apply or_compl; auto; intros x F; rewrite D; destruct (In_set_dec x a); tauto.
Qed.
Example C92_excluded_middle_case :
  set_not [mkI (- oo) 3; mkI 7 9] = [mkI 4 6; mkI 10 oo] /\
  set_or [mkI (- oo) 3; mkI 7 9] [mkI 4 6; mkI 10 oo] = Ret set_all.
Proof. vm_compute. auto. Qed.

(** Non-contradiction: a set and its complement have no common point, but their [&] is the
    empty set for no set but the empty and the full one. *)
Theorem C92_contradiction_partial : forall a, canonical a -> strict_ends a ->
  exists o, set_and a (set_not a) = Ret o /\ (forall x, ~ In_set x o) /\
    (o = [] <-> a = [] \/ a = set_all).
Proof.
  intros a Ca Sa. destruct (C25_not a Ca) as [Cn D].
  destruct (C24_and_points a _ Ca Cn) as (o & E & _ & P). exists o. split; auto.
  split; [intros x H; apply P in H; rewrite D in H; tauto|].
  destruct (C24_and_canonical_partial a _ o Ca Cn E) as (_ & H & _).
  assert (Eo : o = [] <-> set_is_empty o = true) by (destruct o; cbn; split; congruence).
  rewrite Eo, H. split.
  - intros Far. destruct a as [|i r]; [auto|right].
    pose proof Ca as C. rewrite canonical_from_iff in C.
    pose proof (canonical_In _ _ Ca (or_introl eq_refl)) as Wi.
    pose proof (canon_lower_not _ _ _ C (or_introl eq_refl)) as Nl.
    pose proof (canon_upper_not _ _ _ C (or_introl eq_refl)) as Nu.
    unfold strict_ends in Sa. inv Sa. destruct H2 as [S1 S2].
    assert (Lo : lower i = - oo).
    { destruct (Z.eq_dec (lower i) (- oo)) as [|Ne]; auto. exfalso.
      specialize (Far (lower i) (lower i - 1)). rewrite D in Far.
      assert (1 < Z.abs (lower i - (lower i - 1))); [|lia]. apply Far.
      - exists i. split; [cbn; auto|]. unfold In_iv, wf_iv, finite in *. lia.
      - split; auto. unfold wf_iv, finite in *. lia. }
    assert (Up : upper i = oo).
    { destruct (Z.eq_dec (upper i) oo) as [|Ne]; auto. exfalso.
      specialize (Far (upper i) (upper i + 1)). rewrite D in Far.
      assert (1 < Z.abs (upper i - (upper i + 1))); [|lia]. apply Far.
      - exists i. split; [cbn; auto|]. unfold In_iv, wf_iv, finite in *. lia.
      - split; auto. unfold wf_iv, finite in *. lia. }
    cbn in C. destruct C as (_ & _ & C). destruct r as [|m r].
    + unfold set_all. f_equal. apply iv_ext; cbn [iv_all lower upper]; auto.
    + cbn in C. destruct C as (L & W & _). unfold wf_iv in W. lia.
  - intros [-> | ->] x y Hx Hy.
    + now apply In_set_nil in Hx.
    + rewrite D in Hy. exfalso. apply (proj2 Hy).
      apply (C22_constructors 0 0 0); [..|tauto]; unfold valid, finite, oo; lia.
Qed.
Example C92_contradiction_case :
  set_and [mkI 1 5] (set_not [mkI 1 5]) = Ret [mkI 1 0; mkI 6 5].
Proof. reflexivity. Qed.

(** Findings: [|] is neither commutative (C23_or_refuted) nor associative, neither operation
    distributes over the other, absorption fails with the operands of [|] the other way
    round, and De Morgan's law fails: each time a point is lost. *)
Theorem C92_or_assoc_refuted : exists a b c ab bc x r s, canonical a /\ canonical b /\ canonical c /\
  set_or a b = Ret ab /\ set_or b c = Ret bc /\ set_or ab c = Ret r /\ set_or a bc = Ret s /\
  In_set x s /\ ~ In_set x r.
Proof.
  exists [mkI 1 1], [mkI 3 3], [mkI 0 0], [mkI 1 1; mkI 3 3], [mkI 0 0; mkI 3 3], 3,
    [mkI 0 1], [mkI 0 1; mkI 3 3].
  repeat split; try reflexivity; try (cbn; iv; lia).
  - exists (mkI 3 3). split; [cbn; auto|iv; lia].
  - rewrite In_set_one. iv. lia.
Qed.
Theorem C92_absorption_refuted : exists a b o x r, canonical a /\ canonical b /\
  set_or a b = Ret o /\ set_and a o = Ret r /\ In_set x a /\ ~ In_set x r.
Proof.
  exists [mkI 1 1; mkI 3 3], [mkI 0 0], [mkI 0 1], 3, [mkI 1 1].
  repeat split; try reflexivity; try (cbn; iv; lia).
  - exists (mkI 3 3). split; [cbn; auto|iv; lia].
  - rewrite In_set_one. iv. lia.
Qed.
Theorem C92_absorption_dual_refuted : exists a b o x r, canonical a /\ canonical b /\
  set_and a b = Ret o /\ set_or a o = Ret r /\ In_set x a /\ ~ In_set x r.
Proof.
  exists [mkI 0 0; mkI 2 2; mkI 4 4], [mkI 0 0], [mkI 0 0], 4, [mkI 0 0; mkI 2 2].
  repeat split; try reflexivity; try (cbn; iv; lia).
  - exists (mkI 4 4). split; [cbn; auto|iv; lia].
  - rewrite !In_set_cons, In_set_nil. iv. lia.
Qed.
Theorem C92_distributive_refuted : exists a b c bc ab ac x r s,
  canonical a /\ canonical b /\ canonical c /\
  set_and b c = Ret bc /\ set_or a bc = Ret r /\
  set_or a b = Ret ab /\ set_or a c = Ret ac /\ set_and ab ac = Ret s /\
  In_set x s /\ ~ In_set x r.
Proof.
  exists [mkI 0 0; mkI 2 2], [mkI 0 0], [mkI (- oo) (-1); mkI 1 oo], [mkI 0 (-1); mkI 1 0],
    [mkI 0 0; mkI 2 2], set_all, 2, [mkI 0 0], [mkI 0 0; mkI 2 2].
  repeat split; try reflexivity; try (cbn; iv; lia).
  - exists (mkI 2 2). split; [cbn; auto|iv; lia].
  - rewrite In_set_one. iv. lia.
Qed.
Theorem C92_de_morgan_refuted : exists a b o x r, canonical a /\ canonical b /\
  set_or a b = Ret o /\ set_and (set_not a) (set_not b) = Ret r /\
  In_set x (set_not o) /\ ~ In_set x r.
Proof.
  exists [mkI 0 0; mkI 2 2; mkI 4 4], [mkI 0 0], [mkI 0 0; mkI 2 2], 4,
    [mkI (- oo) (-1); mkI 1 1; mkI 3 3; mkI 5 oo].
  repeat split; try reflexivity; try (cbn; iv; lia).
  - exists (mkI 3 oo). split; [vm_compute; auto 10|iv; lia].
  - rewrite !In_set_cons, In_set_nil. iv. lia.
Qed.
