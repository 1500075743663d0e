(** C83: translations and scalings compose and undo each other. *)
From Verif Require Import Machine TimeValue Spec Tac TimeValueProofs Interval Iter TimeSet Transl Scaling
  SpecSets SetProofs SetOpsProofs CollectProofs Prop_Interval Prop_TimeSet Prop_Transl Prop_Scaling.

(** ** Translations *)

(** Moving the bound [b] by [v] does not reach an infinity. *)
Definition unclamped (v b : Z) : Prop := b = oo \/ b = - oo \/ finite (b + v).
Definition moves (v : Z) (i : interval) : Prop := unclamped v (lower i) /\ unclamped v (upper i).

Lemma shift_shift b v w : valid b -> finite v -> finite w -> unclamped v b -> shift (shift b v) w = shift b (v + w).
Proof. intros Vb Fv Fw U. unfold unclamped in U. unfold shift. pts. tests; lia. Qed.
Lemma moves_stay i v : wf_iv i -> finite v -> moves v i -> exists x, finite x /\ In_ext (x - v) i.
Proof.
  intros W F (Ml & Mu). unfold unclamped, wf_iv, In_ext in *. pts.
  destruct (Z.eq_dec (lower i) (- 9223372036854775807)) as [E|E].
  - destruct (Z.eq_dec (upper i) 9223372036854775807) as [E'|E']; [exists 0; lia|].
    exists (upper i + v). lia.
  - exists (lower i + v). lia.
Qed.
Lemma add_moved p i v : wf_iv i -> finite v -> moves v i -> iv_add_v p i v = Ret (moved i v) /\ wf_iv (moved i v).
Proof.
  intros W F Mo. destruct (moves_stay i v W F Mo) as (x & Fx & Hx).
  destruct (checked_moved p i v W F) as [H|[H _]]; [tauto|]. destruct (H x Fx Hx).
Qed.
Lemma add_shift p i v : wf_iv i -> finite v ->
  iv_add_v p i v = iv_checked p (shift (lower i) v) (shift (upper i) v).
Proof.
  intros W F. unfold iv_add_v. rewrite !tv_add_shift by (auto; unfold wf_iv, valid in *; lia). auto.
Qed.

(** (i + v) + w is i + (v + w), panics included, if the first translation reaches no infinity. *)
Theorem C83_interval : forall p i v w, wf_iv i -> finite v -> finite w -> finite (v + w) -> moves v i ->
  exists k, iv_add_v p i v = Ret k /\ iv_add_v p k w = iv_add_v p i (v + w).
Proof.
  intros p i v w W Fv Fw Fs Mo. destruct (add_moved p i v W Fv Mo) as (E & Wm).
  exists (moved i v). split; auto. rewrite !add_shift by auto. destruct Mo as (Ml & Mu).
  unfold moved; cbn [lower upper]. rewrite !shift_shift; auto; unfold wf_iv, valid in *; lia.
Qed.
Lemma add_zero p i : wf_iv i -> iv_add_v p i 0 = Ret i.
Proof.
  intros W. destruct (add_moved p i 0 W) as (-> & _).
  - unfold finite, oo. lia.
  - unfold moves, unclamped, wf_iv, finite in *. lia.
  - f_equal. destruct i as (a & b). unfold moved, shift, wf_iv in *. cbn [lower upper] in *. f_equal; pts; tests; lia.
Qed.
(** i + v - v and i - v + v are i. *)
Theorem C83_undo : forall p i v, wf_iv i -> finite v ->
  (moves v i -> exists k, iv_add_v p i v = Ret k /\ iv_sub_v p k v = Ret i) /\
  (moves (- v) i -> exists k, iv_sub_v p i v = Ret k /\ iv_add_v p k v = Ret i).
Proof.
  intros p i v W F. assert (Fn : finite (- v)) by (unfold finite in *; lia).
  assert (F0 : finite 0) by (unfold finite, oo; lia). split; intros Mo.
  - destruct (C83_interval p i v (- v) W F Fn) as (k & E & K); [now rewrite Z.add_opp_diag_r|auto|].
    exists k. split; auto. change (iv_add_v p k (- v) = Ret i). rewrite K, Z.add_opp_diag_r. now apply add_zero.
  - destruct (C83_interval p i (- v) v W Fn F) as (k & E & K); [now rewrite Z.add_opp_diag_l|auto|].
    exists k. split; auto. rewrite K, Z.add_opp_diag_l. now apply add_zero.
Qed.
Example C83_undo_case : wf_iv (mkI (- oo) 7) /\ moves 5 (mkI (- oo) 7) /\
  iv_add_v Debug (mkI (- oo) 7) 5 = Ret (mkI (- oo) 12) /\ iv_sub_v Debug (mkI (- oo) 12) 5 = Ret (mkI (- oo) 7).
Proof.
  split; [unfold wf_iv, oo; cbn; lia|]. split; [unfold moves, unclamped, finite, oo; cbn; lia|]. split; reflexivity.
Qed.
(** A bound that reaches the infinity does not come back. *)
Theorem C83_undo_refuted : forall p, exists i v k i', wf_iv i /\ finite v /\ iv_add_v p i v = Ret k /\
  iv_sub_v p k v = Ret i' /\ i' <> i /\ exists x, In_iv x i' /\ ~ In_iv x i.
Proof.
  intros p. exists (mkI 0 (oo - 2)), 5, (mkI 5 oo), (mkI 0 oo).
  split; [unfold wf_iv, oo; cbn; lia|]. split; [unfold finite, oo; lia|].
  split; [destruct p; reflexivity|]. split; [destruct p; reflexivity|]. split; [discriminate|].
  exists (oo - 1). unfold In_iv, finite, oo. cbn. lia.
Qed.

(** The same for sets. *)
Lemma moves_stays l v : canonical l -> finite v -> Forall (moves v) l -> stays l v.
Proof.
  intros C F M i Hi. rewrite Forall_forall in M. apply moves_stay; eauto using canonical_In.
Qed.
Theorem C83_set : forall p l v w, canonical l -> finite v -> finite w -> finite (v + w) -> Forall (moves v) l ->
  exists m, set_add_v p l v = Ret m /\ canonical m /\ set_add_v p m w = set_add_v p l (v + w).
Proof.
  intros p l v w C Fv Fw Fs Mo. destruct (set_add_v_stays p l v C Fv (moves_stays l v C Fv Mo)) as (E & Cm).
  eexists. split; [exact E|]. split; auto. unfold set_add_v. rewrite omapM_map. apply omapM_ext. intros i Hi.
  rewrite Forall_forall in Mo. pose proof (canonical_In _ _ C Hi) as W.
  destruct (C83_interval p i v w W Fv Fw Fs (Mo i Hi)) as (k & K & H).
  destruct (add_moved p i v W Fv (Mo i Hi)) as (K' & _). congruence.
Qed.
Lemma set_add_zero p l : canonical l -> set_add_v p l 0 = Ret l.
Proof.
  intros C. apply omapM_Ret. assert (H : forall i, In i l -> wf_iv i) by eauto using canonical_In. clear C.
  induction l as [|i r IH]; constructor; [apply add_zero, H; cbn; auto|apply IH; intros; apply H; cbn; auto].
Qed.
Theorem C83_undo_set : forall p l v, canonical l -> finite v ->
  (Forall (moves v) l -> exists m, set_add_v p l v = Ret m /\ set_sub_v p m v = Ret l) /\
  (Forall (moves (- v)) l -> exists m, set_sub_v p l v = Ret m /\ set_add_v p m v = Ret l).
Proof.
  intros p l v C F. assert (Fn : finite (- v)) by (unfold finite in *; lia).
  assert (F0 : finite 0) by (unfold finite, oo; lia). split; intros Mo.
  - destruct (C83_set p l v (- v) C F Fn) as (m & E & _ & K); [now rewrite Z.add_opp_diag_r|auto|].
    exists m. split; auto. change (set_add_v p m (- v) = Ret l). rewrite K, Z.add_opp_diag_r. now apply set_add_zero.
  - destruct (C83_set p l (- v) v C Fn F) as (m & E & _ & K); [now rewrite Z.add_opp_diag_l|auto|].
    exists m. split; auto. rewrite K, Z.add_opp_diag_l. now apply set_add_zero.
Qed.
Example C83_set_case : canonical [mkI (- oo) 3; mkI 10 20] /\ Forall (moves 7) [mkI (- oo) 3; mkI 10 20] /\
  set_add_v Debug [mkI (- oo) 3; mkI 10 20] 7 = Ret [mkI (- oo) 10; mkI 17 27] /\
  set_sub_v Debug [mkI (- oo) 10; mkI 17 27] 7 = Ret [mkI (- oo) 3; mkI 10 20].
Proof.
  split; [unfold canonical, wf_iv, oo; cbn; lia|].
  split; [repeat constructor; unfold unclamped, finite, oo; cbn; lia|]. split; reflexivity.
Qed.

(** ** Scalings *)

Lemma clamp_finite x : finite x -> clamp x = x.
Proof. pts. lia. Qed.
(** (t * n) / n is t, if the product is finite. *)
Theorem C83_scale_value : forall g t n, factor_ok g n -> moderate n -> n <> 0 -> finite t -> finite (t * n) ->
  tv_div g (tv_mul g t n) n = Ret t.
Proof.
  intros g t n Fo M N Ft Fp. rewrite mul_moderate, clamp_finite by auto.
  rewrite C20_div_partial by (auto; unfold finite, valid in *; lia). replace (n =? 0) with false by lia.
  now rewrite Z.quot_mul.
Qed.
(** (t * m) * n is t * (m * n), and (t + u) * n is t * n + u * n. *)
Theorem C83_scale_twice : forall g t m n, moderate m -> moderate n -> moderate (m * n) -> finite (t * m) ->
  tv_mul g (tv_mul g t m) n = tv_mul g t (m * n).
Proof.
  intros g t m n Mm Mn Mp F. rewrite !mul_moderate by auto. rewrite (clamp_finite (t * m)) by auto.
  now rewrite Z.mul_assoc.
Qed.
Theorem C83_scale_sum : forall g t u n s, moderate n -> finite t -> finite u -> finite (t + u) ->
  finite (t * n) -> finite (u * n) -> tv_add t u = Ret s ->
  tv_add (tv_mul g t n) (tv_mul g u n) = Ret (tv_mul g s n).
Proof.
  intros g t u n s M Ft Fu Fs Ftn Fun E. rewrite tv_add_finite, clamp_finite in E by auto. injection E as <-.
  rewrite !mul_moderate by auto. rewrite (clamp_finite (t * n)), (clamp_finite (u * n)) by auto.
  rewrite tv_add_finite by auto. now rewrite Z.mul_add_distr_r.
Qed.

(** The bounds of [i] and of [i * n] are finite. *)
Definition scales (n : Z) (i : interval) : Prop :=
  finite (lower i) /\ finite (upper i) /\ finite (lower i * n) /\ finite (upper i * n).
Lemma scales_image n i : wf_iv i -> scales n i -> image_ok n i.
Proof. intros W (_ & _ & Hl & Hu). unfold image_ok, finite in *. lia. Qed.
Lemma scaled_div g n i : wf_iv i -> factor_ok g n -> moderate n -> n <> 0 -> scales n i ->
  span_div g (scaled i n) n = Ret i.
Proof.
  intros W Fo M N (Fl & Fu & Pl & Pu). unfold scaled, span_div.
  assert (D : forall x, finite (x * n) -> tv_div g (clamp (x * n)) n = Ret x).
  { intros x Fx. rewrite clamp_finite by auto.
    rewrite C20_div_partial by (auto; unfold finite, valid in *; lia). replace (n =? 0) with false by lia.
    now rewrite Z.quot_mul. }
  destruct (n <? 0); cbn [lower upper]; rewrite !D by auto; cbn [bind]; destruct i; auto.
Qed.
Theorem C83_scale_span : forall g i n, wf_iv i -> factor_ok g n -> moderate n -> n <> 0 -> scales n i ->
  exists k, span_mul g i n = Ret k /\ span_div g k n = Ret i.
Proof.
  intros g i n W Fo M N S. exists (scaled i n).
  split; [apply scaled_ok; auto; now apply scales_image|now apply scaled_div].
Qed.

Lemma filter_all {A} (f : A -> bool) l : (forall a, In a l -> f a = true) -> filter f l = l.
Proof.
  induction l as [|a r IH]; intros H; auto. cbn [filter]. rewrite H by (cbn; auto). f_equal. apply IH.
  intros b Hb. apply H. cbn; auto.
Qed.
Lemma joined_canonical l : canonical l -> check_joined_inners l = l.
Proof.
  destruct l as [|i r]; auto. cbn [check_joined_inners]. revert i.
  induction r as [|j r IH]; intros i C; auto. cbn [joined]. destruct C as (W & G & C).
  assert (J : just_before (lower j) <=? upper i = false).
  { pose proof C as (Wj & _). unfold wf_iv in *. pts. tests; lia. }
  rewrite J. f_equal. now apply IH.
Qed.
Lemma omapM_rev {A B} (f : A -> outcome B) l out : omapM f l = Ret out -> omapM f (rev l) = Ret (rev out).
Proof.
  rewrite !omapM_Ret. induction 1 as [|a b l out H F IH]; cbn [rev]; auto.
  apply Forall2_app; auto.
Qed.
(** (s * n) / n is s for a set of spans. *)
Theorem C83_scale_set : forall g l n, canonical l -> factor_ok g n -> moderate n -> n <> 0 -> Forall (scales n) l ->
  exists m, spans_mul g l n = Ret m /\ spans_div g m n = Ret l.
Proof.
  intros g l n C Fo M N S. rewrite Forall_forall in S.
  assert (I : forall i, In i l -> image_ok n i) by (intros i Hi; apply scales_image; eauto using canonical_In).
  exists (arranged n (map (fun i => scaled i n) l)). split.
  - unfold spans_mul. replace (n =? 0) with false by lia.
    rewrite (proj1 (mul_pieces g l n M C) I). cbn [bind].
    rewrite filter_all; [reflexivity|]. intros k Hk. apply in_map_iff in Hk as (i & <- & Hi).
    destruct (scaled_ok g i n (canonical_In _ _ C Hi) M) as (H & _). destruct (H (I i Hi)) as (_ & W).
    unfold iv_is_empty, wf_iv in *. pts. lia.
  - unfold spans_div, assert_. replace (n =? 0) with false by lia. cbn [negb bind].
    assert (E : omapM (fun tw => span_div g tw n) (map (fun i => scaled i n) l) = Ret l).
    { rewrite omapM_map. apply omapM_Ret.
      assert (W : forall i, In i l -> wf_iv i) by eauto using canonical_In. clear C I.
      induction l as [|i r IH]; constructor; [apply scaled_div; auto; [apply W|apply S]; cbn; auto|].
      apply IH; intros; [apply S|apply W]; cbn; auto. }
    unfold arranged. destruct (n <? 0).
    + rewrite (omapM_rev _ _ _ E). cbn [bind]. rewrite rev_involutive. now rewrite joined_canonical.
    + rewrite E. cbn [bind]. now rewrite joined_canonical.
Qed.
Example C83_scale_case : canonical [mkI (-5) 3; mkI 10 20] /\ Forall (scales (-4)) [mkI (-5) 3; mkI 10 20] /\
  spans_mul Small [mkI (-5) 3; mkI 10 20] (-4) = Ret [mkI (-80) (-40); mkI (-12) 20] /\
  spans_div Small [mkI (-80) (-40); mkI (-12) 20] (-4) = Ret [mkI (-5) 3; mkI 10 20].
Proof.
  split; [unfold canonical, wf_iv, oo; cbn; lia|].
  split; [repeat constructor; unfold finite, oo; cbn; lia|]. split; reflexivity.
Qed.
(** The factor -1 is the opposite, also of unbounded sets. *)
Theorem C83_minus_one : forall g l, canonical l -> spans_mul g l (-1) = Ret (set_neg l).
Proof.
  intros g l C. assert (M : moderate (-1)) by (unfold moderate, oo; lia).
  assert (I : forall i, In i l -> image_ok (-1) i).
  { intros i Hi. pose proof (canonical_In _ _ C Hi). unfold image_ok, wf_iv in *. lia. }
  unfold spans_mul. replace (-1 =? 0) with false by lia. rewrite (proj1 (mul_pieces g l (-1) M C) I). cbn [bind].
  replace (-1 <? 0) with true by lia. f_equal. unfold set_neg. rewrite map_rev. f_equal.
  rewrite filter_all.
  - apply map_ext_in. intros i Hi. pose proof (canonical_In _ _ C Hi) as W. unfold scaled, iv_neg.
    replace (-1 <? 0) with true by lia. unfold wf_iv in W. f_equal; pts; lia.
  - intros k Hk. apply in_map_iff in Hk as (i & <- & Hi).
    destruct (scaled_ok g i (-1) (canonical_In _ _ C Hi) M) as (H & _). destruct (H (I i Hi)) as (_ & W).
    unfold iv_is_empty, wf_iv in *. pts. lia.
Qed.
Example C83_minus_one_case : canonical [mkI (- oo) 3; mkI 10 20] /\
  spans_mul Big [mkI (- oo) 3; mkI 10 20] (-1) = Ret [mkI (-20) (-10); mkI (-3) oo].
Proof. split; [unfold canonical, wf_iv, oo; cbn; lia|reflexivity]. Qed.
Example C83_scale_value_case : factor_ok Small (-7) /\ moderate (-7) /\ finite (9 * -7) /\
  tv_mul Small 9 (-7) = -63 /\ tv_div Small (-63) (-7) = Ret 9 /\
  tv_mul Small (tv_mul Small 9 (-7)) 2 = -126 /\ tv_mul Small 9 (-14) = -126.
Proof.
  split; [unfold factor_ok, i64_factor; lia|]. split; [unfold moderate, oo; lia|].
  split; [unfold finite, oo; lia|]. repeat split; reflexivity.
Qed.
(** An infinite duration does not come back from a scaling, nor does a saturated one. *)
Theorem C83_scale_refuted : exists n t u, moderate n /\ finite t /\ finite n /\ n <> 0 /\
  tv_div Small (tv_mul Small t n) n = Ret u /\ u < t /\
  exists o, tv_div Small (tv_mul Small oo n) n = Ret o /\ finite o.
Proof.
  exists 4, (2 ^ 61), (2 ^ 61 - 1). split; [unfold moderate, oo; lia|]. split; [unfold finite, oo; lia|].
  split; [unfold finite, oo; lia|]. split; [lia|]. split; [reflexivity|]. split; [lia|].
  exists (2 ^ 61 - 1). split; [reflexivity|unfold finite, oo; lia].
Qed.

Print Assumptions C83_interval.
Print Assumptions C83_undo.
Print Assumptions C83_undo_refuted.
Print Assumptions C83_set.
Print Assumptions C83_undo_set.
Print Assumptions C83_scale_value.
Print Assumptions C83_scale_twice.
Print Assumptions C83_scale_sum.
Print Assumptions C83_scale_span.
Print Assumptions C83_scale_set.
Print Assumptions C83_minus_one.
Print Assumptions C83_scale_refuted.
