(** Float factors: durations, spans and sets (properties C67, C68, C69). *)
From Verif Require Import Machine TimeValue Spec Tac TimeValueProofs Interval Iter TimeSet Relns SpecSets SetProofs
  CollectProofs Prop_Interval SetOpsProofs Prop_TimeSet Prop_Transl Scaling Prop_Scaling Float SpecScale FloatProofs FloatCoarse Prop_Float.

(** The halves of the formats: 0.5 *)
Definition f_half (F : fmt) : fl := FFin false (2 ^ (f_e F - 1)).
Lemma half_value F : format F -> value F (f_half F).
Proof.
  intros [->| ->]; (split; [apply rep_pow; [first [apply ok_f32|apply ok_f64]|cbn; lia]|]); vm_compute; reflexivity.
Qed.
(** Computations in double precision are done in the coarser units of [FloatCoarse]. *)
Lemma half_64 : f_half f64 = up c64 (f_half f64c). Proof. reflexivity. Qed.
Lemma mhalf_64 : FFin true (2 ^ (f_e f64 - 1)) = up c64 (FFin true (2 ^ (f_e f64c - 1))). Proof. reflexivity. Qed.
Lemma one_64 : f_one f64 = up c64 (f_one f64c). Proof. reflexivity. Qed.
Lemma zero_64 s : FFin s 0 = up c64 (FFin s 0). Proof. reflexivity. Qed.
Lemma nan_64 : FNan = up c64 FNan. Proof. reflexivity. Qed.
Lemma inf_64 s : FInf s = up c64 (FInf s). Proof. reflexivity. Qed.
Ltac side := lazymatch goal with
  | |- valid _ => unfold valid, oo; cbn; lia
  | |- Forall _ _ => repeat apply Forall_cons; try apply Forall_nil; (split; unfold valid, oo; cbn; lia)
  | |- _ => vm_compute; reflexivity end.
Ltac in64 := unfold spans_div_f, spans_div_assign_f;
  first [rewrite half_64|rewrite mhalf_64|rewrite one_64|rewrite f_of_64 by side|rewrite zero_64|rewrite nan_64|rewrite inf_64];
  try rewrite inv_64 by side;
  first [rewrite mul_64 by side|rewrite div_64 by side|rewrite span_64 by side|rewrite span_div_64 by side|
    rewrite spans_64 by side|rewrite spans_assign_64 by side].
Ltac both Hf := destruct Hf as [->| ->]; [|try in64]; vm_compute; reflexivity.
Example C67_case : forall F, format F -> tv_mul_f F 7 (f_half F) = 3 /\ tv_mul_f F (- 7) (f_half F) = - 3 /\
  tv_mul_f F oo (f_of F 3) = oo /\ tv_mul_f F (- oo) (f_of F 3) = - oo /\ tv_mul_f F 1000 (f_of F (- 3)) = - 3000 /\
  tv_div_f F 7 (f_of F 2) = 3 /\ tv_div_f F 7 (FFin true 0) = - oo /\ tv_div_f F 0 (FFin false 0) = 0 /\
  value F (f_half F) /\ below_zero (f_of F (- 3)) /\ ~ below_zero (f_half F) /\ rep F (7 * 2 ^ (f_e F - 1)).
Proof.
  intros F Hf. split; [both Hf|]. split; [both Hf|].
  split; [both Hf|]. split; [both Hf|].
  split; [both Hf|]. split; [both Hf|].
  split; [both Hf|]. split; [both Hf|].
  split; [now apply half_value|]. split; [destruct Hf as [->| ->]; [|rewrite f_of_64 by side]; vm_compute; split; congruence|].
  split; [cbn; intuition congruence|].
  apply rep_small; [now apply format_ok| |]; destruct Hf as [->| ->]; cbn; lia.
Qed.
(** In f64, [2 ^ 60 * 0.3] is within 256 ticks and one of the exact product. *)
Example C67_accuracy_case : let u := 5404319552844595 * 2 ^ 1020 in value f64 (FFin false u) /\
  Z.abs (2 ^ 60) * u <= 2 ^ 62 * 2 ^ f_e f64 /\ tv_mul_f f64 (2 ^ 60) (FFin false u) = 345876451382054080 /\
  tv_div_f f64 (2 ^ 60) (FFin false u) = 3843071682022823424.
Proof.
  cbv zeta. split; [|split; [|split]].
  - split; [exists 5404319552844595, 1020; split; [cbn; lia|split; [lia|reflexivity]]|vm_compute; reflexivity].
  - apply Z.leb_le. vm_compute. reflexivity.
  - change (FFin false (5404319552844595 * 2 ^ 1020)) with (up c64 (FFin false (5404319552844595 * 2 ^ 74))).
    rewrite mul_64 by side. vm_compute. reflexivity.
  - change (FFin false (5404319552844595 * 2 ^ 1020)) with (up c64 (FFin false (5404319552844595 * 2 ^ 74))).
    rewrite div_64 by side. vm_compute. reflexivity.
Qed.
(** Findings: 1.0 does not keep large durations; half of an infinite duration is finite; a duration divided by
    itself is 0; an infinite duration times 0 or a null one times an infinite factor is 0. *)
Theorem C70_refuted :
  (forall F, format F -> exists t, finite t /\ tv_mul_f F t (f_one F) <> t) /\
  (forall F, format F -> finite (tv_mul_f F oo (f_half F))) /\
  (tv_div_f f64 49 (f_of f64 49) = 0 /\ tv_div_f f32 41 (f_of f32 41) = 0) /\
  (forall F, format F -> tv_mul_f F oo (f_of F 0) = 0 /\ tv_mul_f F 0 (FInf false) = 0).
Proof.
  split; [|split; [|split]].
  - intros F [->| ->]; [exists (2 ^ 24 + 1)|exists (2 ^ 53 + 1)]; (split; [unfold finite, oo; lia|try in64; vm_compute; congruence]).
  - intros F [->| ->]; [|in64]; vm_compute; auto.
  - split; [in64|]; vm_compute; reflexivity.
  - intros F Hf. split; both Hf.
Qed.

(** ** C68 spans *)

Section C68.
Variable F : fmt.
Hypothesis Fm : format F.

Lemma lt_zero f : value F f -> (f_lt f f_zero = true <-> below_zero f).
Proof.
  intros H. destruct f as [|s|s u]; cbn.
  - intuition congruence.
  - tauto.
  - pose proof (value_nonneg F s u H) as U. unfold sg. destruct s; split; intros X; try split; try lia; try tauto.
Qed.

Lemma checked_ok lo up : valid lo -> valid up -> lo <= up ->
  (lo < oo /\ - oo < up /\ checked_span lo up = Ret (mkI lo up)) \/
  ((lo = oo \/ up = - oo) /\ checked_span lo up = Panic).
Proof.
  intros Vl Vu H. unfold checked_span, assert_, is_future_infinite, is_past_infinite, INF, i64_max. unfold valid, oo in *.
  tests; cbn [negb bind]; try (right; split; [lia|reflexivity]). left. split; [lia|]. split; [lia|reflexivity].
Qed.
(** [r] is the least span with the images of the durations of [i] by [h], infinite bounds included, or a
    panic if they are all infinite in the same direction. *)
Definition span_image (h : Z -> Z) (i : interval) (r : outcome interval) : Prop :=
  (exists k, r = Ret k /\ wf_iv k /\ (forall t, lower i <= t <= upper i -> lower k <= h t <= upper k) /\
    exists a b, lower i <= a <= upper i /\ lower i <= b <= upper i /\ h a = lower k /\ h b = upper k) \/
  (r = Panic /\ ((forall t, lower i <= t <= upper i -> h t = oo) \/ (forall t, lower i <= t <= upper i -> h t = - oo))).
Lemma checked_image h i lo up a b : lower i <= upper i -> (forall t, lower i <= t <= upper i -> valid (h t)) ->
  (forall t, lower i <= t <= upper i -> lo <= h t <= up) ->
  lower i <= a <= upper i -> lower i <= b <= upper i -> h a = lo -> h b = up -> span_image h i (checked_span lo up).
Proof.
  intros Le V B Ha Hb Ea Eb. pose proof (V a Ha) as Va. pose proof (V b Hb) as Vb. rewrite Ea in Va. rewrite Eb in Vb.
  pose proof (B (lower i) ltac:(lia)) as Bl.
  destruct (checked_ok lo up) as [(A & C & ->)|(A & ->)]; auto; [lia| |].
  - left. exists (mkI lo up). split; auto. cbn [lower upper]. split; [unfold wf_iv, valid in *; cbn; lia|].
    split; auto. exists a, b. auto.
  - right. split; auto. destruct A as [A|A]; [left|right]; intros t Ht; specialize (B t Ht); specialize (V t Ht); unfold valid in V; lia.
Qed.
Theorem C68_mul : forall i f, wf_iv i -> value F f -> span_image (fun t => tv_mul_f F t f) i (span_mul_f F i f).
Proof.
  intros i f W H. assert (Le : lower i <= upper i) by apply W.
  assert (In : forall t, lower i <= t <= upper i -> valid t) by (unfold wf_iv, valid in *; lia).
  unfold span_mul_f. destruct (f_lt f f_zero) eqn:T.
  - apply lt_zero in T; auto. apply checked_image with (a := upper i) (b := lower i); auto; try lia.
    + intros t Ht. now apply C67_valid; auto.
    + intros t Ht. split; apply (fun v v' l => proj2 (C67_monotone F Fm _ _ f v v' l H)); auto; try lia; apply In; lia.
  - assert (T' : ~ below_zero f) by (rewrite <- lt_zero by auto; congruence).
    apply checked_image with (a := lower i) (b := upper i); auto; try lia.
    + intros t Ht. now apply C67_valid; auto.
    + intros t Ht. split; apply (fun v v' l => proj1 (C67_monotone F Fm _ _ f v v' l H)); auto; try lia; apply In; lia.
Qed.
(** Division by anything but -0.0 *)
Theorem C68_div : forall i f, wf_iv i -> value F f -> f <> FFin true 0 ->
  span_image (fun t => tv_div_f F t f) i (span_div_f F i f).
Proof.
  intros i f W H N. assert (Le : lower i <= upper i) by apply W. pose proof (inv_value F Fm f H) as H'.
  assert (In : forall t, lower i <= t <= upper i -> valid t) by (unfold wf_iv, valid in *; lia).
  unfold span_div_f. destruct (f_lt f f_zero) eqn:T.
  - apply lt_zero in T; auto.
    assert (S : match finv F f with FNan => True | FInf s | FFin s _ => s = true end).
    { apply inv_sign_neg. destruct f as [|s|s u]; cbn in *; tauto. }
    apply checked_image with (a := upper i) (b := lower i); auto; try lia.
    + intros t Ht. now apply C67_div_valid; auto.
    + intros t Ht. split; apply mono_neg; auto; try lia; apply In; lia.
  - assert (T' : ~ below_zero f) by (rewrite <- lt_zero by auto; congruence).
    assert (S : match finv F f with FNan => True | FInf s | FFin s _ => s = false end).
    { apply inv_sign. destruct f as [|s|s u]; cbn in *; auto; destruct s; auto; try tauto.
      exfalso. destruct (Z.eq_dec u 0); [congruence|tauto]. }
    apply checked_image with (a := lower i) (b := upper i); auto; try lia.
    + intros t Ht. now apply C67_div_valid; auto.
    + intros t Ht. split; apply mono_pos; auto; try lia; apply In; lia.
Qed.
(** Dividing by -0.0 panics as soon as there is a non null duration. *)
Theorem C68_div_minus_zero : forall i, wf_iv i ->
  span_div_f F i (FFin true 0) = if (lower i =? 0) && (upper i =? 0) then Ret i else Panic.
Proof.
  intros i W. assert (Vl : valid (lower i)) by (unfold wf_iv, valid in *; lia).
  assert (Vu : valid (upper i)) by (unfold wf_iv, valid in *; lia).
  unfold span_div_f. cbn [f_lt sg f_zero]. change (- 0 <? 0) with false. cbn [negb].
  rewrite (proj2 (proj2 (C67_div_special F Fm (lower i) true Vl))), (proj2 (proj2 (C67_div_special F Fm (upper i) true Vu))).
  destruct i as [a b]. unfold wf_iv in W. cbn [lower upper] in *.
  destruct (a =? 0) eqn:A; destruct (b =? 0) eqn:B; cbn [andb].
  - assert (a = 0) by lia. assert (b = 0) by lia. subst. reflexivity.
  - replace (b <? 0) with false by lia. reflexivity.
  - replace (a <? 0) with true by lia. reflexivity.
  - destruct (a <? 0) eqn:C; [reflexivity|]. replace (b <? 0) with false by lia. reflexivity.
Qed.
End C68.

Example C68_case : forall F, format F -> span_mul_f F (mkI 3 7) (f_half F) = Ret (mkI 1 3) /\
  span_mul_f F (mkI (- 5) 7) (f_of F (- 2)) = Ret (mkI (- 14) 10) /\ span_mul_f F (mkI 3 oo) (f_of F (- 2)) = Ret (mkI (- oo) (- 6)) /\
  span_mul_f F (mkI (oo - 7) (oo - 1)) (f_of F 2) = Panic /\ span_div_f F (mkI 3 7) (f_of F (- 2)) = Ret (mkI (- 3) (- 1)) /\
  span_div_f F (mkI 0 7) (FFin false 0) = Ret (mkI 0 oo) /\ span_mul_f F (mkI 3 oo) FNan = Ret (mkI 0 0) /\ wf_iv (mkI 3 7).
Proof.
  intros F Hf. split; [both Hf|]. split; [both Hf|].
  split; [both Hf|]. split; [both Hf|].
  split; [both Hf|]. split; [both Hf|].
  split; [both Hf|]. unfold wf_iv, oo; cbn. lia.
Qed.

(** ** C69 sets *)

Lemma pairs_snoc {A} (R : A -> A -> Prop) l x : ForallOrdPairs R l -> Forall (fun y => R y x) l -> ForallOrdPairs R (l ++ [x]).
Proof.
  induction l as [|a r IH]; intros P Q; cbn; [repeat constructor|].
  inv P. inv Q. constructor; [|auto]. apply Forall_app. auto.
Qed.
Lemma pairs_rev {A} (R : A -> A -> Prop) l : ForallOrdPairs (fun x y => R y x) l -> ForallOrdPairs R (rev l).
Proof.
  induction l as [|a r IH]; intros P; cbn; [constructor|]. inv P. apply pairs_snoc; auto.
  rewrite Forall_forall in *. intros y Hy. apply H1. now apply in_rev.
Qed.
Lemma canonical_pairs l : canonical l -> ForallOrdPairs (fun i j => upper i < lower j) l.
Proof.
  rewrite canonical_from_iff. generalize (- oo - 1). induction l as [|i r IH]; intros b C; constructor.
  - apply Forall_forall. intros j Hj. destruct C as (_ & _ & C). apply (canon_from_In _ _ _ C) in Hj. lia.
  - destruct C as (_ & _ & C). eauto.
Qed.
Lemma joined_canonical l : forall i, canonical (i :: l) -> joined i l = i :: l.
Proof.
  induction l as [|j r IH]; intros i C; auto. destruct C as (Wi & L & C). cbn [joined].
  assert (Wj : wf_iv j) by apply C. unfold wf_iv in *.
  replace (just_before (lower j) <=? upper i) with false; [now rewrite IH|].
  unfold just_before, is_finite, INF, i64_max, i64_min. unfold oo in *. symmetry. tests; lia.
Qed.
Lemma check_joined_id l : canonical l -> check_joined_inners l = l.
Proof. destruct l; auto. apply joined_canonical. Qed.

Section C69.
Variable F : fmt.
Hypothesis Fm : format F.
Let p := f_prec F.
Let E := 2 ^ f_e F.

(** Below 1 in magnitude, the images are finite, even those of the infinite durations. *)
Lemma contracting_finite t f : valid t -> value F f -> contracting F f -> finite (tv_mul_f F t f).
Proof.
  intros V H C. destruct f as [|s|s u]; try contradiction. cbn in C. pose proof (value_nonneg F s u H) as U.
  rewrite (mul_fin F (format_ok F Fm) t s u V U).
  pose proof (format_digits F Fm) as D. fold p in D. assert (Ep : 0 < E) by (apply pow_pos; lia). fold E in C.
  assert (M : mag F (Z.abs t) u <= (2 ^ p - 1) * 2 ^ (63 - p)).
  { unfold mag. fold E. apply Z.div_le_upper_bound; auto.
    assert (X : E * ((2 ^ p - 1) * 2 ^ (63 - p)) = (2 ^ p - 1) * 2 ^ (63 - p + f_e F)).
    { unfold E. rewrite Z.pow_add_r by lia. ring. }
    rewrite X. clear X. pose proof (rnd_int F (format_ok F Fm) (Z.abs t)) as B. fold E in B. destruct B as [B1 B2].
    { unfold valid, oo in V. lia. }
    apply rnd_hi; auto; try nia.
    - now apply format_ok.
    - assert (0 < 2 ^ p) by (apply pow_pos; lia). apply rep_small; [now apply format_ok| |lia]. fold p. lia.
    - (* u has at most p digits and is below 2 ^ e, so it is at most (2 ^ p - 1) * 2 ^ (e - p) *)
      assert (L : u * 2 ^ p <= (2 ^ p - 1) * E).
      { destruct (Z.eq_dec u 0) as [->|N0]; [assert (1 <= 2 ^ p) by (pose proof (pow_pos p ltac:(lia)); lia); nia|].
        destruct H as ((m & j & Hm & Hj & ->) & _). fold p in Hm. unfold E in C |- *. pose proof (pow_pos j Hj) as Pj.
        destruct (Z_le_gt_dec (f_e F) (j + p)) as [K|K].
        - (* units of 2 ^ j, with e - p <= j <= e *)
          destruct (Z_le_gt_dec j (f_e F)) as [K2|K2].
          + rewrite (pow_split (f_e F) j) in C |- * by lia. assert (m < 2 ^ (f_e F - j)) by nia.
            assert (Q : 2 ^ p = 2 ^ (p - (f_e F - j)) * 2 ^ (f_e F - j)) by (apply pow_split; lia).
            assert (0 < 2 ^ (p - (f_e F - j))) by (apply pow_pos; lia).
            set (G := 2 ^ (f_e F - j)) in *. set (J := 2 ^ j) in *. set (R := 2 ^ (p - (f_e F - j))) in *.
            rewrite Q. replace (m * J * (R * G)) with (J * (m * R * G)) by ring.
            replace ((R * G - 1) * (G * J)) with (J * ((R * G - 1) * G)) by ring.
            apply Z.mul_le_mono_nonneg_l; [lia|]. rewrite (Z.mul_comm _ G), (Z.mul_comm _ G). apply Z.mul_le_mono_nonneg_l; nia.
          + exfalso. assert (2 ^ f_e F <= 2 ^ j) by (apply Z.pow_le_mono_r; lia).
            destruct (Z.eq_dec m 0); [subst m; lia|nia].
        - assert (2 ^ (j + p) <= 2 ^ f_e F) by (apply Z.pow_le_mono_r; lia). rewrite Z.pow_add_r in H by lia. nia. }
      assert (Q : 2 ^ (63 + f_e F) = 2 ^ (63 - p + f_e F) * 2 ^ p) by (rewrite <- Z.pow_add_r by lia; f_equal; lia).
      assert (0 < 2 ^ (63 - p + f_e F)) by (apply pow_pos; lia).
      apply Z.le_trans with (2 ^ (63 + f_e F) * u); [now apply Z.mul_le_mono_nonneg_r|]. rewrite Q, <- Z.mul_assoc.
      rewrite (Z.mul_comm (2 ^ p - 1) (2 ^ _)), <- Z.mul_assoc. apply Z.mul_le_mono_nonneg_l; lia. }
  assert (Q : 2 ^ 63 = 2 ^ p * 2 ^ (63 - p)) by (rewrite <- Z.pow_add_r by lia; f_equal; lia).
  assert (2 ^ 10 <= 2 ^ (63 - p)) by (apply Z.pow_le_mono_r; lia).
  pose proof (mag_nonneg F (format_ok F Fm) (Z.abs t) u ltac:(lia) U).
  assert (mag F (Z.abs t) u < oo) by (unfold oo; lia). unfold finite, sg, oo in *. destruct (xorb _ _); lia.
Qed.

(** What the pieces become *)
Definition piece (f : fl) (i : interval) : interval :=
  if f_lt f f_zero then mkI (tv_mul_f F (upper i) f) (tv_mul_f F (lower i) f)
  else mkI (tv_mul_f F (lower i) f) (tv_mul_f F (upper i) f).
Lemma piece_image i f : wf_iv i -> value F f ->
  (forall t, lower i <= t <= upper i -> lower (piece f i) <= tv_mul_f F t f <= upper (piece f i)) /\
  exists a b, lower i <= a <= upper i /\ lower i <= b <= upper i /\
    tv_mul_f F a f = lower (piece f i) /\ tv_mul_f F b f = upper (piece f i).
Proof.
  intros W H. assert (In : forall t, lower i <= t <= upper i -> valid t) by (unfold wf_iv, valid in *; lia).
  assert (Le : lower i <= upper i) by apply W. unfold piece. destruct (f_lt f f_zero) eqn:T; cbn [lower upper].
  - apply (lt_zero F f H) in T. split.
    + intros t Ht. split; apply (fun v v' l => proj2 (C67_monotone F Fm _ _ f v v' l H)); auto; try lia; apply In; lia.
    + exists (upper i), (lower i). repeat split; auto; lia.
  - assert (T' : ~ below_zero f) by (rewrite <- (lt_zero F f H); congruence). split.
    + intros t Ht. split; apply (fun v v' l => proj1 (C67_monotone F Fm _ _ f v v' l H)); auto; try lia; apply In; lia.
    + exists (lower i), (upper i). repeat split; auto; lia.
Qed.
Lemma contracting_piece i f : wf_iv i -> value F f -> contracting F f ->
  span_mul_f F i f = Ret (piece f i) /\ wf_iv (piece f i) /\ finite (lower (piece f i)) /\ finite (upper (piece f i)).
Proof.
  intros W H C. destruct (piece_image i f W H) as (B & a & b & Ha & Hb & Ea & Eb).
  assert (Fa : finite (tv_mul_f F a f)) by (apply contracting_finite; auto; unfold wf_iv, valid in *; lia).
  assert (Fb : finite (tv_mul_f F b f)) by (apply contracting_finite; auto; unfold wf_iv, valid in *; lia).
  rewrite Ea in Fa. rewrite Eb in Fb. pose proof (B a Ha) as Ba. rewrite Ea in Ba.
  split; [|split; [|auto]]; [|unfold wf_iv, finite in *; lia].
  unfold span_mul_f. unfold piece in *. destruct (f_lt f f_zero); cbn [lower upper] in *;
    (match goal with |- checked_span ?x ?y = _ => destruct (checked_ok x y) as [(_ & _ & ->)|(X & _)] end;
     [unfold valid, finite in *; lia|unfold valid, finite in *; lia|lia|reflexivity|unfold finite in *; lia]).
Qed.
Lemma pieces_ordered l f : canonical l -> value F f ->
  ForallOrdPairs le_iv (if f_lt f f_zero then rev (map (piece f) l) else map (piece f) l).
Proof.
  intros C H. assert (K : forall i, In i l -> wf_iv i) by eauto using canonical_In. pose proof (canonical_pairs l C) as P.
  assert (M : forall i j, wf_iv i -> wf_iv j -> upper i < lower j ->
     if f_lt f f_zero then le_iv (piece f j) (piece f i) else le_iv (piece f i) (piece f j)).
  { intros i j Wi Wj L. unfold piece, le_iv. unfold wf_iv in *. destruct (f_lt f f_zero) eqn:T; cbn [lower upper].
    - apply (lt_zero F f H) in T. split; apply (fun v v' l => proj2 (C67_monotone F Fm _ _ f v v' l H)); auto; unfold valid; lia.
    - assert (T' : ~ below_zero f) by (rewrite <- (lt_zero F f H); congruence).
      split; apply (fun v v' l => proj1 (C67_monotone F Fm _ _ f v v' l H)); auto; unfold valid; lia. }
  clear C. destruct (f_lt f f_zero).
  - apply pairs_rev. induction P as [|i r Hi P IH]; cbn [map]; constructor; [|apply IH; intros; apply K; cbn; auto].
    rewrite Forall_forall in *. intros k Hk. apply in_map_iff in Hk as (j & <- & Hj). apply M; auto; apply K; cbn; auto.
  - induction P as [|i r Hi P IH]; cbn [map]; constructor; [|apply IH; intros; apply K; cbn; auto].
    rewrite Forall_forall in *. intros k Hk. apply in_map_iff in Hk as (j & <- & Hj). apply M; auto; apply K; cbn; auto.
Qed.
(** Between the images of two durations of the same piece *)
Definition between_images (h : Z -> Z) (l : tset) (y : Z) : Prop :=
  exists i a b, In i l /\ lower i <= a <= upper i /\ lower i <= b <= upper i /\ h a <= y <= h b.
Lemma contracting_pieces l f : canonical l -> value F f -> contracting F f ->
  let inners := if f_lt f f_zero then rev (map (piece f) l) else map (piece f) l in
  omapM (fun tw => span_mul_f F tw f) l = Ret (map (piece f) l) /\ Forall wf_iv inners /\
  forall y, In_set y inners <-> between_images (fun t => tv_mul_f F t f) l y.
Proof.
  intros C H K. cbv zeta. assert (W : forall i, In i l -> wf_iv i) by eauto using canonical_In.
  assert (I : forall k, In k (if f_lt f f_zero then rev (map (piece f) l) else map (piece f) l) <-> In k (map (piece f) l)).
  { intros k. destruct (f_lt f f_zero); [rewrite <- in_rev|]; reflexivity. }
  split; [|split].
  - apply omapM_Ret. clear C I. induction l as [|i r IH]; cbn [map]; constructor.
    + apply contracting_piece; auto. apply W. cbn. auto.
    + apply IH. intros. apply W. cbn. auto.
  - apply Forall_forall. intros k Hk. apply I in Hk. apply in_map_iff in Hk as (i & <- & Hi). apply contracting_piece; auto.
  - intros y. unfold In_set, between_images. split.
    + intros (k & Hk & Fy & Hy). apply I in Hk. apply in_map_iff in Hk as (i & <- & Hi).
      destruct (piece_image i f (W i Hi) H) as (_ & a & b & Ha & Hb & Ea & Eb). exists i, a, b. rewrite Ea, Eb. auto.
    + intros (i & a & b & Hi & Ha & Hb & Hy). destruct (piece_image i f (W i Hi) H) as (B & _).
      destruct (contracting_piece i f (W i Hi) H K) as (_ & _ & F1 & F2).
      pose proof (B a Ha). pose proof (B b Hb).
      exists (piece f i). split; [apply I; now apply in_map|]. unfold In_iv, finite in *. lia.
Qed.
(** [s *= f] for [f] between -1 and 1, both excluded: canonical, made of what is between the images of two
    durations of the same piece; it never panics. *)
Theorem C69_assign : forall l f, canonical l -> value F f -> contracting F f ->
  exists out, spans_mul_assign_f F l f = Ret out /\ canonical out /\
    (forall y, In_set y out <-> between_images (fun t => tv_mul_f F t f) l y) /\
    (forall x, In_set x l -> In_set (tv_mul_f F x f) out).
Proof.
  intros l f C H K. destruct (contracting_pieces l f C H K) as (P & W & D). unfold spans_mul_assign_f. rewrite P. cbn [bind].
  destruct (check_joined_spec _ W (pieces_ordered l f C H)) as [Co Do].
  replace (f_lt (f_abs f) (f_one F)) with true.
  - eexists. split; [reflexivity|]. split; auto.
    assert (D' : forall y, In_set y (check_joined_inners (if f_lt f f_zero then rev (map (piece f) l) else map (piece f) l)) <->
      between_images (fun t => tv_mul_f F t f) l y) by (intros y; now rewrite Do, D).
    split; auto. intros x (i & Hi & _ & Hx). apply D'. exists i, x, x. split; auto. split; auto. split; auto. lia.
  - destruct f as [|s|s u]; try contradiction. symmetry. cbn in *. unfold sg. lia.
Qed.
(** [s * f] for the same factors has the same elements, but it is not always canonical (C71_refuted). *)
(** Partial: the result may have adjacent pieces (not canonical, C71_refuted), and factors beyond 1 are left out. *)
Theorem C71_mul_partial : forall l f, canonical l -> value F f -> contracting F f ->
  exists out, spans_mul_f F l f = Ret out /\ Forall wf_iv out /\ ForallOrdPairs le_iv out /\ length out = length l /\
    (forall y, In_set y out <-> between_images (fun t => tv_mul_f F t f) l y).
Proof.
  intros l f C H K. destruct (contracting_pieces l f C H K) as (P & W & D). unfold spans_mul_f. rewrite P. cbn [bind].
  replace (f_lt (f_one F) (f_abs f)) with false.
  - eexists. split; [reflexivity|]. split; auto. split; [now apply pieces_ordered|]. split; auto.
    destruct (f_lt f f_zero); rewrite ?rev_length; apply map_length.
  - destruct f as [|s|s u]; try contradiction. symmetry. cbn in *. unfold sg. lia.
Qed.
(** [s /= f] for [f] beyond 1 or -1 *)
Lemma inv_contracting s u : value F (FFin s u) -> E < u -> contracting F (finv F (FFin s u)).
Proof.
  intros H L. pose proof (format_digits F Fm) as D. fold p in D. pose proof (format_ok F Fm) as Ok.
  assert (Ep : 0 < E) by (apply pow_pos; lia). cbn [finv]. replace (u =? 0) with false by lia. unfold mkfl.
  assert (P2 : 0 < 2 ^ (f_e F - p)) by (apply pow_pos; lia). assert (P1 : 0 < 2 ^ p) by (apply pow_pos; lia).
  assert (Q : E = 2 ^ (f_e F - p) * 2 ^ p) by (unfold E; apply pow_split; lia).
  assert (M : E + 2 * 2 ^ (f_e F - p) <= u).
  { destruct H as ((m & j & Hm & Hj & ->) & _). fold p in Hm. pose proof (pow_pos j Hj) as Pj.
    destruct (Z_le_gt_dec (f_e F - p + 1) j) as [K|K].
    - replace (2 * 2 ^ (f_e F - p)) with (2 ^ (f_e F - p + 1)) by (rewrite Z.pow_add_r by lia; lia).
      assert (R : 2 ^ j = 2 ^ (j - (f_e F - p + 1)) * 2 ^ (f_e F - p + 1)) by (apply pow_split; lia).
      assert (Q' : E = 2 ^ (p - 1) * 2 ^ (f_e F - p + 1)) by (unfold E; rewrite <- Z.pow_add_r by lia; f_equal; lia).
      assert (0 < 2 ^ (f_e F - p + 1)) by (apply pow_pos; lia). rewrite R in L |- *. rewrite Q' in L |- *.
      rewrite Z.mul_assoc in L |- *. apply Z.mul_lt_mono_pos_r in L; auto.
      set (X := 2 ^ (f_e F - p + 1)) in *. set (Y := m * 2 ^ (j - (f_e F - p + 1))) in *.
      replace (2 ^ (p - 1) * X + X) with ((2 ^ (p - 1) + 1) * X) by ring. apply Z.mul_le_mono_nonneg_r; lia.
    - exfalso. assert (2 ^ j <= 2 ^ (f_e F - p)) by (apply Z.pow_le_mono_r; lia). nia. }
  assert (B : rnd F (E * E) u <= (2 ^ p - 1) * 2 ^ (f_e F - p)).
  { apply rnd_hi; auto; try nia; try lia.
    - apply rep_small; auto; fold p; lia.
    - set (X := 2 ^ (f_e F - p)) in *. set (Y := 2 ^ p) in *. assert (4 <= Y).
      { change 4 with (2 ^ 2). apply Z.pow_le_mono_r; lia. }
      rewrite Q in M |- *. apply Z.le_trans with ((Y - 1) * X * (X * Y + 2 * X)); [|apply Z.mul_le_mono_nonneg_l; nia].
      replace (X * Y * (X * Y)) with (X * X * (Y * Y)) by ring.
      replace ((Y - 1) * X * (X * Y + 2 * X)) with (X * X * ((Y - 1) * (Y + 2))) by ring.
      apply Z.mul_le_mono_nonneg_l; nia. }
  fold E. assert (E <= 2 ^ (f_max F + f_e F)) by (apply Z.pow_le_mono_r; destruct Fm as [->| ->]; cbn; lia).
  assert (B' : rnd F (E * E) u < E) by (rewrite Z.mul_sub_distr_r in B; lia).
  replace (2 ^ (2 * f_e F)) with (E * E) by (unfold E; rewrite <- Z.pow_add_r by lia; f_equal; lia).
  destruct (Z.leb_spec (2 ^ (f_max F + f_e F)) (rnd F (E * E) u)); [lia|]. cbn. fold E. exact B'.
Qed.
Theorem C69_div_assign : forall l s u, canonical l -> value F (FFin s u) -> 2 ^ f_e F < u ->
  exists out, spans_div_assign_f F l (FFin s u) = Ret out /\ canonical out /\
    (forall y, In_set y out <-> between_images (fun t => tv_div_f F t (FFin s u)) l y) /\
    (forall x, In_set x l -> In_set (tv_div_f F x (FFin s u)) out).
Proof.
  intros l s u C H L. unfold spans_div_assign_f, tv_div_f. apply C69_assign; auto.
  - now apply inv_value.
  - now apply inv_contracting.
Qed.

(** ** Integer factors: same results as the integer scaling *)

(** The bounds and their products by [n] have at most [f_prec] digits. *)
Definition fits (n : Z) (i : interval) : Prop :=
  forall b, b = lower i \/ b = upper i -> Z.abs b = oo \/ (Z.abs b <= 2 ^ p /\ Z.abs (b * n) <= 2 ^ p).
Lemma fits_bound n b : n <> 0 -> Z.abs n <= 2 ^ p -> Z.abs b = oo \/ (Z.abs b <= 2 ^ p /\ Z.abs (b * n) <= 2 ^ p) ->
  tv_mul_f F b (f_of F n) = clamp (b * n).
Proof.
  intros N M H. pose proof (format_digits F Fm) as D. fold p in D. assert (2 ^ p <= 2 ^ 53) by (apply Z.pow_le_mono_r; lia).
  destruct H as [H|[H1 H2]].
  - destruct (of_small F Fm n M) as (-> & V). assert (Ep : 0 < E) by (apply pow_pos; lia).
    destruct (C67_infinite F Fm _ _ V) as [A B]; [fold E; nia|].
    assert (b = oo \/ b = - oo) as [->| ->] by lia; [rewrite A|rewrite B]; unfold sg, clamp, oo; destruct (n <? 0) eqn:Z; cbn [negb]; lia.
  - rewrite (C67_integer F Fm); auto. unfold clamp, oo. lia.
Qed.
Lemma fits_span n i : n <> 0 -> Z.abs n <= 2 ^ p -> wf_iv i -> fits n i -> span_mul_f F i (f_of F n) = span_mul Small i n.
Proof.
  intros N M W H. pose proof (format_digits F Fm) as D. fold p in D. assert (2 ^ p <= 2 ^ 53) by (apply Z.pow_le_mono_r; lia).
  assert (T : f_lt (f_of F n) f_zero = (n <? 0)).
  { destruct (of_small F Fm n M) as (-> & _). assert (Ep : 0 < E) by (apply pow_pos; lia). fold E. cbn. unfold sg. destruct (n <? 0) eqn:Z; lia. }
  unfold span_mul_f, span_mul, checked_span. rewrite T.
  rewrite !fits_bound by auto. 
  assert (Q : forall b, b = lower i \/ b = upper i -> tv_mul Small b n = clamp (b * n)).
  { intros b Hb. apply mul_moderate; unfold moderate, oo; lia. }
  rewrite !Q by auto. destruct (n <? 0); reflexivity.
Qed.
Theorem C69_integer : forall l n, canonical l -> n <> 0 -> Z.abs n <= 2 ^ p -> (forall i, In i l -> fits n i) ->
  spans_mul_f F l (f_of F n) = spans_mul Small l n /\ spans_mul_assign_f F l (f_of F n) = spans_mul_assign Small l n.
Proof.
  intros l n C N M H. pose proof (format_digits F Fm) as D. fold p in D. assert (2 ^ p <= 2 ^ 53) by (apply Z.pow_le_mono_r; lia).
  assert (W : forall i, In i l -> wf_iv i) by eauto using canonical_In. assert (Ep : 0 < E) by (apply pow_pos; lia).
  assert (Q : omapM (fun tw => span_mul_f F tw (f_of F n)) l = omapM (fun tw => span_mul Small tw n) l).
  { clear C. induction l as [|i r IH]; auto. cbn [omapM]. rewrite fits_span by (auto; first [apply W|apply H]; cbn; auto).
    rewrite IH; auto; intros; first [apply W|apply H]; cbn; auto. }
  assert (T : f_lt (f_of F n) f_zero = (n <? 0) /\ f_lt (f_abs (f_of F n)) (f_one F) = false).
  { destruct (of_small F Fm n M) as (-> & _). fold E. cbn. fold E. unfold sg. destruct (n <? 0) eqn:Z; split; nia. }
  destruct T as [T1 T2]. 
  destruct (C29_mul_partial Small l n C) as (A & B & Eq); auto; try (unfold factor_ok, i64_factor, moderate, oo; lia).
  assert (Dec : (exists i, In i l /\ ~ image_ok n i) \/ (forall i, In i l -> image_ok n i)).
  { clear. induction l as [|i r [(k & Hk & IH)|IH]]; [right; intros i []|left; exists k; cbn; auto|].
    destruct (image_dec n i); [right; intros k [<-|Hk]; auto|left; exists i; cbn; auto]. }
  unfold spans_mul_f, spans_mul_assign_f. rewrite Q, T1, T2.
  assert (N0 : (n =? 0) = false) by lia.
  assert (X : xs <- omapM (fun tw => span_mul Small tw n) l;; Ret (if n <? 0 then rev xs else xs) = spans_mul_assign Small l n).
  { unfold spans_mul_assign. now rewrite N0. }
  split; [|exact X]. rewrite <- Eq, <- X. destruct Dec as [Dn|Dy].
  - destruct (mul_pieces Small l n) as [_ P]; auto; [unfold moderate, oo; lia|]. now rewrite P.
  - destruct (A Dy) as (out & O1 & O2 & _). rewrite <- Eq, <- X in O1.
    destruct (omapM (fun tw => span_mul Small tw n) l) as [xs| | |]; cbn [bind] in *; try congruence.
    assert (O : (if n <? 0 then rev xs else xs) = out) by congruence. rewrite O.
    destruct (f_lt (f_one F) _); [now rewrite check_joined_id|reflexivity].
Qed.
End C69.

Example C69_case : forall F, format F ->
  spans_mul_assign_f F [mkI 0 1; mkI 3 4; mkI 9 oo] (FFin true (2 ^ (f_e F - 1))) = Ret [mkI (- 2 ^ 62) (-4); mkI (-2) 0] /\
  spans_div_assign_f F [mkI 1 3; mkI 6 7; mkI 20 21] (f_of F (-2)) = Ret [mkI (-10) (-10); mkI (-3) (-3); mkI (-1) 0] /\
  spans_mul_f F [mkI 1 2; mkI 5 oo] (f_of F (-3)) = Ret [mkI (- oo) (-15); mkI (-6) (-3)] /\
  canonical [mkI 0 1; mkI 3 4; mkI 9 oo] /\ contracting F (FFin true (2 ^ (f_e F - 1))) /\ fits F (-3) (mkI 5 oo) /\
  fits F (-3) (mkI 1 2).
Proof.
  intros F Hf. split; [both Hf|]. split; [both Hf|].
  split; [both Hf|]. split; [unfold canonical, wf_iv, oo; cbn; lia|].
  split; [both Hf|].
  split; intros b [->| ->]; cbn [lower upper]; first [left; reflexivity|right; destruct Hf as [->| ->]; cbn; lia].
Qed.
(** Findings: [s * f] is not canonical for factors below 1, and disagrees with [s *= f]; [s *= 1.0] is not
    canonical for large durations; a NaN factor gives several times [0,0]. *)
Theorem C71_refuted :
  (forall F, format F -> exists l out, canonical l /\ value F (f_half F) /\ spans_mul_f F l (f_half F) = Ret out /\ ~ canonical out /\
    exists out', spans_mul_assign_f F l (f_half F) = Ret out' /\ out' <> out) /\
  (forall F, format F -> exists l out, canonical l /\ spans_mul_assign_f F l (f_one F) = Ret out /\ ~ canonical out) /\
  (forall F, format F -> exists l out, canonical l /\ spans_mul_assign_f F l FNan = Ret out /\ spans_mul_f F l FNan = Ret out /\
    ~ canonical out).
Proof.
  split; [|split].
  - intros F Hf. exists [mkI 0 1; mkI 3 4], [mkI 0 0; mkI 1 2]. split; [unfold canonical, wf_iv, oo; cbn; lia|].
    split; [now apply half_value|]. split; [both Hf|].
    split; [cbn; lia|]. exists [mkI 0 2]. split; [both Hf|congruence].
  - intros F Hf. exists [mkI (2 ^ 60) (2 ^ 60); mkI (2 ^ 60 + 2) (2 ^ 60 + 2)], [mkI (2 ^ 60) (2 ^ 60); mkI (2 ^ 60) (2 ^ 60)].
    split; [unfold canonical, wf_iv, oo; cbn; lia|]. split; [both Hf|].
    cbn. lia.
  - intros F Hf. exists [mkI 1 1; mkI 3 3], [mkI 0 0; mkI 0 0].
    split; [unfold canonical, wf_iv, oo; cbn; lia|]. split; [both Hf|].
    split; [both Hf|]. cbn. lia.
Qed.
