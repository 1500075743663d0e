(** Away from the least numbers of a format the unit does not matter: computations can be done with a larger unit.
    Used for the examples in double precision, whose unit is [2 ^ -1074]. *)
From Verif Require Import Machine TimeValue Spec Tac TimeValueProofs Interval Iter TimeSet Scaling Float SpecSets SpecScale FloatProofs.

Lemma rne_scale a d c : 0 < d -> 0 < c -> rne (a * c) (d * c) = rne a d.
Proof.
  intros Hd Hc. unfold rne. rewrite Z.div_mul_cancel_r by lia. rewrite Zmult_mod_distr_r.
  replace (2 * (a mod d * c) <? d * c) with (2 * (a mod d) <? d) by (destruct (2 * (a mod d) <? d) eqn:X; symmetry; nia).
  replace (d * c <? 2 * (a mod d * c)) with (d <? 2 * (a mod d)) by (destruct (d <? 2 * (a mod d)) eqn:X; symmetry; nia).
  reflexivity.
Qed.
Lemma rnd_frac F a b c : 0 < b -> 0 < c -> rnd F (a * c) (b * c) = rnd F a b.
Proof.
  intros Hb Hc. unfold rnd. rewrite Z.div_mul_cancel_r by lia. set (k := Z.max _ _).
  pose proof (pow_pos k ltac:(lia)). replace (b * c * 2 ^ k) with (b * 2 ^ k * c) by ring. rewrite rne_scale by nia. reflexivity.
Qed.
Lemma rnd_unit F a b c : 0 < f_prec F -> 0 < b -> 0 <= c -> b * 2 ^ f_prec F <= a -> rnd F (a * 2 ^ c) b = rnd F a b * 2 ^ c.
Proof.
  intros Hp Hb Hc Ha. pose proof (pow_pos c Hc) as Pc.
  assert (Q : 2 ^ f_prec F <= a / b) by (apply Z.div_le_lower_bound; lia).
  pose proof (pow_pos (f_prec F) ltac:(lia)) as Pp.
  assert (L : Z.log2 (a * 2 ^ c / b) = Z.log2 (a / b) + c).
  { pose proof (Z.log2_nonneg (a / b)). destruct (Z.log2_spec (a / b)) as (L1 & L2); [lia|].
    pose proof (Z.div_mod a b ltac:(lia)) as E. pose proof (Z.mod_pos_bound a b Hb).
    assert (X : b * 2 ^ Z.log2 (a / b) <= a) by nia. assert (Y : a < b * 2 ^ Z.succ (Z.log2 (a / b))) by nia.
    set (g := Z.log2 (a / b)) in *. clearbody g.
    apply Z.log2_unique; [lia|]. rewrite Z.pow_add_r by lia. replace (Z.succ (g + c)) with (Z.succ g + c) by lia.
    rewrite Z.pow_add_r by lia. split.
    - apply Z.div_le_lower_bound; [lia|]. rewrite Z.mul_assoc. apply Z.mul_le_mono_nonneg_r; lia.
    - apply Z.div_lt_upper_bound; [lia|]. rewrite Z.mul_assoc. apply Z.mul_lt_mono_pos_r; lia. }
  assert (G : f_prec F <= Z.log2 (a / b)) by (apply Z.log2_le_pow2; lia).
  unfold rnd. rewrite L, !Z.max_r by lia. set (k := Z.log2 (a / b) + 1 - f_prec F).
  replace (Z.log2 (a / b) + c + 1 - f_prec F) with (k + c) by lia. pose proof (pow_pos k ltac:(lia)).
  rewrite Z.pow_add_r by lia. replace (b * (2 ^ k * 2 ^ c)) with (b * 2 ^ k * 2 ^ c) by ring. rewrite rne_scale by nia. ring.
Qed.
Lemma rnd_prec F G a b : f_prec F = f_prec G -> rnd F a b = rnd G a b.
Proof. intros E. unfold rnd. now rewrite E. Qed.

Lemma rnd_zero F b : 0 < f_prec F -> 0 < b -> rnd F 0 b = 0.
Proof.
  intros Hp Hb. unfold rnd. rewrite Z.div_0_l by lia. change (Z.log2 0) with 0. rewrite Z.max_l by lia.
  change (2 ^ 0) with 1. unfold rne. rewrite Z.div_0_l, Z.mod_0_l by lia. tests; lia.
Qed.

Section Coarse.
Variables F G : fmt.
Hypothesis OF : ok_fmt F.
Hypothesis OG : ok_fmt G.
Variable c : Z.
Hypothesis Hc : 0 <= c.
Hypothesis Hp : f_prec F = f_prec G.
Hypothesis He : f_e F = f_e G + c.
Hypothesis Hm : f_max F = f_max G.

(** The number of the format [F] given in units of [G] *)
Definition up (x : fl) : fl := match x with FFin s u => FFin s (u * 2 ^ c) | x => x end.
Definition large (x : fl) : bool := match x with FFin _ u => (u =? 0) || (2 ^ f_prec G <=? u) | _ => true end.
Definition invertible (x : fl) : bool := match x with FFin _ u => (0 <=? u) && (u * 2 ^ f_prec G <=? 2 ^ (2 * f_e G)) | _ => true end.

Lemma pc : 0 < 2 ^ c.
Proof. now apply pow_pos. Qed.
Lemma pr : 0 < f_prec G.
Proof. destruct OG. lia. Qed.
Lemma int_up n : 0 <= n -> rnd F (n * 2 ^ f_e F) 1 = rnd G (n * 2 ^ f_e G) 1 * 2 ^ c.
Proof.
  intros Hn. pose proof pr. pose proof OG as (_ & H64 & _ & Hpe). rewrite (rnd_prec F G) by auto. rewrite He, Z.pow_add_r, Z.mul_assoc by lia.
  destruct (Z.eq_dec n 0) as [->|N].
  - rewrite !Z.mul_0_l, rnd_zero by lia. reflexivity.
  - apply rnd_unit; try lia. pose proof (Z.pow_le_mono_r 2 _ _ ltac:(lia) Hpe). nia.
Qed.
Lemma f_of_up t : valid t -> f_of F t = up (f_of G t).
Proof.
  intros V. rewrite !f_of_valid by auto. cbn [up]. rewrite int_up by lia. reflexivity.
Qed.
Lemma mag_up n u : 0 <= n -> u = 0 \/ 2 ^ f_prec G <= u -> mag F n (u * 2 ^ c) = mag G n u.
Proof.
  intros Hn Hu. unfold mag. rewrite int_up by auto. pose proof pc as Pc. pose proof pr as Pr. pose proof (pow_pos (f_e G) ltac:(pose proof OG as (_ & H64 & _); lia)) as Pe.
  pose proof OG as (_ & H64 & _ & Hpe). pose proof (pow_pos (f_prec G) ltac:(lia)) as Pp.
  rewrite (rnd_prec F G) by auto. rewrite He, Z.pow_add_r by lia.
  set (r := rnd G (n * 2 ^ f_e G) 1). replace (r * 2 ^ c * (u * 2 ^ c)) with (r * u * 2 ^ c * 2 ^ c) by ring. rewrite rnd_frac by auto.
  assert (X : rnd G (r * u * 2 ^ c) (2 ^ f_e G) = rnd G (r * u) (2 ^ f_e G) * 2 ^ c).
  { destruct (Z.eq_dec (r * u) 0) as [E|N].
    - rewrite E, Z.mul_0_l, rnd_zero by lia. reflexivity.
    - apply rnd_unit; try lia. assert (R : 2 ^ f_e G <= r).
      { unfold r. apply rnd_lo; auto; try lia; try nia. apply rep_pow; auto; lia.
        assert (n <> 0). { intros ->. apply N. unfold r. rewrite Z.mul_0_l, rnd_zero by lia. reflexivity. } nia. }
      nia. }
  rewrite X, Z.div_mul_cancel_r by lia. reflexivity.
Qed.
Lemma mul_up t x : valid t -> large x = true -> tv_mul_f F t (up x) = tv_mul_f G t x.
Proof.
  intros V L. destruct x as [|s|s u]; cbn [up].
  - now rewrite !mul_nan.
  - now rewrite !mul_inf.
  - cbn [large] in L. pose proof pc. pose proof pr. pose proof (pow_pos (f_prec G) ltac:(lia)).
    rewrite !mul_fin by (auto; nia). rewrite mag_up by lia. reflexivity.
Qed.
Lemma inv_up x : invertible x = true -> finv F (up x) = up (finv G x).
Proof.
  intros L. destruct x as [|s|s u]; cbn [up finv]; auto. cbn [invertible] in L. pose proof pc as Pc. pose proof pr.
  replace (u * 2 ^ c =? 0) with (u =? 0) by (destruct (u =? 0) eqn:X; symmetry; nia).
  destruct (u =? 0) eqn:X; [reflexivity|]. unfold mkfl. rewrite (rnd_prec F G) by auto.
  pose proof OG as (_ & H64 & M & _).
  replace (2 ^ (2 * f_e F)) with (2 ^ (2 * f_e G) * 2 ^ c * 2 ^ c) by (rewrite <- !Z.pow_add_r by lia; f_equal; lia).
  rewrite rnd_frac, rnd_unit by lia. set (r := rnd G _ _).
  replace (2 ^ (f_max F + f_e F)) with (2 ^ (f_max G + f_e G) * 2 ^ c) by (rewrite <- !Z.pow_add_r by lia; f_equal; lia).
  replace (_ * 2 ^ c <=? r * 2 ^ c) with (2 ^ (f_max G + f_e G) <=? r) by (destruct (_ <=? r) eqn:Y; symmetry; nia).
  now destruct (_ <=? r).
Qed.
Lemma div_up t x : valid t -> invertible x = true -> large (finv G x) = true -> tv_div_f F t (up x) = tv_div_f G t x.
Proof. intros V I L. unfold tv_div_f. rewrite inv_up by auto. now apply mul_up. Qed.
Lemma lt_up x y : f_lt (up x) (up y) = f_lt x y.
Proof.
  pose proof pc. destruct x as [|s|s u], y as [|s'|s' v]; cbn [up f_lt]; auto.
  destruct s, s'; cbn [sg]; destruct (_ <? _) eqn:X; destruct (_ <? _) eqn:Y in |- *; auto; nia.
Qed.
Lemma zero_up : f_zero = up f_zero.
Proof. cbn. now rewrite ?Z.mul_0_l. Qed.
Lemma one_up : f_one F = up (f_one G).
Proof. pose proof OG as (_ & H64 & _). unfold f_one. cbn [up]. rewrite He, Z.pow_add_r by lia. reflexivity. Qed.
Lemma abs_up x : f_abs (up x) = up (f_abs x).
Proof. now destruct x. Qed.
Lemma span_up i x : valid (lower i) -> valid (upper i) -> large x = true -> span_mul_f F i (up x) = span_mul_f G i x.
Proof. intros V W L. unfold span_mul_f. rewrite zero_up, lt_up, !mul_up by auto. now rewrite <- zero_up. Qed.
Lemma span_div_up i x : valid (lower i) -> valid (upper i) -> invertible x = true -> large (finv G x) = true ->
  span_div_f F i (up x) = span_div_f G i x.
Proof. intros V W I L. unfold span_div_f. rewrite zero_up, lt_up, !div_up by auto. now rewrite <- zero_up. Qed.
Lemma map_up l x : Forall (fun i => valid (lower i) /\ valid (upper i)) l -> large x = true ->
  omapM (fun i => span_mul_f F i (up x)) l = omapM (fun i => span_mul_f G i x) l.
Proof.
  intros H L. induction H as [|i l (V & W) H IH]; cbn; auto. rewrite span_up by auto. now rewrite IH.
Qed.
Lemma spans_up l x : Forall (fun i => valid (lower i) /\ valid (upper i)) l -> large x = true -> spans_mul_f F l (up x) = spans_mul_f G l x.
Proof. intros H L. unfold spans_mul_f. rewrite map_up by auto. rewrite one_up, abs_up, zero_up, !lt_up. now rewrite <- zero_up. Qed.
Lemma spans_assign_up l x : Forall (fun i => valid (lower i) /\ valid (upper i)) l -> large x = true ->
  spans_mul_assign_f F l (up x) = spans_mul_assign_f G l x.
Proof. intros H L. unfold spans_mul_assign_f. rewrite map_up by auto. rewrite one_up, abs_up, zero_up, !lt_up. now rewrite <- zero_up. Qed.
End Coarse.

(** Double precision in units of [2 ^ -128] *)
Definition f64c : fmt := mkF 53 128 1024.
Definition c64 : Z := 946.
Lemma ok_f64c : ok_fmt f64c.
Proof. unfold ok_fmt, f64c; simpl. lia. Qed.
Lemma f_of_64 t : valid t -> f_of f64 t = up c64 (f_of f64c t).
Proof. apply f_of_up; try apply ok_f64; try apply ok_f64c; reflexivity || discriminate. Qed.
Lemma mul_64 t x : valid t -> large f64c x = true -> tv_mul_f f64 t (up c64 x) = tv_mul_f f64c t x.
Proof. apply mul_up; try apply ok_f64; try apply ok_f64c; reflexivity || discriminate. Qed.
Lemma div_64 t x : valid t -> invertible f64c x = true -> large f64c (finv f64c x) = true -> tv_div_f f64 t (up c64 x) = tv_div_f f64c t x.
Proof. apply div_up; try apply ok_f64; try apply ok_f64c; reflexivity || discriminate. Qed.
Lemma inv_64 x : invertible f64c x = true -> finv f64 (up c64 x) = up c64 (finv f64c x).
Proof. apply inv_up; try apply ok_f64; try apply ok_f64c; reflexivity || discriminate. Qed.
Lemma span_64 i x : valid (lower i) -> valid (upper i) -> large f64c x = true -> span_mul_f f64 i (up c64 x) = span_mul_f f64c i x.
Proof. apply span_up; try apply ok_f64; try apply ok_f64c; reflexivity || discriminate. Qed.
Lemma span_div_64 i x : valid (lower i) -> valid (upper i) -> invertible f64c x = true -> large f64c (finv f64c x) = true ->
  span_div_f f64 i (up c64 x) = span_div_f f64c i x.
Proof. apply span_div_up; try apply ok_f64; try apply ok_f64c; reflexivity || discriminate. Qed.
Lemma spans_64 l x : Forall (fun i => valid (lower i) /\ valid (upper i)) l -> large f64c x = true ->
  spans_mul_f f64 l (up c64 x) = spans_mul_f f64c l x.
Proof. apply spans_up; try apply ok_f64; try apply ok_f64c; reflexivity || discriminate. Qed.
Lemma spans_assign_64 l x : Forall (fun i => valid (lower i) /\ valid (upper i)) l -> large f64c x = true ->
  spans_mul_assign_f f64 l (up c64 x) = spans_mul_assign_f f64c l x.
Proof. apply spans_assign_up; try apply ok_f64; try apply ok_f64c; reflexivity || discriminate. Qed.
