(** C71: sets scaled by a floating-point factor, for all the factors. *)
From Verif Require Import Machine TimeValue Spec Tac TimeValueProofs Interval Iter TimeSet Relns SpecSets SetProofs
  CollectProofs Prop_Interval SetOpsProofs Prop_TimeSet Prop_Transl Scaling Prop_Scaling Float SpecScale FloatProofs FloatCoarse
  Prop_Float Prop_FloatSets.

(** All the durations of [i] become +oo, or all become -oo. *)
Definition gone (h : Z -> Z) (i : interval) : Prop :=
  (forall t, lower i <= t <= upper i -> h t = oo) \/ (forall t, lower i <= t <= upper i -> h t = - oo).
(** Beyond 1 or -1. *)
Definition expanding (F : fmt) (f : fl) : Prop :=
  match f with FNan => False | FInf _ => True | FFin _ u => 2 ^ f_e F < u end.

Section All.
Variable F : fmt.
Hypothesis Fm : format F.

Lemma any_piece i f : wf_iv i -> value F f ->
  (~ gone (fun t => tv_mul_f F t f) i /\ span_mul_f F i f = Ret (piece F f i) /\ wf_iv (piece F f i)) \/
  (gone (fun t => tv_mul_f F t f) i /\ span_mul_f F i f = Panic).
Proof.
  intros W H. destruct (piece_image F Fm i f W H) as (B & a & b & Ha & Hb & Ea & Eb).
  assert (V : forall t, lower i <= t <= upper i -> valid (tv_mul_f F t f)).
  { intros t Ht. apply C67_valid; auto. unfold wf_iv, valid in *; lia. }
  pose proof (V a Ha) as Va. pose proof (V b Hb) as Vb. rewrite Ea in Va. rewrite Eb in Vb.
  pose proof (B a Ha) as Ba. rewrite Ea in Ba.
  assert (X : span_mul_f F i f = checked_span (lower (piece F f i)) (upper (piece F f i))).
  { unfold span_mul_f, piece. destruct (f_lt f f_zero); reflexivity. }
  rewrite X. destruct (checked_ok (lower (piece F f i)) (upper (piece F f i))) as [(L & U & ->)|(Q & ->)]; auto; [lia| |].
  - left. split; [|split].
    + intros [G|G]; [specialize (G a Ha)|specialize (G b Hb)]; unfold finite in *; lia.
    + now destruct (piece F f i).
    + unfold wf_iv, valid in *. lia.
  - right. split; auto. destruct Q as [Q|Q]; [left|right]; intros t Ht; specialize (B t Ht); specialize (V t Ht);
      unfold valid in V; lia.
Qed.
Definition unjoined (f : fl) (l : tset) : tset :=
  if f_lt f f_zero then rev (map (piece F f) l) else map (piece F f) l.
Lemma any_pieces l f : canonical l -> value F f ->
  let h t := tv_mul_f F t f in
  ((exists i, In i l /\ gone h i) /\ omapM (fun tw => span_mul_f F tw f) l = Panic) \/
  ((forall i, In i l -> ~ gone h i) /\ omapM (fun tw => span_mul_f F tw f) l = Ret (map (piece F f) l) /\
   Forall wf_iv (unjoined f l) /\ forall y, In_set y (unjoined f l) <-> finite y /\ between_images h l y).
Proof.
  intros C H h. assert (W : forall i, In i l -> wf_iv i) by eauto using canonical_In. clear C.
  assert (D : (exists i, In i l /\ gone h i) \/ forall i, In i l -> ~ gone h i).
  { induction l as [|i r IH]; [right; intros i []|].
    destruct (any_piece i f (W i (or_introl eq_refl)) H) as [(N & _)|(N & _)]; [|left; exists i; cbn; auto].
    destruct IH as [(k & Hk & G)|G]; [intros; apply W; cbn; auto|left; exists k; cbn; auto|].
    right. intros k [<-|Hk]; auto. }
  destruct D as [(i & Hi & G)|G]; [left|right].
  - split; [eauto|]. apply omapM_Panic.
    + intros k Hk. destruct (any_piece k f (W k Hk) H) as [(_ & E & _)|(_ & E)]; rewrite E; eauto.
    + exists i. split; auto. destruct (any_piece i f (W i Hi) H) as [(N & _)|(_ & E)]; auto. destruct (N G).
  - assert (P : forall i, In i l -> span_mul_f F i f = Ret (piece F f i) /\ wf_iv (piece F f i)).
    { intros i Hi. destruct (any_piece i f (W i Hi) H) as [(_ & E & X)|(N & _)]; auto. destruct (G i Hi N). }
    assert (I : forall k, In k (unjoined f l) <-> In k (map (piece F f) l)).
    { intros k. unfold unjoined. destruct (f_lt f f_zero); [rewrite <- in_rev|]; reflexivity. }
    split; auto. split; [|split].
    + apply omapM_Ret. clear - P. induction l as [|i r IH]; cbn [map]; constructor.
      * apply P. cbn; auto. * apply IH. intros; apply P; cbn; auto.
    + apply Forall_forall. intros k Hk. apply I in Hk. apply in_map_iff in Hk as (i & <- & Hi). now apply P.
    + intros y. unfold In_set, between_images. split.
      * intros (k & Hk & Fy & Hy). apply I in Hk. apply in_map_iff in Hk as (i & <- & Hi). split; auto.
        destruct (piece_image F Fm i f (W i Hi) H) as (_ & a & b & Ha & Hb & Ea & Eb). exists i, a, b.
        unfold h. rewrite Ea, Eb. auto.
      * intros (Fy & i & a & b & Hi & Ha & Hb & Hy). destruct (piece_image F Fm i f (W i Hi) H) as (B & _).
        pose proof (B a Ha). pose proof (B b Hb). unfold h in Hy.
        exists (piece F f i). split; [apply I; now apply in_map|]. split; auto. lia.
Qed.
Lemma lt_one f : value F f -> (f_lt (f_abs f) (f_one F) = true <-> contracting F f) /\
  (f_lt (f_one F) (f_abs f) = true <-> expanding F f).
Proof.
  intros H. destruct f as [|s|s u]; cbn.
  - intuition congruence.
  - intuition congruence.
  - pose proof (value_nonneg F s u H). split; lia.
Qed.

(** For every factor, [s * f] and [s *= f] panic exactly if a piece has only infinite images in one direction.
    Otherwise both have the representable durations between the images of two durations of the same piece.
    [s * f] is canonical beyond 1, [s *= f] below 1; elsewhere the pieces are only in order, as many as in [s]. *)
Theorem C71_exactly : forall l f, canonical l -> value F f ->
  let h t := tv_mul_f F t f in
  (spans_mul_f F l f = Panic <-> exists i, In i l /\ gone h i) /\
  (spans_mul_assign_f F l f = Panic <-> exists i, In i l /\ gone h i) /\
  ((forall i, In i l -> ~ gone h i) ->
   exists a b, spans_mul_f F l f = Ret a /\ spans_mul_assign_f F l f = Ret b /\
    (forall y, In_set y a <-> finite y /\ between_images h l y) /\
    (forall y, In_set y b <-> finite y /\ between_images h l y) /\
    (expanding F f -> canonical a) /\ (contracting F f -> canonical b) /\
    (~ expanding F f -> Forall wf_iv a /\ ForallOrdPairs le_iv a /\ length a = length l) /\
    (~ contracting F f -> Forall wf_iv b /\ ForallOrdPairs le_iv b /\ length b = length l)).
Proof.
  intros l f C H h. destruct (lt_one f H) as [T1 T2]. unfold spans_mul_f, spans_mul_assign_f.
  destruct (any_pieces l f C H) as [(G & ->)|(G & -> & W & D)]; cbn [bind]; fold h in G.
  - split; [tauto|]. split; [tauto|]. intros N. destruct G as (i & Hi & G). destruct (N i Hi G).
  - split; [split; [discriminate|intros (i & Hi & Q); destruct (G i Hi Q)]|].
    split; [split; [discriminate|intros (i & Hi & Q); destruct (G i Hi Q)]|]. intros _.
    fold (unjoined f l). destruct (check_joined_spec _ W (pieces_ordered F Fm l f C H)) as [Co Do].
    assert (L : length (unjoined f l) = length l).
    { unfold unjoined. destruct (f_lt f f_zero); rewrite ?rev_length; apply map_length. }
    pose proof (pieces_ordered F Fm l f C H) as P. fold (unjoined f l) in P, Co, Do.
    eexists. eexists. split; [reflexivity|]. split; [reflexivity|].
    split; [|split; [|split; [|split; [|split]]]].
    + intros y. destruct (f_lt (f_one F) _); rewrite ?Do; apply D.
    + intros y. destruct (f_lt (f_abs f) _); rewrite ?Do; apply D.
    + intros X. apply T2 in X. now rewrite X.
    + intros X. apply T1 in X. now rewrite X.
    + intros X. destruct (f_lt (f_one F) _); [destruct X; now apply T2|auto].
    + intros X. destruct (f_lt (f_abs f) _); [destruct X; now apply T1|auto].
Qed.

(** [s * f] and [s *= f] agree exactly if one of them is canonical without being joined, or none is joined. *)
Theorem C71_agree : forall l f a b, canonical l -> value F f ->
  spans_mul_f F l f = Ret a -> spans_mul_assign_f F l f = Ret b ->
  (a = b <-> (~ contracting F f /\ ~ expanding F f) \/ (canonical a /\ canonical b)).
Proof.
  intros l f a b C H Ea Eb. destruct (lt_one f H) as [T1 T2]. unfold spans_mul_f, spans_mul_assign_f in *.
  destruct (any_pieces l f C H) as [(_ & X)|(_ & X & W & D)]; rewrite X in *; cbn [bind] in *; [discriminate|].
  fold (unjoined f l) in *. destruct (check_joined_spec _ W (pieces_ordered F Fm l f C H)) as [Co Do].
  fold (unjoined f l) in Co.
  assert (N : ~ (contracting F f /\ expanding F f)) by (destruct f; cbn; lia).
  assert (R : forall x y : tset, Ret x = Ret y -> x = y) by (intros x y Q; now injection Q).
  apply R in Ea. apply R in Eb. subst a b.
  destruct (f_lt (f_one F) (f_abs f)) eqn:Q2; destruct (f_lt (f_abs f) (f_one F)) eqn:Q1.
  - destruct N. split; [now apply T1|now apply T2].
  - split; [intros Q; right; split; [exact Co|rewrite <- Q; exact Co]|]. intros [[_ Y]|[_ Y]]; [destruct Y; now apply T2|]. now apply check_joined_id.
  - split; [intros Q; right; split; [rewrite Q; exact Co|exact Co]|]. intros [[Y _]|[Y _]]; [destruct Y; now apply T1|]. symmetry. now apply check_joined_id.
  - split; auto. intros _. left. split; intros Q; [apply T1 in Q|apply T2 in Q]; congruence.
Qed.

(** The same for divisions: they are products by the rounded inverse. *)
Theorem C71_div_exactly : forall l f, canonical l -> value F f ->
  let h t := tv_div_f F t f in
  (spans_div_f F l f = Panic <-> exists i, In i l /\ gone h i) /\
  (spans_div_assign_f F l f = Panic <-> exists i, In i l /\ gone h i) /\
  ((forall i, In i l -> ~ gone h i) ->
   exists a b, spans_div_f F l f = Ret a /\ spans_div_assign_f F l f = Ret b /\
    (forall y, In_set y a <-> finite y /\ between_images h l y) /\
    (forall y, In_set y b <-> finite y /\ between_images h l y) /\
    (match f with FFin s u => 2 ^ f_e F < u | _ => False end -> canonical b) /\
    (match f with FFin s u => u = 0 | _ => False end -> canonical a)).
Proof.
  intros l f C H h. destruct (C71_exactly l (finv F f) C (inv_value F Fm f H)) as (A & B & D).
  split; [exact A|]. split; [exact B|]. intros N. destruct (D N) as (a & b & Ea & Eb & Pa & Pb & Ca & Cb & _).
  exists a, b. split; auto. split; auto. split; auto. split; auto. split.
  - intros X. apply Cb. destruct f as [|s|s u]; try contradiction. now apply inv_contracting.
  - intros X. apply Ca. destruct f as [|s|s u]; try contradiction. subst u. cbn. exact I.
Qed.
End All.

Example C71_exactly_case : forall F, format F ->
  (expanding F (f_of F 2) /\ value F (f_of F 2)) /\
  spans_mul_f F [mkI 1 2; mkI 4 oo] (f_of F 2) = Ret [mkI 2 4; mkI 8 oo] /\
  spans_mul_assign_f F [mkI 1 2; mkI 4 oo] (f_of F 2) = Ret [mkI 2 4; mkI 8 oo] /\
  spans_mul_f F [mkI 1 2; mkI (oo - 7) (oo - 1)] (f_of F 2) = Panic /\ tv_mul_f F (oo - 7) (f_of F 2) = oo /\
  spans_div_f F [mkI 1 2; mkI 4 5] (FFin false 0) = Panic /\ spans_div_f F [mkI 0 2] (FFin false 0) = Ret [mkI 0 oo].
Proof.
  intros F Hf. split.
  - pose proof (format_digits F Hf). assert (0 < 2 ^ f_e F) by (apply pow_pos; lia).
    destruct (of_small F Hf 2) as [E V]; [apply (Z.pow_le_mono_r 2 1); lia|]. rewrite E. split; [|exact V].
    cbn [expanding]. change (Z.abs 2) with 2. lia.
  - split; [both Hf|]. split; [both Hf|]. split; [both Hf|]. split; [both Hf|]. split; both Hf.
Qed.
