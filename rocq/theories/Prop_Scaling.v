(** C20, C29: scaling by an integer. *)
From Verif Require Import Machine TimeValue Spec Tac TimeValueProofs Interval Iter TimeSet Relns
  Transl Scaling SpecSets SetProofs CollectProofs Prop_Interval SetOpsProofs Prop_TimeSet Prop_Transl.

(** the factors of each group *)
Definition factor_ok (g : group) (n : Z) : Prop :=
  match g with Small => i64_factor n | Big => i128_factor n | UBig => u128_factor n end.
(** a factor no greater than the greatest time value *)
Definition moderate (n : Z) : Prop := - oo <= n <= oo.

(** ** C20 durations *)

Lemma from_sat z : from_ticks (sat64 z) = clamp z.
Proof. unfold sat64. mach. pts. tests; lia. Qed.
Lemma mul_moderate g t n : moderate n -> tv_mul g t n = clamp (t * n).
Proof.
  intros M. unfold moderate in M. destruct g; cbn [tv_mul]; rewrite ?from_sat; auto;
    rewrite ?INF_oo; tests; auto; lia.
Qed.

(** Full statement: the product clamped to the time values, for every factor of the type.
    Proved: all factors up to [oo] in absolute value (so every factor of at most 64 bits),
    and beyond if the duration is positive. *)
Theorem C20_mul_partial : forall g t n, valid t -> factor_ok g n ->
  (g = Small \/ moderate n \/ 0 < t) -> tv_mul g t n = clamp (t * n).
Proof.
  intros g t n V F H.
  destruct (Z_le_gt_dec (Z.abs n) oo) as [M|M]; [apply mul_moderate; unfold moderate; lia|].
  destruct H as [->|[H|H]].
  - apply from_sat.
  - unfold moderate in H; lia.
  - destruct g; cbn [tv_mul]; rewrite ?from_sat; auto; cbn in F; rewrite ?INF_oo; unfold u128_factor, i128_factor in *;
      tests; auto; unfold clamp, tv_neg; pts; nia.
Qed.
Example C20_mul_case : tv_mul Small 5 (-3) = -15 /\ tv_mul Big (oo - 1) 2 = oo /\
  tv_mul Small (- oo) 2 = - oo /\ tv_mul Small oo 0 = 0.
Proof. vm_compute. auto. Qed.
(** Findings: a huge factor ignores the duration. *)
Theorem C20_mul_refuted :
  (exists t n, finite t /\ u128_factor n /\ t < 0 < n /\ tv_mul UBig t n = oo) /\
  (exists n, u128_factor n /\ tv_mul UBig 0 n = oo) /\
  (exists t n, finite t /\ i128_factor n /\ t < 0 /\ n < 0 /\ tv_mul Big t n = - oo).
Proof.
  split; [exists (-5), (2 ^ 64)|split; [exists (2 ^ 64)|exists (-5), (- 2 ^ 64)]];
    vm_compute; intuition congruence.
Qed.

Lemma quot_bound t n m : n <> 0 -> 0 <= m -> Z.abs t <= m -> Z.abs (Z.quot t n) <= m.
Proof.
  intros N M H. rewrite <- Z.quot_abs by auto. apply Z.quot_le_upper_bound; [lia|].
  transitivity (1 * m); [lia|]. apply Z.mul_le_mono_nonneg_r; lia.
Qed.
Lemma quot_valid t n : n <> 0 -> valid t -> valid (Z.quot t n).
Proof. intros N V. pose proof (quot_bound t n oo N). pts. lia. Qed.
Lemma quot_finite t n : n <> 0 -> finite t -> finite (Z.quot t n).
Proof. intros N V. pose proof (quot_bound t n (oo - 1) N). pts. lia. Qed.

(** Division truncates toward zero; 0 panics.  Full statement: and infinities stay
    infinite (refuted below). *)
Theorem C20_div_partial : forall g t n, valid t -> factor_ok g n ->
  tv_div g t n = if n =? 0 then Panic else Ret (Z.quot t n).
Proof.
  intros g t n V F.
  pose proof (quot_valid t n) as Q.
  assert (Z0 : oo < Z.abs n -> Z.quot t n = 0).
  { intros H. apply Z.quot_small_iff; [pts; lia|]. unfold valid in V. lia. }
  assert (S : (q <- sat_div64 t n ;; Ret (from_ticks q)) = if n =? 0 then Panic else Ret (Z.quot t n)).
  { unfold sat_div64. destruct (n =? 0) eqn:E; auto. cbn [bind]. rewrite from_sat, clamp_id; auto. apply Q; auto; lia. }
  destruct g; cbn [tv_div]; auto; rewrite ?INF_oo.
  - destruct ((oo <? n) || (n <? - oo)) eqn:E; auto.
    replace (n =? 0) with false by (pts; lia). rewrite Z0 by lia. reflexivity.
  - destruct (oo <? n) eqn:E; auto.
    replace (n =? 0) with false by (pts; lia). rewrite Z0 by lia. reflexivity.
Qed.
Example C20_div_case : tv_div Small (-7) 2 = Ret (-3) /\ tv_div Big 7 (-2) = Ret (-3) /\
  tv_div UBig 7 (2 ^ 100) = Ret 0 /\ tv_div Small 7 0 = Panic.
Proof. vm_compute. auto. Qed.
(** Finding: half of an infinite duration is finite. *)
Theorem C20_div_infinite_refuted : exists q, tv_div Small oo 2 = Ret q /\ finite q.
Proof. exists 4611686018427387903. vm_compute. auto. Qed.

(** ** C20 spans *)

Definition scaled (i : interval) (n : Z) : interval :=
  if n <? 0 then mkI (clamp (upper i * n)) (clamp (lower i * n))
  else mkI (clamp (lower i * n)) (clamp (upper i * n)).

Lemma span_mul_eq g i n : moderate n ->
  span_mul g i n = if (lower (scaled i n) =? oo) || (upper (scaled i n) =? - oo) then Panic
                   else Ret (scaled i n).
Proof.
  intros M. unfold span_mul, scaled, assert_, is_future_infinite, is_past_infinite. rewrite ?INF_oo.
  rewrite !mul_moderate by auto. destruct (n <? 0); cbn [lower upper];
    [destruct (clamp (upper i * n) =? oo), (clamp (lower i * n) =? - oo)
    |destruct (clamp (lower i * n) =? oo), (clamp (upper i * n) =? - oo)]; reflexivity.
Qed.

(** A span times a moderate factor: the bounds are the images of the bounds, in order; it
    panics exactly when an end goes beyond the wrong infinity, that is when no image is
    representable. *)
Theorem C20_span_mul_partial : forall g i n, wf_iv i -> factor_ok g n -> moderate n ->
  (forall k, span_mul g i n = Ret k ->
     wf_iv k /\
     lower k = clamp (Z.min (lower i * n) (upper i * n)) /\
     upper k = clamp (Z.max (lower i * n) (upper i * n)) /\
     (forall x, In_iv x i -> finite (x * n) -> In_iv (x * n) k)) /\
  (span_mul g i n = Panic <->
     oo <= Z.min (lower i * n) (upper i * n) \/ Z.max (lower i * n) (upper i * n) <= - oo) /\
  (span_mul g i n = Panic \/ exists k, span_mul g i n = Ret k).
Proof.
  intros g i n W F M. rewrite span_mul_eq by auto.
  assert (B : lower (scaled i n) = clamp (Z.min (lower i * n) (upper i * n)) /\
              upper (scaled i n) = clamp (Z.max (lower i * n) (upper i * n))).
  { unfold scaled. unfold wf_iv in W. destruct (n <? 0) eqn:E; cbn [lower upper].
    - assert (upper i * n <= lower i * n) by nia. split; f_equal; lia.
    - assert (lower i * n <= upper i * n) by nia. split; f_equal; lia. }
  destruct B as [B1 B2]. rewrite B1, B2. generalize dependent (scaled i n). intros k0 B1 B2.
  assert (P : (clamp (Z.min (lower i * n) (upper i * n)) =? oo)
              || (clamp (Z.max (lower i * n) (upper i * n)) =? - oo) = true <->
     oo <= Z.min (lower i * n) (upper i * n) \/ Z.max (lower i * n) (upper i * n) <= - oo).
  { unfold clamp. pts. lia. }
  destruct (_ || _) eqn:E.
  - split; [discriminate|]. split; [rewrite <- P; tauto|auto].
  - split; [|split; [rewrite <- P; split; discriminate|eauto]].
    intros k H. inv H. split; [|split; [|split]]; auto.
    + assert (N : ~ (oo <= Z.min (lower i * n) (upper i * n) \/ Z.max (lower i * n) (upper i * n) <= - oo))
        by (rewrite <- P; congruence).
      clear P E. unfold wf_iv. rewrite B1, B2. unfold clamp. pts. lia.
    + intros x [Fx Hx] Fn. split; auto. rewrite B1, B2. clear P E B1 B2.
      assert (Z.min (lower i * n) (upper i * n) <= x * n <= Z.max (lower i * n) (upper i * n)).
      { destruct (Z_le_gt_dec 0 n).
        - assert (lower i * n <= x * n <= upper i * n) by nia. lia.
        - assert (upper i * n <= x * n <= lower i * n) by nia. lia. }
      unfold clamp, finite in *. lia.
Qed.
Example C20_span_mul_case : span_mul Small (mkI 2 5) (-3) = Ret (mkI (-15) (-6)) /\
  span_mul Small (mkI 2 oo) (-3) = Ret (mkI (- oo) (-6)) /\ span_mul Small (mkI 2 oo) 0 = Ret (mkI 0 0) /\
  span_mul Small (mkI (oo - 5) (oo - 1)) 2 = Panic.
Proof. vm_compute. auto. Qed.

Lemma quot_mono_pos a b n : 0 < n -> a <= b -> Z.quot a n <= Z.quot b n.
Proof. intros. now apply Z.quot_le_mono. Qed.
Lemma quot_neg a n : Z.quot a n = Z.quot (- a) (- n).
Proof. destruct (Z.eq_dec n 0) as [->|N]; [now rewrite !Z.quot_0_r_ext by lia|]. now rewrite Z.quot_opp_opp. Qed.
Lemma quot_exact_pos lo up n y : 0 < n -> lo <= up ->
  (Z.quot lo n <= y <= Z.quot up n <-> exists x, lo <= x <= up /\ y = Z.quot x n).
Proof.
  intros P L. split.
  - intros H. destruct (Z.eq_dec y (Z.quot lo n)) as [->|N1]; [exists lo; lia|].
    destruct (Z.eq_dec y (Z.quot up n)) as [->|N2]; [exists up; lia|].
    exists (y * n). rewrite Z.quot_mul by lia. split; auto.
    destruct (Z_lt_ge_dec (y * n) lo) as [C|C].
    + assert (Z.quot (y * n) n <= Z.quot lo n) by (apply quot_mono_pos; lia).
      rewrite Z.quot_mul in H0 by lia. lia.
    + destruct (Z_lt_ge_dec up (y * n)) as [C'|C']; [|lia].
      assert (Z.quot up n <= Z.quot (y * n) n) by (apply quot_mono_pos; lia).
      rewrite Z.quot_mul in H0 by lia. lia.
  - intros (x & H & ->). split; apply quot_mono_pos; lia.
Qed.

Definition divided (i : interval) (n : Z) : interval :=
  if n <? 0 then mkI (Z.quot (upper i) n) (Z.quot (lower i) n)
  else mkI (Z.quot (lower i) n) (Z.quot (upper i) n).
Lemma divided_exact i n y : n <> 0 -> lower i <= upper i ->
  (lower (divided i n) <= y <= upper (divided i n) <->
   exists x, lower i <= x <= upper i /\ y = Z.quot x n).
Proof.
  intros N L. unfold divided. destruct (n <? 0) eqn:E; cbn [lower upper].
  - rewrite !(quot_neg _ n). rewrite (quot_exact_pos (- upper i) (- lower i) (- n) y) by lia.
    split; intros (x & H & ->); exists (- x); (split; [lia|]).
    + rewrite (quot_neg (- x)). now rewrite Z.opp_involutive.
    + now rewrite (quot_neg x).
  - apply quot_exact_pos; lia.
Qed.
Lemma span_div_eq g i n : wf_iv i -> factor_ok g n ->
  span_div g i n = if n =? 0 then Panic else Ret (divided i n).
Proof.
  intros W F. unfold span_div, divided. unfold wf_iv in W.
  rewrite !C20_div_partial by (auto; unfold valid; lia).
  destruct (n =? 0) eqn:E; cbn [bind]; [destruct (n <? 0); auto|]. destruct (n <? 0); reflexivity.
Qed.

(** A bounded span divided by [n] has exactly the truncated quotients of its points; any
    span divided by [n] contains those of its points. *)
Theorem C20_span_div : forall g i n, wf_iv i -> factor_ok g n -> n <> 0 ->
  exists k, span_div g i n = Ret k /\ valid_iv k /\ lower k <= upper k /\
    (forall x, In_iv x i -> In_iv (Z.quot x n) k) /\
    (finite (lower i) -> finite (upper i) ->
     forall y, In_iv y k <-> exists x, In_iv x i /\ y = Z.quot x n).
Proof.
  intros g i n W F N. rewrite span_div_eq by auto. replace (n =? 0) with false by lia.
  exists (divided i n). split; auto.
  assert (V : valid_iv (divided i n)).
  { unfold valid_iv, divided, wf_iv in *. destruct (n <? 0); cbn; split; apply quot_valid; auto; unfold valid; lia. }
  unfold wf_iv in W. split; auto. split.
  { assert (exists x, lower i <= x <= upper i /\ Z.quot (lower i) n = Z.quot x n) as H by (exists (lower i); lia).
    apply (divided_exact i n) in H; auto; lia. }
  split.
  - intros x [Fx Hx]. split; [now apply quot_finite|]. apply divided_exact; [auto|lia|eauto].
  - intros Fl Fu y. split.
    + intros [Fy Hy]. apply divided_exact in Hy as (x & Hx & ->); auto; [|lia].
      exists x. split; auto. unfold In_iv, finite in *. lia.
    + intros (x & [Fx Hx] & ->). split; [now apply quot_finite|]. apply divided_exact; [auto|lia|eauto].
Qed.
Theorem C20_span_div_0 : forall g i, span_div g i 0 = Panic.
Proof. intros g i. destruct g; reflexivity. Qed.
Example C20_span_div_case : span_div Small (mkI (-7) 5) (-2) = Ret (mkI (-2) 3) /\
  span_div UBig (mkI 3 5) 10 = Ret (mkI 0 0).
Proof. vm_compute. auto. Qed.
Theorem C20_span_div_infinite_refuted : exists i k, wf_iv i /\ upper i = oo /\
  span_div Small i 2 = Ret k /\ upper k <> oo.
Proof. exists (mkI 0 oo). eexists. split; [iv; lia|]. split; auto. split; [reflexivity|]. vm_compute. congruence. Qed.

(** ** C29 sets *)

(** the image of an interval has a representable point *)
Definition image_ok (n : Z) (i : interval) : Prop :=
  Z.min (lower i * n) (upper i * n) < oo /\ - oo < Z.max (lower i * n) (upper i * n).

Lemma scaled_bounds i n : wf_iv i ->
  lower (scaled i n) = clamp (Z.min (lower i * n) (upper i * n)) /\
  upper (scaled i n) = clamp (Z.max (lower i * n) (upper i * n)).
Proof.
  unfold scaled. unfold wf_iv. intros W. destruct (n <? 0) eqn:E; cbn [lower upper].
  - assert (upper i * n <= lower i * n) by nia. split; f_equal; lia.
  - assert (lower i * n <= upper i * n) by nia. split; f_equal; lia.
Qed.
Lemma image_dec n i : image_ok n i \/ ~ image_ok n i.
Proof. unfold image_ok. lia. Qed.
Lemma scaled_ok g i n : wf_iv i -> moderate n ->
  (image_ok n i -> span_mul g i n = Ret (scaled i n) /\ wf_iv (scaled i n)) /\
  (~ image_ok n i -> span_mul g i n = Panic).
Proof.
  intros W M. rewrite span_mul_eq by auto. destruct (scaled_bounds i n W) as [B1 B2].
  unfold image_ok, wf_iv. rewrite B1, B2.
  generalize (Z.min_spec (lower i * n) (upper i * n)) (Z.max_spec (lower i * n) (upper i * n)).
  generalize (Z.min (lower i * n) (upper i * n)) (Z.max (lower i * n) (upper i * n)). intros a b Ha Hb.
  assert (L : a <= b) by lia. clear Ha Hb.
  destruct (_ || _) eqn:E; unfold clamp in *; pts; split; intros H; auto; try lia.
  split; auto. lia.
Qed.
Lemma scaled_neg i n : scaled i n = scaled (iv_neg i) (- n).
Proof.
  unfold scaled, iv_neg; cbn [lower upper]. unfold tv_neg.
  rewrite !Z.mul_opp_opp. destruct (Z.eq_dec n 0) as [->|N]; [now rewrite !Z.mul_0_r|].
  destruct (n <? 0) eqn:E, (- n <? 0) eqn:E'; auto; lia.
Qed.
Lemma image_neg i n : image_ok (- n) (iv_neg i) <-> image_ok n i.
Proof. unfold image_ok, iv_neg; cbn [lower upper]. unfold tv_neg. rewrite !Z.mul_opp_opp. lia. Qed.

Lemma scaled_canon_pos l n : 0 < n -> forall b c, canon_from b l ->
  (forall i, In i l -> image_ok n i) ->
  (forall a, b < a -> a * n < oo -> c < clamp (a * n)) ->
  canon_from c (map (fun i => scaled i n) l).
Proof.
  intros P. induction l as [|i r IH]; intros b c C Ok H; [exact I|].
  destruct C as (L & W & C). cbn [map canon_from].
  pose proof (Ok i (or_introl eq_refl)) as Oi.
  assert (E : scaled i n = mkI (clamp (lower i * n)) (clamp (upper i * n)))
    by (unfold scaled; now replace (n <? 0) with false by lia).
  assert (LU : lower i * n <= upper i * n) by (unfold wf_iv in W; nia).
  unfold image_ok in Oi.
  split; [|split].
  - rewrite E; cbn [lower]. apply H; auto; lia.
  - rewrite E. unfold wf_iv; cbn [lower upper]. unfold clamp. pts. lia.
  - apply (IH (upper i + 1)); auto; [intros; apply Ok; cbn; auto|].
    rewrite E; cbn [upper]. intros a La Ha.
    assert (upper i * n + 1 < a * n) by nia. unfold clamp. pts. lia.
Qed.

Definition arranged (n : Z) (l : list interval) : list interval := if n <? 0 then rev l else l.
Lemma arranged_In n l i : In i (arranged n l) <-> In i l.
Proof. unfold arranged. destruct (n <? 0); [rewrite <- in_rev|]; reflexivity. Qed.

Lemma scaled_canon l n : n <> 0 -> canonical l -> (forall i, In i l -> image_ok n i) ->
  canonical (arranged n (map (fun i => scaled i n) l)).
Proof.
  intros N C Ok.
  assert (G : forall l n, 0 < n -> canonical l -> (forall i, In i l -> image_ok n i) ->
            canonical (map (fun i => scaled i n) l)).
  { clear. intros l n P C Ok. apply canonical_from_iff. apply canonical_from_iff in C.
    eapply scaled_canon_pos; eauto. intros a La Ha. unfold clamp. pts. lia. }
  unfold arranged. destruct (n <? 0) eqn:E; [|apply G; auto; lia].
  rewrite <- map_rev.
  replace (map (fun i => scaled i n) (rev l)) with (map (fun i => scaled i (- n)) (set_neg l)).
  - apply G; [lia|apply C22_neg; auto|]. intros k Hk. unfold set_neg in Hk.
    apply in_map_iff in Hk as (i & <- & Hi). apply image_neg, Ok. now apply in_rev.
  - unfold set_neg. rewrite map_map. apply map_ext. intros i. symmetry. apply scaled_neg.
Qed.

Lemma mul_pieces g l n : moderate n -> canonical l ->
  ((forall i, In i l -> image_ok n i) ->
    omapM (fun tw => span_mul g tw n) l = Ret (map (fun i => scaled i n) l)) /\
  ((exists i, In i l /\ ~ image_ok n i) -> omapM (fun tw => span_mul g tw n) l = Panic).
Proof.
  intros M C. assert (K : forall i, In i l -> wf_iv i) by eauto using canonical_In. clear C. split.
  - intros Ok. apply omapM_Ret. induction l; constructor.
    + apply scaled_ok; auto; [apply K|apply Ok]; cbn; auto.
    + apply IHl; intros; [apply K|apply Ok]; cbn; auto.
  - intros (i & Hi & N). apply omapM_Panic.
    + intros k Hk. destruct (scaled_ok g k n (K k Hk) M) as [S1 S2].
      destruct (image_dec n k) as [H|H]; [right; eexists; apply S1; auto|left; auto].
    + exists i. split; auto. apply scaled_ok; auto.
Qed.

(** [s * n] for a non-zero moderate factor: canonical, made of the scaled pieces; it panics
    exactly if some piece has no representable image. *)
(** Partial: factor 0 is false (C29_mul_refuted), greater factors overflow. *)
Theorem C29_mul_partial : forall g l n, canonical l -> factor_ok g n -> moderate n -> n <> 0 ->
  ((forall i, In i l -> image_ok n i) ->
   exists out, spans_mul g l n = Ret out /\ canonical out /\ length out = length l /\
     (forall y, In_set y out <-> finite y /\ exists i, In i l /\
        Z.min (lower i * n) (upper i * n) <= y <= Z.max (lower i * n) (upper i * n)) /\
     (forall x, In_set x l -> finite (x * n) -> In_set (x * n) out)) /\
  ((exists i, In i l /\ ~ image_ok n i) -> spans_mul g l n = Panic) /\
  spans_mul_assign g l n = spans_mul g l n.
Proof.
  intros g l n C F M N. destruct (mul_pieces g l n M C) as [P1 P2].
  unfold spans_mul, spans_mul_assign. replace (n =? 0) with false by lia.
  assert (Fi : (forall i, In i l -> image_ok n i) ->
     filter (fun tw => negb (iv_is_empty tw)) (map (fun i => scaled i n) l) = map (fun i => scaled i n) l).
  { intros Ok. assert (K : forall i, In i l -> wf_iv i) by eauto using canonical_In. clear - K Ok M.
    induction l as [|i r IH]; auto. cbn [map filter].
    rewrite IH by (intros; first [apply K|apply Ok]; cbn; auto).
    destruct (scaled_ok Small i n (K i (or_introl eq_refl)) M) as [S _].
    destruct (S (Ok i (or_introl eq_refl))) as [_ W]. apply wf_nonempty_b in W. unfold nonempty in W. now rewrite W. }
  split; [|split].
  - intros Ok. rewrite P1 by auto. cbn [bind]. rewrite Fi by auto.
    exists (arranged n (map (fun i => scaled i n) l)). split; [reflexivity|].
    split; [apply scaled_canon; auto|]. split.
    { unfold arranged. destruct (n <? 0); rewrite ?rev_length; apply map_length. }
    assert (D : forall y, In_set y (arranged n (map (fun i => scaled i n) l)) <-> finite y /\ exists i, In i l /\
        Z.min (lower i * n) (upper i * n) <= y <= Z.max (lower i * n) (upper i * n)).
    { intros y. unfold In_set. split.
      - intros (k & Hk & Fy & Hy). rewrite arranged_In in Hk. apply in_map_iff in Hk as (i & <- & Hi).
        split; auto. exists i. split; auto.
        destruct (scaled_bounds i n (canonical_In _ _ C Hi)) as [B1 B2]. rewrite B1, B2 in Hy.
        unfold clamp, finite in *. lia.
      - intros (Fy & i & Hi & Hy). exists (scaled i n). rewrite arranged_In.
        split; [now apply (in_map (fun i => scaled i n))|]. split; auto.
        destruct (scaled_bounds i n (canonical_In _ _ C Hi)) as [B1 B2]. rewrite B1, B2.
        unfold clamp, finite in *. lia. }
    split; [exact D|]. intros x (i & Hi & Fx & Hx) Fn. apply D. split; auto. exists i. split; auto.
    destruct (Z_le_gt_dec 0 n).
    + assert (lower i * n <= x * n <= upper i * n) by nia. lia.
    + assert (upper i * n <= x * n <= lower i * n) by nia. lia.
  - intros H. now rewrite P2.
  - assert (D : (forall i, In i l -> image_ok n i) \/ (exists i, In i l /\ ~ image_ok n i)).
    { clear. induction l as [|i r [IH|(k & Hk & IH)]]; [left; intros i []| |right; exists k; cbn; auto].
      destruct (image_dec n i); [left; intros k [<-|Hk]; auto|right; exists i; cbn; auto]. }
    destruct D as [D|D]; [rewrite P1 by auto; cbn [bind]; now rewrite Fi|now rewrite P2].
Qed.
Example C29_mul_case : spans_mul Small [mkI 1 2; mkI 5 oo] (-3) = Ret [mkI (- oo) (-15); mkI (-6) (-3)] /\
  (forall i, In i [mkI 1 2; mkI 5 oo] -> image_ok (-3) i).
Proof. split; [reflexivity|]. intros i [<-|[<-|[]]]; unfold image_ok; cbn; pts; lia. Qed.
(** Findings: zero times a set is a list with one empty interval instead of {0}; a huge
    factor turns a negative set into an overflow. *)
Theorem C29_mul_refuted :
  (exists r, spans_mul Small [mkI 1 2] 0 = Ret r /\ ~ canonical r /\ ~ In_set 0 r) /\
  spans_mul UBig [mkI (-2) (-1)] (2 ^ 64) = Panic.
Proof.
  split; [|reflexivity]. exists [iv_empty]. split; [reflexivity|]. split; [vm_compute; intuition congruence|].
  rewrite In_set_one. iv. lia.
Qed.
Theorem C29_mul_zero_empty : forall g, spans_mul g [] 0 = Ret [].
Proof. reflexivity. Qed.

(** *** division *)

Definition le_iv (i j : interval) : Prop := lower i <= lower j /\ upper i <= upper j.

Lemma joined_spec : forall l p, Forall wf_iv (p :: l) ->
  ForallOrdPairs le_iv (p :: l) ->
  (exists q r, joined p l = q :: r /\ lower q = lower p) /\
  canonical (joined p l) /\ forall x, In_set x (joined p l) <-> In_set x (p :: l).
Proof.
  induction l as [|c r IH]; intros p W O.
  - cbn [joined]. split; [eauto|]. split; [cbn; inv W; auto|]. reflexivity.
  - inversion W as [|? ? Wp W']; subst. inversion W' as [|? ? Wc Wr]; subst.
    inversion O as [|? ? Op O']; subst. inversion Op as [|? ? Opc Opr]; subst.
    inversion O' as [|? ? Oc Or]; subst.
    cbn [joined]. destruct (just_before (lower c) <=? upper p) eqn:E.
    + destruct (IH (mkI (lower p) (upper c))) as (Hq & Hc & Hp).
      * constructor; auto. unfold wf_iv, le_iv in *; cbn. lia.
      * constructor; auto. eapply Forall_impl; [|exact (Forall_and Opr Oc)].
        intros k [[A1 A2] [B1 B2]]. unfold le_iv; cbn. lia.
      * split; auto. split; auto. intros x. rewrite Hp, !In_set_cons.
        assert (K : In_iv x (mkI (lower p) (upper c)) <-> In_iv x p \/ In_iv x c).
        { unfold In_iv; cbn [lower upper]. unfold wf_iv, le_iv in *. pts.
          destruct (negb (Z.abs (lower c) =? 9223372036854775807)) eqn:T; lia. }
        rewrite K. tauto.
    + destruct (IH c) as ((q & s & Eq & Lq) & Hc & Hp); [constructor; auto|constructor; auto|].
      split; [eauto|]. split.
      * rewrite Eq in *. cbn [canonical]. split; auto. split; [|exact Hc].
        rewrite Lq. unfold wf_iv, le_iv in *. pts.
        destruct (negb (Z.abs (lower c) =? 9223372036854775807)) eqn:T; lia.
      * intros x. rewrite In_set_cons, Hp, !In_set_cons. tauto.
Qed.
Lemma check_joined_spec l : Forall wf_iv l -> ForallOrdPairs le_iv l ->
  canonical (check_joined_inners l) /\ forall x, In_set x (check_joined_inners l) <-> In_set x l.
Proof.
  destruct l as [|i r]; [intros; split; [exact I|reflexivity]|].
  intros W O. destruct (joined_spec r i W O) as (_ & H). exact H.
Qed.

Lemma divided_neg i n : n <> 0 -> divided i n = divided (iv_neg i) (- n).
Proof.
  intros N. unfold divided, iv_neg; cbn [lower upper]. unfold tv_neg. rewrite !Z.quot_opp_opp by auto.
  destruct (n <? 0) eqn:E, (- n <? 0) eqn:E'; auto; lia.
Qed.
Lemma divided_ordered l n : n <> 0 -> canonical l ->
  ForallOrdPairs le_iv (arranged n (map (fun i => divided i n) l)).
Proof.
  assert (G : forall l n b, 0 < n -> canon_from b l -> ForallOrdPairs le_iv (map (fun i => divided i n) l)).
  { clear. intros l n b P. revert b. induction l as [|i r IH]; intros b C; [constructor|].
    destruct C as (_ & W & C). cbn [map]. constructor; [|eapply IH; eauto].
    apply Forall_forall. intros k Hk. apply in_map_iff in Hk as (j & <- & Hj).
    destruct (canon_from_In _ _ _ C Hj) as [L Wj]. unfold le_iv, divided.
    replace (n <? 0) with false by lia. cbn [lower upper]. unfold wf_iv in *.
    split; apply quot_mono_pos; lia. }
  intros N C. unfold arranged. destruct (n <? 0) eqn:E.
  - rewrite <- map_rev.
    replace (map (fun i => divided i n) (rev l)) with (map (fun i => divided i (- n)) (set_neg l)).
    + destruct (C22_neg l C) as [C' _]. apply canonical_from_iff in C'. eapply G; eauto. lia.
    + unfold set_neg. rewrite map_map. apply map_ext. intros i. symmetry. now apply divided_neg.
  - apply canonical_from_iff in C. eapply G; eauto. lia.
Qed.

(** [s / n] is canonical and has exactly the truncated quotients of the points of [s], if
    its pieces are bounded; in any case it contains them. *)
Theorem C29_div : forall g l n, canonical l -> factor_ok g n -> n <> 0 ->
  Forall (fun i => finite (lower i) /\ finite (upper i)) l ->
  exists out, spans_div g l n = Ret out /\ canonical out /\
    forall y, In_set y out <-> exists x, In_set x l /\ y = Z.quot x n.
Proof.
  intros g l n C F N B. unfold spans_div, assert_. replace (n =? 0) with false by lia. cbn [negb bind].
  assert (K : forall i, In i l -> wf_iv i) by eauto using canonical_In.
  assert (E : omapM (fun tw => span_div g tw n) l = Ret (map (fun i => divided i n) l)).
  { apply omapM_Ret. clear - K F N. induction l; constructor.
    - rewrite span_div_eq; auto; [now replace (n =? 0) with false by lia|apply K; cbn; auto].
    - apply IHl. intros; apply K; cbn; auto. }
  rewrite E. cbn [bind]. fold (arranged n (map (fun i => divided i n) l)).
  assert (D : forall i, In i l -> wf_iv (divided i n) /\
     forall y, In_iv y (divided i n) <-> exists x, In_iv x i /\ y = Z.quot x n).
  { intros i Hi. destruct (C20_span_div g i n (K i Hi) F N) as (k & Ek & Vk & Lk & _ & Dk).
    rewrite span_div_eq in Ek by auto. replace (n =? 0) with false in Ek by lia. inv Ek.
    rewrite Forall_forall in B. destruct (B i Hi) as [B1 B2]. split; [|auto].
    assert (finite (lower (divided i n)) /\ finite (upper (divided i n))).
    { unfold divided. destruct (n <? 0); cbn [lower upper]; split; now apply quot_finite. }
    unfold wf_iv, finite in *. lia. }
  destruct (check_joined_spec (arranged n (map (fun i => divided i n) l))) as [Co Do].
  - apply Forall_forall. intros k Hk. rewrite arranged_In in Hk.
    apply in_map_iff in Hk as (i & <- & Hi). now apply D.
  - now apply divided_ordered.
  - eexists. split; [reflexivity|]. split; auto. intros y. rewrite Do. unfold In_set. split.
    + intros (k & Hk & Hy). rewrite arranged_In in Hk. apply in_map_iff in Hk as (i & <- & Hi).
      apply D in Hy as (x & Hx & ->); auto. eauto.
    + intros (x & (i & Hi & Hx) & ->). exists (divided i n). rewrite arranged_In.
      split; [now apply (in_map (fun i => divided i n))|]. apply D; eauto.
Qed.
Theorem C29_div_0 : forall g l, spans_div g l 0 = Panic.
Proof. reflexivity. Qed.
Example C29_div_case : spans_div Small [mkI 1 3; mkI 6 7; mkI 20 21] (-2) = Ret [mkI (-10) (-10); mkI (-3) (-3); mkI (-1) 0].
Proof. reflexivity. Qed.
Example C29_div_case2 : spans_div Small [mkI 1 3; mkI 6 7; mkI 20 21] 4 = Ret [mkI 0 1; mkI 5 5].
Proof. reflexivity. Qed.
(** Finding: an unbounded set becomes bounded. *)
Theorem C29_div_infinite_refuted : exists l r, canonical l /\ set_upper l = oo /\
  spans_div Small l 2 = Ret r /\ set_upper r <> oo.
Proof.
  exists [mkI 0 oo]. eexists. split; [cbn; iv; lia|]. split; auto. split; [reflexivity|]. vm_compute. congruence.
Qed.

(** The scaling iterator: the pieces of [s * n] for a positive factor; for a negative one
    they come in the wrong order, for zero they are repeated. *)
(** Partial: positive moderate factors without overflow only. *)
Theorem C29_iterator_partial : forall g l n, canonical l -> factor_ok g n -> moderate n -> 0 < n ->
  (forall i, In i l -> image_ok n i) -> scale_list g l n = spans_mul g l n.
Proof.
  intros g l n C F M P Ok.
  unfold spans_mul. replace (n =? 0) with false by lia. replace (n <? 0) with false by lia.
  assert (K : forall i, In i l -> span_mul g i n = Ret (scaled i n) /\ wf_iv (scaled i n)).
  { intros i Hi. apply scaled_ok; eauto using canonical_In. }
  clear - K. induction l as [|i r IH]; auto. cbn [scale_list omapM].
  destruct (K i (or_introl eq_refl)) as [-> W]. cbn [bind].
  pose proof (wf_nonempty_b _ W) as N. unfold nonempty in N. destruct (iv_is_empty (scaled i n)) eqn:E; [discriminate|].
  rewrite IH by (intros; apply K; cbn; auto).
  destruct (omapM _ r); cbn [bind]; auto. cbn [filter]. rewrite E. reflexivity.
Qed.
Example C29_iterator_case : scale_list Small [mkI 1 2; mkI 5 6] 3 = Ret [mkI 3 6; mkI 15 18].
Proof. reflexivity. Qed.
Theorem C29_iterator_refuted :
  (exists l r, canonical l /\ scale_list Small l (-1) = Ret r /\ ~ canonical r) /\
  (exists l r, canonical l /\ scale_list Small l 0 = Ret r /\ ~ canonical r).
Proof.
  split; exists [mkI 1 2; mkI 5 6]; eexists; (split; [cbn; iv; lia|]); (split; [reflexivity|]);
    vm_compute; intuition congruence.
Qed.
