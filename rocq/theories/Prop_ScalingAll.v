(** C20, C29: the exact result of scaling, for every factor and for unbounded sets. *)
From Verif Require Import Machine TimeValue Spec Tac TimeValueProofs Interval Iter TimeSet Relns
  Transl Scaling SpecSets SetProofs CollectProofs Prop_Interval SetOpsProofs Prop_TimeSet Prop_Transl Prop_Scaling.

(** The factors that are not taken for infinite. *)
Definition usual (g : group) (n : Z) : Prop := g = Small \/ Z.abs n <= oo.

Lemma mul_usual g t n : usual g n -> tv_mul g t n = clamp (t * n).
Proof.
  intros [->|M]; [apply from_sat|]. apply mul_moderate. unfold moderate. lia.
Qed.
Lemma mul_unusual g t n : factor_ok g n -> ~ usual g n -> tv_mul g t n = if 0 <? n then oo else - oo.
Proof.
  intros F U. assert (A : oo < Z.abs n) by (unfold usual in U; lia).
  destruct g; [elim U; now left| |]; cbn [tv_mul]; rewrite INF_oo; cbn in F; unfold u128_factor, tv_neg in *; tests; auto; pts; lia.
Qed.
Lemma usual_dec g n : usual g n \/ ~ usual g n.
Proof.
  unfold usual. destruct (Z_le_gt_dec (Z.abs n) oo); [tauto|]. destruct g; [tauto| |]; right; intros [?|?]; congruence || lia.
Qed.

(** Beyond the greatest time value, factors of 128 bits or of the size of the machine are taken for infinite:
    the result has the sign of the factor, so that it is right for positive durations only. *)
Theorem C20_mul_exactly : forall g t n, valid t -> factor_ok g n ->
  (tv_mul g t n = clamp (t * n) <-> usual g n \/ 0 < t) /\
  (~ usual g n -> tv_mul g t n = if 0 <? n then oo else - oo).
Proof.
  intros g t n V F. split; [|now apply mul_unusual].
  destruct (usual_dec g n) as [U|U]; [rewrite mul_usual by auto; tauto|].
  rewrite mul_unusual by auto. assert (A : oo < Z.abs n) by (unfold usual in U; lia).
  split.
  - intros E. right. destruct (Z_lt_ge_dec 0 t) as [|T]; auto. exfalso.
    destruct (0 <? n) eqn:P; [assert (t * n <= 0) by nia|assert (0 <= t * n) by nia]; unfold clamp, oo in *; lia.
  - intros [H|H]; [tauto|]. destruct (0 <? n) eqn:P; [assert (oo < t * n) by nia|assert (t * n < - oo) by nia]; unfold clamp; pts; lia.
Qed.
Example C20_mul_exactly_case : ~ usual UBig (2 ^ 64) /\ factor_ok UBig (2 ^ 64) /\ tv_mul UBig 3 (2 ^ 64) = oo /\
  tv_mul UBig (-3) (2 ^ 64) = oo /\ clamp (-3 * 2 ^ 64) = - oo /\ usual Small (- 2 ^ 63) /\ tv_mul Small (-1) (- 2 ^ 63) = oo.
Proof.
  split; [intros [?|?]; [discriminate|vm_compute in H; auto]|]. split; [unfold factor_ok, u128_factor; lia|].
  repeat split; try reflexivity. now left.
Qed.

Lemma span_usual g i n : usual g n ->
  span_mul g i n = if (lower (scaled i n) =? oo) || (upper (scaled i n) =? - oo) then Panic
                   else Ret (scaled i n).
Proof.
  intros M. unfold span_mul, scaled, assert_, is_future_infinite, is_past_infinite. rewrite ?INF_oo.
  rewrite !mul_usual by auto. destruct (n <? 0); cbn [lower upper];
    [destruct (clamp (upper i * n) =? oo), (clamp (lower i * n) =? - oo)
    |destruct (clamp (lower i * n) =? oo), (clamp (upper i * n) =? - oo)]; reflexivity.
Qed.
Lemma span_ok g i n : wf_iv i -> usual g n ->
  (image_ok n i -> span_mul g i n = Ret (scaled i n) /\ wf_iv (scaled i n)) /\
  (~ image_ok n i -> span_mul g i n = Panic).
Proof.
  intros W M. rewrite span_usual by auto. destruct (scaled_bounds i n W) as [B1 B2].
  unfold image_ok, wf_iv. rewrite B1, B2.
  generalize (Z.min_spec (lower i * n) (upper i * n)) (Z.max_spec (lower i * n) (upper i * n)).
  generalize (Z.min (lower i * n) (upper i * n)) (Z.max (lower i * n) (upper i * n)). intros a b Ha Hb.
  assert (L : a <= b) by lia. clear Ha Hb.
  destruct (_ || _) eqn:E; unfold clamp in *; pts; split; intros H; auto; try lia.
  split; auto. lia.
Qed.
Lemma span_unusual g i n : factor_ok g n -> ~ usual g n -> span_mul g i n = Panic.
Proof.
  intros F U. unfold span_mul. rewrite !mul_unusual by auto. destruct (n <? 0); destruct (0 <? n); reflexivity.
Qed.

(** A span times any factor: the two images of its ends in order, if the factor is usual and one image is
    representable; otherwise it panics. *)
Theorem C20_span_mul_exactly : forall g i n, wf_iv i -> factor_ok g n ->
  (usual g n -> image_ok n i ->
     span_mul g i n = Ret (mkI (clamp (Z.min (lower i * n) (upper i * n))) (clamp (Z.max (lower i * n) (upper i * n))))) /\
  (~ usual g n \/ ~ image_ok n i -> span_mul g i n = Panic).
Proof.
  intros g i n W F. split.
  - intros U I. destruct (span_ok g i n W U) as [S _]. destruct (S I) as [-> _].
    destruct (scaled_bounds i n W) as [<- <-]. now destruct (scaled i n).
  - intros H. destruct (usual_dec g n) as [U|U]; [|now apply span_unusual].
    apply span_ok; auto. tauto.
Qed.
Example C20_span_mul_exactly_case : span_mul Big (mkI 1 2) (2 ^ 64) = Panic /\ ~ usual Big (2 ^ 64) /\
  span_mul Small (mkI (-1) 0) (- 2 ^ 63) = Ret (mkI 0 oo) /\ image_ok (- 2 ^ 63) (mkI (-1) 0).
Proof.
  split; [reflexivity|]. split; [intros [?|?]; [discriminate|vm_compute in H; auto]|]. split; [reflexivity|].
  unfold image_ok; cbn; pts; lia.
Qed.

Lemma usual_pieces g l n : usual g n -> canonical l ->
  ((forall i, In i l -> image_ok n i) ->
    omapM (fun tw => span_mul g tw n) l = Ret (map (fun i => scaled i n) l)) /\
  ((exists i, In i l /\ ~ image_ok n i) -> omapM (fun tw => span_mul g tw n) l = Panic).
Proof.
  intros M C. assert (K : forall i, In i l -> wf_iv i) by eauto using canonical_In. clear C. split.
  - intros Ok. apply omapM_Ret. induction l; constructor.
    + apply span_ok; auto; [apply K|apply Ok]; cbn; auto.
    + apply IHl; intros; [apply K|apply Ok]; cbn; auto.
  - intros (i & Hi & N). apply omapM_Panic.
    + intros k Hk. destruct (span_ok g k n (K k Hk) M) as [S1 S2].
      destruct (image_dec n k) as [H|H]; [right; eexists; apply S1; auto|left; auto].
    + exists i. split; auto. apply span_ok; auto.
Qed.
Lemma scaled_nonempty l n : canonical l -> (forall i, In i l -> image_ok n i) ->
  filter (fun tw => negb (iv_is_empty tw)) (map (fun i => scaled i n) l) = map (fun i => scaled i n) l.
Proof.
  intros C Ok. assert (K : forall i, In i l -> wf_iv i) by eauto using canonical_In. clear C.
  induction l as [|i r IH]; auto. cbn [map filter].
  rewrite IH by (intros; first [apply K|apply Ok]; cbn; auto).
  destruct (span_ok Small i n (K i (or_introl eq_refl)) (or_introl eq_refl)) as [S _].
  destruct (S (Ok i (or_introl eq_refl))) as [_ W]. apply wf_nonempty_b in W. unfold nonempty in W. now rewrite W.
Qed.
Lemma pieces_dec n l : (forall i, In i l -> image_ok n i) \/ (exists i, In i l /\ ~ image_ok n i).
Proof.
  induction l as [|i r [IH|(k & Hk & IH)]]; [left; intros i []| |right; exists k; cbn; auto].
  destruct (image_dec n i); [left; intros k [<-|Hk]; auto|right; exists i; cbn; auto].
Qed.

(** A set times any factor but 0: canonical, exactly the images of its intervals; it panics exactly if the factor is
    unusual or some interval has no representable image.  Times 0, no point is left at all (see C29_mul_refuted). *)
Theorem C29_mul_exactly : forall g l n, canonical l -> factor_ok g n -> n <> 0 ->
  (usual g n -> (forall i, In i l -> image_ok n i) ->
   exists out, spans_mul g l n = Ret out /\ spans_mul_assign g l n = Ret out /\ canonical out /\ length out = length l /\
     (forall y, In_set y out <-> finite y /\ exists i, In i l /\
        Z.min (lower i * n) (upper i * n) <= y <= Z.max (lower i * n) (upper i * n))) /\
  (~ usual g n /\ l <> [] \/ (exists i, In i l /\ ~ image_ok n i) ->
   spans_mul g l n = Panic /\ spans_mul_assign g l n = Panic).
Proof.
  intros g l n C F N. unfold spans_mul, spans_mul_assign. replace (n =? 0) with false by lia. split.
  - intros M Ok. destruct (usual_pieces g l n M C) as [P1 _]. rewrite P1 by auto. cbn [bind].
    rewrite scaled_nonempty by auto.
    exists (arranged n (map (fun i => scaled i n) l)). split; [reflexivity|]. split; [reflexivity|].
    split; [apply scaled_canon; auto|]. split.
    { unfold arranged. destruct (n <? 0); rewrite ?rev_length; apply map_length. }
    intros y. unfold In_set. split.
    + intros (k & Hk & Fy & Hy). rewrite arranged_In in Hk. apply in_map_iff in Hk as (i & <- & Hi).
      split; auto. exists i. split; auto.
      destruct (scaled_bounds i n (canonical_In _ _ C Hi)) as [B1 B2]. rewrite B1, B2 in Hy.
      unfold clamp, finite in *. lia.
    + intros (Fy & i & Hi & Hy). exists (scaled i n). rewrite arranged_In.
      split; [now apply (in_map (fun i => scaled i n))|]. split; auto.
      destruct (scaled_bounds i n (canonical_In _ _ C Hi)) as [B1 B2]. rewrite B1, B2.
      unfold clamp, finite in *. lia.
  - intros H. assert (E : omapM (fun tw => span_mul g tw n) l = Panic); [|rewrite E; auto].
    destruct (usual_dec g n) as [U|U]; [apply usual_pieces; tauto|].
    destruct l as [|i r]; [destruct H as [[_ H]|(? & [] & _)]; congruence|]. cbn [omapM]. now rewrite span_unusual.
Qed.
Example C29_mul_exactly_case :
  spans_mul Small [mkI (-1) (-1); mkI 1 1] (- 2 ^ 63) = Panic /\
  spans_mul Small [mkI (-1) 0] (- 2 ^ 63) = Ret [mkI 0 oo] /\ spans_mul Big [mkI 1 2] (2 ^ 64) = Panic /\
  spans_mul Big [] (2 ^ 64) = Ret [].
Proof. repeat split; reflexivity. Qed.
Theorem C29_mul_zero : forall g l, exists out, spans_mul g l 0 = Ret out /\ spans_mul_assign g l 0 = Ret out /\
  (forall x, ~ In_set x out) /\ (out = [] <-> l = []).
Proof.
  intros g l. exists (if set_is_empty l then [] else [iv_empty]). split; [reflexivity|]. split; [reflexivity|].
  destruct l; cbn; (split; [intros x (k & Hk & H)|split; congruence]); [destruct Hk|]. destruct Hk as [<-|[]]. iv. lia.
Qed.

(** The iterator: the intervals of the product, from the last to the first for a negative factor; for 0, one {0}
    for each interval; it panics when the product does. *)
Theorem C29_iterator_exactly : forall g l n, canonical l -> factor_ok g n ->
  (usual g n -> (forall i, In i l -> image_ok n i) -> n <> 0 ->
   exists out, spans_mul g l n = Ret out /\ scale_list g l n = Ret (if n <? 0 then rev out else out)) /\
  (~ usual g n /\ l <> [] \/ (exists i, In i l /\ ~ image_ok n i) -> scale_list g l n = Panic) /\
  scale_list g l 0 = Ret (map (fun _ => mkI 0 0) l).
Proof.
  intros g l n C F. assert (W : forall i, In i l -> wf_iv i) by eauto using canonical_In.
  assert (G : forall n, usual g n -> (forall i, In i l -> image_ok n i) -> scale_list g l n = Ret (map (fun i => scaled i n) l)).
  { intros m M Ok. clear C. induction l as [|i r IH]; auto. cbn [scale_list map].
    destruct (span_ok g i m (W i (or_introl eq_refl)) M) as [S _].
    destruct (S (Ok i (or_introl eq_refl))) as [-> Ws]. cbn [bind].
    apply wf_nonempty_b in Ws. unfold nonempty in Ws. destruct (iv_is_empty (scaled i m)); [discriminate|].
    rewrite IH by (intros; first [apply W|apply Ok]; cbn; auto). reflexivity. }
  split; [|split].
  - intros M Ok N. unfold spans_mul. replace (n =? 0) with false by lia.
    destruct (usual_pieces g l n M C) as [P1 _]. rewrite P1 by auto. cbn [bind]. rewrite scaled_nonempty by auto.
    eexists. split; [reflexivity|]. rewrite G by auto. destruct (n <? 0); now rewrite ?rev_involutive.
  - intros H. destruct (usual_dec g n) as [U|U].
    + destruct H as [[H _]|H]; [tauto|]. clear C G. induction l as [|i r IH]; [destruct H as (? & [] & _)|]. cbn [scale_list].
      destruct (span_ok g i n (W i (or_introl eq_refl)) U) as [S S'].
      destruct (image_dec n i) as [I|I]; [|now rewrite (S' I)].
      destruct (S I) as [-> Ws]. cbn [bind]. apply wf_nonempty_b in Ws. unfold nonempty in Ws.
      destruct (iv_is_empty (scaled i n)); [discriminate|].
      rewrite IH; [reflexivity|intros; apply W; cbn; auto|].
      destruct H as (k & [->|Hk] & Nk); [tauto|eauto].
    + destruct l as [|i r]; [destruct H as [[_ H]|(? & [] & _)]; congruence|]. cbn [scale_list]. now rewrite span_unusual.
  - rewrite G.
    + f_equal. apply map_ext. intros i. unfold scaled. cbn [Z.ltb Z.compare]. now rewrite !Z.mul_0_r.
    + right. pts. lia.
    + intros i _. unfold image_ok. rewrite !Z.mul_0_r. pts. lia.
Qed.
Example C29_iterator_exactly_case : scale_list Small [mkI 1 2; mkI 5 oo] (-3) = Ret [mkI (-6) (-3); mkI (- oo) (-15)] /\
  scale_list Small [mkI 1 2; mkI 5 oo] 0 = Ret [mkI 0 0; mkI 0 0] /\ scale_list Small [mkI 1 2; mkI (oo - 1) oo] 2 = Panic.
Proof. repeat split; reflexivity. Qed.

(** Division of any set: canonical, the truncated quotients of its points and of its infinite ends, taken for the numbers
    [2 ^ 63 - 1] and [- (2 ^ 63 - 1)]. *)
Theorem C29_div_exactly : forall g l n, canonical l -> factor_ok g n -> n <> 0 ->
  exists out, spans_div g l n = Ret out /\ canonical out /\
    forall y, In_set y out <-> finite y /\ exists i x, In i l /\ lower i <= x <= upper i /\ y = Z.quot x n.
Proof.
  intros g l n C F N. unfold spans_div, assert_. replace (n =? 0) with false by lia. cbn [negb bind].
  assert (K : forall i, In i l -> wf_iv i) by eauto using canonical_In.
  assert (E : omapM (fun tw => span_div g tw n) l = Ret (map (fun i => divided i n) l)).
  { apply omapM_Ret. clear - K F N. induction l; constructor.
    - rewrite span_div_eq; auto; [now replace (n =? 0) with false by lia|apply K; cbn; auto].
    - apply IHl. intros; apply K; cbn; auto. }
  rewrite E. cbn [bind]. fold (arranged n (map (fun i => divided i n) l)).
  assert (D : forall i, In i l -> wf_iv (divided i n)).
  { intros i Hi. pose proof (K i Hi) as W.
    destruct (C20_span_div g i n W F N) as (k & Ek & Vk & Lk & _ & Dk).
    rewrite span_div_eq in Ek by auto. replace (n =? 0) with false in Ek by lia. inv Ek.
    assert (lower (divided i n) < oo /\ - oo < upper (divided i n)).
    { unfold wf_iv in W. unfold divided. destruct (n <? 0) eqn:S; cbn [lower upper].
      - rewrite !(quot_neg _ n). split.
        + assert (H : Z.quot (- upper i) (- n) <= Z.quot (oo - 1) (- n)) by (apply quot_mono_pos; lia).
          assert (Z.quot (oo - 1) (- n) <= oo - 1) by (apply Z.quot_le_upper_bound; pts; nia). lia.
        + assert (H : Z.quot (- (oo - 1)) (- n) <= Z.quot (- lower i) (- n)) by (apply quot_mono_pos; lia).
          rewrite Z.quot_opp_l in H by lia.
          assert (Z.quot (oo - 1) (- n) <= oo - 1) by (apply Z.quot_le_upper_bound; pts; nia). lia.
      - split.
        + assert (H : Z.quot (lower i) n <= Z.quot (oo - 1) n) by (apply quot_mono_pos; lia).
          assert (Z.quot (oo - 1) n <= oo - 1) by (apply Z.quot_le_upper_bound; pts; nia). lia.
        + assert (H : Z.quot (- (oo - 1)) n <= Z.quot (upper i) n) by (apply quot_mono_pos; lia).
          rewrite Z.quot_opp_l in H by lia.
          assert (Z.quot (oo - 1) n <= oo - 1) by (apply Z.quot_le_upper_bound; pts; nia). lia. }
    unfold valid_iv, valid in Vk. unfold wf_iv. lia. }
  destruct (check_joined_spec (arranged n (map (fun i => divided i n) l))) as [Co Do].
  - apply Forall_forall. intros k Hk. rewrite arranged_In in Hk.
    apply in_map_iff in Hk as (i & <- & Hi). now apply D.
  - now apply divided_ordered.
  - eexists. split; [reflexivity|]. split; auto. intros y. rewrite Do. unfold In_set. split.
    + intros (k & Hk & Fy & Hy). rewrite arranged_In in Hk. apply in_map_iff in Hk as (i & <- & Hi).
      pose proof (K i Hi) as W. unfold wf_iv in W.
      apply divided_exact in Hy as (x & Hx & ->); [|auto|lia]. split; auto. exists i, x. auto.
    + intros (Fy & i & x & Hi & Hx & ->). exists (divided i n). rewrite arranged_In.
      split; [now apply (in_map (fun i => divided i n))|]. split; auto. pose proof (K i Hi) as W. unfold wf_iv in W.
      apply divided_exact; [auto|lia|]. eauto.
Qed.
Example C29_div_exactly_case : spans_div Small [mkI (- oo) (-3); mkI 5 9] (-2) = Ret [mkI (-4) (-2); mkI 1 4611686018427387903] /\
  spans_div Small [mkI 5 oo] (-1) = Ret [mkI (- oo) (-5)].
Proof. split; reflexivity. Qed.
