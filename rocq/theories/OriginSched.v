(** C99, continued: complement, relations, truncations and the scheduler. *)
From Verif Require Import Machine TimeValue Spec Tac TimeValueProofs Interval Iter TimeSet Relns
  Transl SpecSets Graph GraphProofs SpecGraph GraphInv GraphIter Scheduler Prop_GraphIter OriginProofs.

Section Windows.
  Variables D v : Z.
  Hypothesis R : D + 1 + Z.abs v < oo.

  Ltac okb := first [ assumption | apply ok_up; assumption | apply ok_jb; assumption | apply ok_ja; assumption
    | apply within_inf | apply within_minf ].
  Ltac push :=
    repeat first
      [ rewrite (sh_jb D v R) by okb | rewrite (sh_ja D v R) by okb
      | rewrite (sh_ltb D v R) by okb | rewrite (sh_leb D v R) by okb | rewrite (sh_eqb D v R) by okb
      | rewrite (sh_min D v R) by okb | rewrite (sh_max D v R) by okb
      | rewrite (sh_fut D v R) by okb | rewrite (sh_past D v R) by okb | rewrite (sh_fin D v R) by okb ].

  Ltac opn := repeat match goal with
    | H : in_iv _ _ |- _ => destruct H
    | H : within _ _ /\ _ |- _ => destruct H
    end.

  Lemma cx_lower_sim c : in_cx D c -> cx_lower (move_cx v c) = shift (cx_lower c) v /\ within (D + 1) (cx_lower c).
  Proof.
    destruct c; cbn [in_cx move_cx cx_lower move_iv lower]; intros H; opn; push; tests; split;
      try reflexivity; okb.
  Qed.
  Lemma cx_upper_sim c : in_cx D c -> cx_upper (move_cx v c) = shift (cx_upper c) v /\ within (D + 1) (cx_upper c).
  Proof.
    destruct c; cbn [in_cx move_cx cx_upper move_iv upper]; intros H; opn; push; tests; split;
      try reflexivity; okb.
  Qed.
  Lemma cx_empty_sim c : in_cx D c -> cx_is_empty (move_cx v c) = cx_is_empty c.
  Proof.
    destruct c; cbn [in_cx move_cx cx_is_empty]; intros H; opn; unfold iv_is_empty, move_iv;
      cbn [lower]; push; reflexivity.
  Qed.
  Lemma cx_into_sim c : in_cx D c -> cx_into (move_cx v c) = move_iv v (cx_into c) /\ in_iv (D + 1) (cx_into c).
  Proof.
    intros H. destruct (cx_lower_sim c H) as [E1 K1]. destruct (cx_upper_sim c H) as [E2 K2].
    assert (Q : mkI (cx_lower (move_cx v c)) (cx_upper (move_cx v c)) =
      move_iv v (mkI (cx_lower c) (cx_upper c))) by (rewrite E1, E2; reflexivity).
    destruct c; try (split; [exact Q|split; assumption]).
    - cbn [move_cx cx_into]. cbn in H. unfold iv_singleton. push.
      destruct (is_finite t); (split; [reflexivity|]); split; cbn [lower upper]; okb.
  Qed.

  (** *** Complement *)
  Lemma iv_not_sim i : in_iv D i -> iv_not (move_iv v i) = move v (iv_not i) /\ in_set (D + 1) (iv_not i).
  Proof.
    destruct i as [a b]. intros [Ha Hb]. cbn [lower upper] in *. unfold iv_not, iv_is_empty, move_iv.
    cbn [lower upper]. push.
    destruct (is_future_infinite a).
    { split; [reflexivity|]. apply in_set_cons. split; [apply in_all|apply in_set_nil]. }
    destruct (is_past_infinite (just_before a)), (is_future_infinite (just_after b)); (split; [reflexivity|]);
      repeat (apply in_set_cons; split; [split; cbn [lower upper]; okb|]); apply in_set_nil.
  Qed.
  Lemma pt_not_sim t : within D t -> pt_not (shift t v) = move v (pt_not t) /\ in_set (D + 1) (pt_not t).
  Proof.
    intros Ht. unfold pt_not, iv_before, iv_after. push.
    destruct (is_past_infinite (just_before t)); destruct (is_future_infinite (just_after t));
      unfold iv_is_empty; cbn [lower iv_empty is_future_infinite];
      try (replace (is_future_infinite INF) with true by reflexivity);
      try (replace (is_future_infinite (- INF)) with false by reflexivity); push;
      destruct (is_future_infinite (just_after t)) eqn:E; (split; [reflexivity|]);
      repeat (apply in_set_cons; split; [split; cbn [lower upper]; okb|]); apply in_set_nil.
  Qed.
  Lemma gaps_sim l : forall x, in_set D l -> within (D + 1) x ->
    not_gaps (shift x v) (move v l) = move v (not_gaps x l) /\ in_set (D + 1) (not_gaps x l).
  Proof.
    induction l as [|[a b] r IH]; intros x Hl Hx; cbn [move map not_gaps].
    - push. destruct (is_future_infinite x); (split; [reflexivity|]); [apply in_set_nil|].
      apply in_set_cons. split; [split; cbn [lower upper]; okb|apply in_set_nil].
    - apply in_set_cons in Hl. destruct Hl as [[Ha Hb] Hr]. cbn [lower upper] in *.
      unfold move_iv at 1 2. cbn [lower upper]. push.
      destruct (IH (just_after b) Hr ltac:(okb)) as [E K]. change (map (move_iv v) r) with (move v r).
      rewrite E. split; [reflexivity|].
      apply in_set_cons. split; [split; cbn [lower upper]; okb|exact K].
  Qed.
  Lemma not_sim l : in_set D l -> set_not (move v l) = move v (set_not l) /\ in_set (D + 1) (set_not l).
  Proof.
    intros Hl. destruct l as [|[a b] r].
    - split; [reflexivity|]. apply in_set_cons. split; [apply in_all|apply in_set_nil].
    - apply in_set_cons in Hl. destruct Hl as [[Ha Hb] Hr]. cbn [lower upper] in *.
      change (move v (mkI a b :: r)) with (move_iv v (mkI a b) :: move v r). cbn [set_not].
      unfold move_iv. cbn [lower upper]. fold (move_iv v). push.
      destruct (gaps_sim r (just_after b) Hr ltac:(okb)) as [E K].
      rewrite E, move_app.
      destruct (is_past_infinite (just_before a)); (split; [reflexivity|]); apply in_set_app; auto;
        try apply in_set_nil.
      apply in_set_cons. split; [split; cbn [lower upper]; okb|apply in_set_nil].
  Qed.

  (** *** Relations *)
  Lemma find_sim {A} (p q : A -> bool) (f : A -> A) l : (forall x, In x l -> p (f x) = q x) ->
    find p (map f l) = option_map f (find q l).
  Proof.
    induction l as [|x r IH]; intros H; auto. cbn [map find]. rewrite H by now left.
    destruct (q x); auto. apply IH. intros. apply H. now right.
  Qed.
  Lemma contains_bd_sim l lo up : in_set D l -> within (D + 1) lo -> within (D + 1) up ->
    match find (fun ts => shift lo v <=? upper ts) (move v l) with
    | Some ts => (lower ts <=? shift lo v) && (shift up v <=? upper ts)
    | None => false
    end =
    match find (fun ts => lo <=? upper ts) l with
    | Some ts => (lower ts <=? lo) && (up <=? upper ts)
    | None => false
    end.
  Proof.
    intros Hl H1 H2. unfold move. rewrite (find_sim _ (fun ts => lo <=? upper ts)).
    - destruct (find _ l) as [[a b]|] eqn:E; [|reflexivity]. apply find_some in E. destruct E as [Hi _].
      apply Hl in Hi. destruct Hi as [Ha Hb]. cbn [option_map move_iv lower upper] in *. push. reflexivity.
    - intros [a b] Hi. apply Hl in Hi. destruct Hi as [Ha Hb]. cbn [move_iv upper lower] in *. push. reflexivity.
  Qed.
  Lemma overlaps_bd_sim l lo up : in_set D l -> within (D + 1) lo -> within (D + 1) up ->
    match find (fun ts => shift lo v <=? upper ts) (move v l) with
    | Some ts => lower ts <=? shift up v
    | None => false
    end =
    match find (fun ts => lo <=? upper ts) l with Some ts => lower ts <=? up | None => false end.
  Proof.
    intros Hl H1 H2. unfold move. rewrite (find_sim _ (fun ts => lo <=? upper ts)).
    - destruct (find _ l) as [[a b]|] eqn:E; [|reflexivity]. apply find_some in E. destruct E as [Hi _].
      apply Hl in Hi. destruct Hi as [Ha Hb]. cbn [option_map move_iv lower upper] in *. push. reflexivity.
    - intros [a b] Hi. apply Hl in Hi. destruct Hi as [Ha Hb]. cbn [move_iv upper lower] in *. push. reflexivity.
  Qed.
  Lemma contains_cx_sim l c : in_set D l -> in_cx D c ->
    set_contains_cx (move v l) (move_cx v c) = set_contains_cx l c.
  Proof.
    intros Hl Hc. destruct (cx_lower_sim c Hc) as [E1 K1]. destruct (cx_upper_sim c Hc) as [E2 K2].
    unfold set_contains_cx, cx_contains. cbn [w_lower w_upper cx_lower cx_upper]. rewrite E1, E2.
    now apply contains_bd_sim.
  Qed.
  Lemma overlaps_cx_sim l c : in_set D l -> in_cx D c ->
    set_overlaps_cx (move v l) (move_cx v c) = set_overlaps_cx l c.
  Proof.
    intros Hl Hc. destruct (cx_lower_sim c Hc) as [E1 K1]. destruct (cx_upper_sim c Hc) as [E2 K2].
    unfold set_overlaps_cx. rewrite E1, E2. now apply overlaps_bd_sim.
  Qed.
  Lemma contains_sim l m : in_set D l -> in_set D m -> set_contains (move v l) (move v m) = set_contains l m.
  Proof.
    intros Hl. unfold set_contains. induction m as [|i r IH]; intros Hm; auto.
    apply in_set_cons in Hm. destruct Hm as [Hi Hr]. cbn [move map forallb].
    rewrite <- IH by exact Hr. f_equal. now apply (contains_cx_sim l (CIv i)).
  Qed.
  Lemma overlaps_sim l m : in_set D l -> in_set D m -> set_overlaps (move v l) (move v m) = set_overlaps l m.
  Proof.
    intros Hl. unfold set_overlaps. induction m as [|i r IH]; intros Hm; auto.
    apply in_set_cons in Hm. destruct Hm as [Hi Hr]. cbn [move map existsb].
    rewrite <- IH by exact Hr. f_equal. now apply (overlaps_cx_sim l (CIv i)).
  Qed.
  Lemma w_bounds_sim w : in_w D w ->
    (w_lower (move_w v w) = shift (w_lower w) v /\ within (D + 1) (w_lower w)) /\
    (w_upper (move_w v w) = shift (w_upper w) v /\ within (D + 1) (w_upper w)).
  Proof.
    destruct w as [c|l]; intros H; cbn [move_w w_lower w_upper].
    - split; [now apply cx_lower_sim|now apply cx_upper_sim].
    - destruct (lower_sim D v l H), (upper_sim D v l H). repeat split; auto using ok_up.
  Qed.
  Lemma cx_contains_sim c w : in_cx D c -> in_w D w -> cx_contains (move_cx v c) (move_w v w) = cx_contains c w.
  Proof.
    intros Hc Hw. destruct (cx_lower_sim c Hc) as [E1 K1]. destruct (cx_upper_sim c Hc) as [E2 K2].
    destruct (w_bounds_sim w Hw) as [[E3 K3] [E4 K4]].
    unfold cx_contains. rewrite E1, E2, E3, E4. push. reflexivity.
  Qed.
  Lemma cx_overlaps_sim c d : in_cx D c -> in_cx D d -> cx_overlaps (move_cx v c) (move_cx v d) = cx_overlaps c d.
  Proof.
    intros Hc Hd. destruct (cx_lower_sim c Hc) as [E1 K1]. destruct (cx_upper_sim c Hc) as [E2 K2].
    destruct (cx_lower_sim d Hd) as [E3 K3]. destruct (cx_upper_sim d Hd) as [E4 K4].
    unfold cx_overlaps. rewrite E1, E2, E3, E4. push. reflexivity.
  Qed.
  Lemma w_convex_sim w : w_is_convex (move_w v w) = w_is_convex w.
  Proof.
    destruct w; auto. cbn. unfold set_is_convex, set_convex_count. now rewrite move_length.
  Qed.
  Lemma iv_eq_sim i w : in_iv D i -> in_w D w -> iv_eq (move_iv v i) (move_w v w) = iv_eq i w.
  Proof.
    intros [H1 H2] Hw. destruct (w_bounds_sim w Hw) as [[E3 K3] [E4 K4]].
    unfold iv_eq. rewrite w_convex_sim, E3, E4. cbn [move_iv lower upper]. push. reflexivity.
  Qed.
  Lemma iter_sim w : in_w D w -> w_iter (move_w v w) = move v (w_iter w).
  Proof.
    destruct w as [c|l]; intros H; auto. cbn [move_w w_iter in_w] in *. unfold cx_iter.
    rewrite cx_empty_sim by exact H. destruct (cx_lower_sim c H) as [E1 _]. destruct (cx_upper_sim c H) as [E2 _].
    rewrite E1, E2. destruct (cx_is_empty c); reflexivity.
  Qed.
  Lemma bd_cmp_sim lo up e w : within D lo -> within D up -> in_w D w ->
    bd_lt (shift up v) (move_w v w) = bd_lt up w /\ bd_gt (shift lo v) (move_w v w) = bd_gt lo w /\
    bd_partial_cmp (shift lo v) (shift up v) e (move_w v w) = bd_partial_cmp lo up e w.
  Proof.
    intros H1 H2 Hw. destruct (w_bounds_sim w Hw) as [[E3 K3] [E4 K4]].
    unfold bd_partial_cmp, bd_lt, bd_gt. rewrite E3, E4. push. auto.
  Qed.
  Lemma list_eq_sim l : forall m, in_set D l -> in_set (D + 1) m -> list_eq (move v l) (move v m) = list_eq l m.
  Proof.
    induction l as [|[a b] r IH]; intros [|[c d] s] Hl Hm; auto.
    apply in_set_cons in Hl, Hm. destruct Hl as [[Ha Hb] Hr], Hm as [[Hc Hd] Hs]. cbn [lower upper] in *.
    cbn [move map list_eq]. change (map (move_iv v) r) with (move v r). change (map (move_iv v) s) with (move v s).
    rewrite IH by assumption. f_equal. unfold iv_eq, move_iv.
    cbn [lower upper w_is_convex w_lower w_upper cx_lower cx_upper]. push. reflexivity.
  Qed.
  Lemma set_eq_sim l w : in_set D l -> in_w D w -> set_eq (move v l) (move_w v w) = set_eq l w.
  Proof.
    intros Hl Hw. unfold set_eq. rewrite iter_sim by exact Hw. apply list_eq_sim; auto.
    destruct w as [c|m]; cbn [w_iter in_w] in *.
    - unfold cx_iter. destruct (cx_is_empty c); [apply in_set_nil|].
      apply in_set_cons. split; [|apply in_set_nil]. destruct (cx_lower_sim c Hw), (cx_upper_sim c Hw). split; auto.
    - eapply in_set_up; [|exact Hw]. lia.
  Qed.

  (** *** Truncations *)
  Lemma trunc_before_sim i lo : in_iv D i -> within D lo ->
    iv_truncate_before (move_iv v i) (shift lo v) =
      (move_iv v (fst (iv_truncate_before i lo)), snd (iv_truncate_before i lo)) /\
    in_iv D (fst (iv_truncate_before i lo)).
  Proof.
    destruct i as [a b]. intros [Ha Hb] Hlo. cbn [lower upper] in *. unfold iv_truncate_before, move_iv at 1 2 3 4 5.
    cbn [lower upper]. push. tests; cbn [fst snd]; (split; [reflexivity|]); split; cbn [lower upper]; okb.
  Qed.
  Lemma trunc_after_sim i up : in_iv D i -> within D up ->
    iv_truncate_after (move_iv v i) (shift up v) =
      (move_iv v (fst (iv_truncate_after i up)), snd (iv_truncate_after i up)) /\
    in_iv D (fst (iv_truncate_after i up)).
  Proof.
    destruct i as [a b]. intros [Ha Hb] Hlo. cbn [lower upper] in *. unfold iv_truncate_after, move_iv at 1 2 3 4 5.
    cbn [lower upper]. push. tests; cbn [fst snd]; (split; [reflexivity|]); split; cbn [lower upper]; okb.
  Qed.
  Lemma position_sim {A} (p q : A -> bool) (f : A -> A) l : (forall x, In x l -> p (f x) = q x) ->
    position p (map f l) = position q l /\ rposition p (map f l) = rposition q l.
  Proof.
    induction l as [|x r IH]; intros H; auto. cbn [map position rposition]. rewrite H by now left.
    destruct IH as [-> ->]; auto. intros. apply H. now right.
  Qed.
  Lemma update_sim n (f g : interval -> interval) l :
    (forall x, In x l -> f (move_iv v x) = move_iv v (g x) /\ in_iv D (g x)) -> in_set D l ->
    update_at n f (move v l) = move v (update_at n g l) /\ in_set D (update_at n g l).
  Proof.
    revert n. induction l as [|x r IH]; intros n H Hl; [now destruct n|].
    apply in_set_cons in Hl. destruct Hl as [Hx Hr]. destruct (H x (or_introl eq_refl)) as [E K].
    destruct n as [|n]; cbn [move map update_at].
    - rewrite E. split; [reflexivity|]. apply in_set_cons. auto.
    - destruct (IH n (fun y Hy => H y (or_intror Hy)) Hr) as [E2 K2]. change (map (move_iv v) r) with (move v r).
      rewrite E2. split; [reflexivity|]. apply in_set_cons. auto.
  Qed.
  Lemma in_sub l m : in_set D l -> incl m l -> in_set D m.
  Proof. unfold in_set. auto. Qed.
  Lemma skipn_incl {A} n (l : list A) : incl (skipn n l) l.
  Proof. intros x H. rewrite <- (firstn_skipn n l). apply in_or_app. auto. Qed.
  Lemma firstn_incl {A} n (l : list A) : incl (firstn n l) l.
  Proof. intros x H. rewrite <- (firstn_skipn n l). apply in_or_app. auto. Qed.
  Lemma set_before_sim l lo : in_set D l -> within D lo ->
    set_truncate_before (move v l) (shift lo v) =
      (move v (fst (set_truncate_before l lo)), snd (set_truncate_before l lo)) /\
    in_set D (fst (set_truncate_before l lo)).
  Proof.
    intros Hl Hlo. unfold set_truncate_before, move at 1.
    destruct (position_sim (fun i => shift lo v <=? upper i) (fun i => lo <=? upper i) (move_iv v) l) as [-> _].
    { intros [a b] Hi. apply Hl in Hi. destruct Hi as [Ha Hb]. cbn [move_iv upper lower] in *. push. reflexivity. }
    destruct (position _ l) as [[|n]|] eqn:E.
    - destruct l as [|i r]; [discriminate|]. apply in_set_cons in Hl. destruct Hl as [Hi Hr].
      cbn [move map]. destruct (trunc_before_sim i lo Hi Hlo) as [E1 K1]. rewrite E1.
      destruct (iv_truncate_before i lo) as [i' b]. cbn [fst snd] in *. split; [reflexivity|].
      apply in_set_cons. auto.
    - cbn [fst snd]. unfold move at 1. rewrite skipn_map. change (map (move_iv v) (skipn (S n) l)) with (move v (skipn (S n) l)).
      assert (Hs : in_set D (skipn (S n) l)) by (eapply in_sub; [exact Hl|apply skipn_incl]).
      destruct (update_sim 0 (fun i => fst (iv_truncate_before i (shift lo v))) (fun i => fst (iv_truncate_before i lo))
        (skipn (S n) l)) as [E2 K2]; auto.
      { intros x Hx. destruct (trunc_before_sim x lo (Hs x Hx) Hlo) as [E1 K1]. rewrite E1. auto. }
      rewrite E2. auto.
    - destruct l as [|i r]; cbn [move map fst snd]; split; auto using in_set_nil.
  Qed.
  Lemma set_after_sim l up : in_set D l -> within D up ->
    set_truncate_after (move v l) (shift up v) =
      (move v (fst (set_truncate_after l up)), snd (set_truncate_after l up)) /\
    in_set D (fst (set_truncate_after l up)).
  Proof.
    intros Hl Hup. unfold set_truncate_after, move at 1.
    destruct (position_sim (fun i => lower i <=? shift up v) (fun i => lower i <=? up) (move_iv v) l) as [_ ->].
    { intros [a b] Hi. apply Hl in Hi. destruct Hi as [Ha Hb]. cbn [move_iv upper lower] in *. push. reflexivity. }
    destruct (rposition _ l) as [n|] eqn:E.
    - rewrite move_length.
      destruct (Nat.eqb (n + 1) (length l)).
      + destruct (update_sim n (fun i => fst (iv_truncate_after i (shift up v))) (fun i => fst (iv_truncate_after i up)) l)
          as [E2 K2]; auto.
        { intros x Hx. destruct (trunc_after_sim x up (Hl x Hx) Hup) as [E1 K1]. rewrite E1. auto. }
        rewrite E2. cbn [fst snd]. split; auto. f_equal. unfold move. rewrite nth_error_map.
        destruct (nth_error l n) as [i|] eqn:N; auto. cbn [option_map].
        apply nth_error_In in N. destruct (trunc_after_sim i up (Hl i N) Hup) as [E1 K1]. now rewrite E1.
      + cbn [fst snd]. unfold move at 1. rewrite firstn_map.
        change (map (move_iv v) (firstn (n + 1) l)) with (move v (firstn (n + 1) l)).
        assert (Hs : in_set D (firstn (n + 1) l)) by (eapply in_sub; [exact Hl|apply firstn_incl]).
        destruct (update_sim n (fun i => fst (iv_truncate_after i (shift up v))) (fun i => fst (iv_truncate_after i up))
          (firstn (n + 1) l)) as [E2 K2]; auto.
        { intros x Hx. destruct (trunc_after_sim x up (Hs x Hx) Hup) as [E1 K1]. rewrite E1. auto. }
        rewrite E2. auto.
    - destruct l as [|i r]; cbn [move map fst snd]; split; auto using in_set_nil.
  Qed.
End Windows.

(** ** Sums *)

Lemma inf_cases x : x = oo \/ x = - oo \/ (x <> oo /\ x <> - oo).
Proof. lia. Qed.
Lemma add_within D B a b x : within D a -> within B b -> D + B < oo -> tv_add a b = Ret x -> within (D + B) x.
Proof.
  intros Ha Hb S. unfold tv_add. rewrite fin_two. unfold is_future_infinite, is_past_infinite. change INF with oo.
  destruct (inf_cases a) as [-> |[-> |[A1 A2]]].
  - rewrite Z.eqb_refl. destruct (b =? - oo); intros E; inv E. now right.
  - change (- oo =? oo) with false. rewrite Z.eqb_refl. destruct (b =? oo); intros E; inv E. now right.
  - replace (a =? oo) with false by lia. replace (a =? - oo) with false by lia.
    assert (Z.abs a <= D) by (destruct Ha; lia).
    destruct (inf_cases b) as [-> |[-> |[B1 B2]]].
    + rewrite Z.eqb_refl. intros E; inv E. now right.
    + rewrite Z.eqb_refl. rewrite Bool.andb_false_r. intros E; inv E. now right.
    + replace (b =? oo) with false by lia. replace (b =? - oo) with false by lia. cbn [negb andb].
      assert (Z.abs b <= B) by (destruct Hb; lia). intros E.
      assert (E2 : from_ticks (sat64 (a + b)) = x) by (injection E; auto). subst x.
      left. unfold from_ticks, sat64. change INF with oo. change i64_max with oo. change i64_min with (- oo - 1). lia.
Qed.
Lemma add_move D B v a b : within D a -> within B b -> D + B + Z.abs v < oo -> 0 <= B -> 0 <= D ->
  tv_add (shift a v) b = omap (fun x => shift x v) (tv_add a b).
Proof.
  intros Ha Hb S B0 D0. unfold tv_add. rewrite !fin_two. unfold is_future_infinite, is_past_infinite. change INF with oo.
  destruct (inf_cases a) as [-> |[-> |[A1 A2]]].
  - change (shift oo v) with oo. rewrite Z.eqb_refl. destruct (b =? - oo); reflexivity.
  - change (shift (- oo) v) with (- oo). change (- oo =? oo) with false. rewrite Z.eqb_refl. destruct (b =? oo); reflexivity.
  - assert (Z.abs a <= D) by (destruct Ha; lia).
    rewrite (small_plain (D - 1) v) by lia.
    replace (a =? oo) with false by lia. replace (a =? - oo) with false by lia.
    replace (a + v =? oo) with false by lia. replace (a + v =? - oo) with false by lia.
    destruct (inf_cases b) as [-> |[-> |[B1 B2]]].
    + rewrite Z.eqb_refl. reflexivity.
    + rewrite Z.eqb_refl. rewrite Bool.andb_false_r. reflexivity.
    + replace (b =? oo) with false by lia. replace (b =? - oo) with false by lia. cbn [negb andb omap bind].
      assert (Z.abs b <= B) by (destruct Hb; lia). f_equal.
      assert (P : forall x, Z.abs x < oo -> from_ticks (sat64 x) = x).
      { intros x Hx. unfold from_ticks, sat64. change INF with oo. change i64_max with oo. change i64_min with (- oo - 1). lia. }
      rewrite !P by lia. rewrite (small_plain (D + B - 1) v) by lia. lia.
Qed.
Lemma new_move D v lo up : D + Z.abs v < oo -> within D lo -> within D up ->
  iv_new (shift lo v) (shift up v) = move_iv v (iv_new lo up) /\ in_iv D (iv_new lo up).
Proof.
  intros S Hl Hu. pose proof (sh_ltb (D - 1) v ltac:(lia) lo up) as L1.
  pose proof (sh_ltb (D - 1) v ltac:(lia) up lo) as L2. pose proof (sh_fin (D - 1) v ltac:(lia) lo) as F.
  replace (D - 1 + 1) with D in * by lia. specialize (L1 Hl Hu). specialize (L2 Hu Hl). specialize (F Hl).
  unfold iv_new, iv_singleton. rewrite F.
  destruct (Z.compare_spec lo up).
  - subst up. rewrite Z.compare_refl. destruct (is_finite lo); (split; [reflexivity|]); split; auto;
      [apply within_inf|apply within_minf].
  - assert (Q : shift lo v < shift up v) by lia. apply Z.compare_lt_iff in Q. rewrite Q. split; [reflexivity|]. split; auto.
  - assert (Q : (shift lo v ?= shift up v) = Gt) by (apply Z.compare_gt_iff; lia). rewrite Q.
    split; [reflexivity|]. split; [apply within_inf|apply within_minf].
Qed.
Lemma checked_move D p v lo up : D + Z.abs v < oo -> within D lo -> within D up ->
  iv_checked p (shift lo v) (shift up v) = omap (move_iv v) (iv_checked p lo up) /\
  forall x, iv_checked p lo up = Ret x -> in_iv D x.
Proof.
  intros S Hl Hu. destruct (new_move D v lo up S Hl Hu) as [E K]. unfold iv_checked. rewrite E.
  unfold iv_is_empty at 1. unfold move_iv at 1. cbn [lower].
  pose proof (sh_fut (D - 1) v ltac:(lia) (lower (iv_new lo up))) as F. replace (D - 1 + 1) with D in F by lia.
  rewrite F by apply K. unfold iv_is_empty.
  destruct (debug_assert p _); cbn [bind omap]; (split; [reflexivity|]); try discriminate.
  intros x H. assert (iv_new lo up = x) by (injection H; auto). now subst x.
Qed.
Lemma add_span_move D B p v i j : in_iv D i -> in_iv B j -> D + B + Z.abs v < oo -> 0 <= B -> 0 <= D ->
  iv_add_span p (move_iv v i) j = omap (move_iv v) (iv_add_span p i j) /\
  forall x, iv_add_span p i j = Ret x -> in_iv (D + B) x.
Proof.
  intros [Hi1 Hi2] [Hj1 Hj2] S B0 D0. unfold iv_add_span, move_iv. cbn [lower upper]. fold (move_iv v).
  rewrite !(add_move D B v) by assumption.
  pose proof (add_within D B (lower i) (lower j)) as W1. pose proof (add_within D B (upper i) (upper j)) as W2.
  destruct (tv_add (lower i) (lower j)) as [lo| | |]; cbn [omap bind]; try (split; [reflexivity|discriminate]).
  destruct (tv_add (upper i) (upper j)) as [up| | |]; cbn [omap bind]; try (split; [reflexivity|discriminate]).
  apply checked_move; [lia|apply W1|apply W2]; auto; lia.
Qed.
Lemma set_add_span_move D B p v l j : in_set D l -> in_iv B j -> D + B + 1 + Z.abs v < oo -> 0 <= B -> 0 <= D ->
  set_add_span p (move v l) j = omap (move v) (set_add_span p l j) /\
  forall x, set_add_span p l j = Ret x -> in_set (D + B) x.
Proof.
  intros Hl Hj S B0 D0. unfold set_add_span.
  refine (ofold_sim (fun r i => x <- iv_add_span p i j ;; set_or_cx r (CIv x)) (move v) (move_iv v)
    (in_set (D + B)) (in_iv D) _ l [] (in_set_nil _) Hl).
  intros a b Ha Hb. destruct (add_span_move D B p v b j Hb Hj) as [E K]; auto; [lia|]. rewrite E.
  destruct (iv_add_span p b j) as [x| | |]; cbn [omap bind]; try (split; [reflexivity|discriminate]).
  specialize (K x eq_refl). unfold set_or_cx. cbn [cx_into].
  destruct (into_iter_sim (D + B) v ltac:(lia) x K) as [E1 K1]. rewrite E1.
  destruct (union_list_sim (D + B) v ltac:(lia) a (iv_into_iter x) Ha K1) as [E2 K2]. rewrite E2.
  destruct (union_list a (iv_into_iter x)) as [u| | |]; cbn [omap bind]; try (split; [reflexivity|discriminate]).
  apply from_iter_sim; [lia|]. now apply K2.
Qed.

(** ** The scheduler *)

Definition move_slots (v : Z) (ls : list tset) : list tset := map (move v) ls.
Definition move_s (v : Z) (s : sched) : sched := mkS (sc_graph s) (move_slots v (sc_slots s)).
Definition in_slots (D : Z) (ls : list tset) : Prop := forall l, In l ls -> in_set D l.
Definition move_h (v : Z) (h : hole) : hole :=
  match h with HSet l => HSet (move v l) | HIv i => HIv (move_iv v i) | HPoint t => HPoint (shift t v) end.
Definition in_h (D : Z) (h : hole) : Prop :=
  match h with HSet l => in_set D l | HIv i => in_iv D i | HPoint t => within D t end.
(** the bounds stored in the graph *)
Definition in_graph (B : Z) (p : profile) (g : graph) : Prop :=
  forall i j x, g_lower p g i j = Ret x -> within B x.

Lemma in_slots_up D E ls : D <= E -> in_slots D ls -> in_slots E ls.
Proof. intros H A l Hl. eapply in_set_up; eauto. Qed.
Lemma slot_get_move v ls i : slot_get (move_slots v ls) i = omap (move v) (slot_get ls i).
Proof.
  unfold slot_get, move_slots. rewrite nth_error_map. destruct (nth_error ls (Z.to_nat i)); reflexivity.
Qed.
Lemma slot_get_in D ls i x : in_slots D ls -> slot_get ls i = Ret x -> in_set D x.
Proof.
  unfold slot_get. intros H E. destruct (nth_error ls (Z.to_nat i)) as [y|] eqn:N; [|discriminate].
  assert (y = x) by (injection E; auto). subst y. apply nth_error_In in N. auto.
Qed.
Lemma slot_set_move D v ls i x : in_slots D ls -> in_set D x ->
  slot_set (move_slots v ls) i (move v x) = omap (move_slots v) (slot_set ls i x) /\
  forall m, slot_set ls i x = Ret m -> in_slots D m.
Proof.
  intros H K. unfold slot_set, move_slots. rewrite nth_error_map.
  destruct (nth_error ls (Z.to_nat i)); cbn [option_map omap bind]; [|split; [reflexivity|discriminate]].
  split.
  - rewrite map_app, firstn_map, map_cons, skipn_map. reflexivity.
  - intros m E. assert (M : firstn (Z.to_nat i) ls ++ x :: skipn (S (Z.to_nat i)) ls = m) by (injection E; auto).
    subst m. intros l Hl. apply in_app_or in Hl. destruct Hl as [Hl|[<-|Hl]]; auto.
    + apply H. eapply firstn_incl; eauto.
    + apply H. eapply skipn_incl; eauto.
Qed.

Section Scheduler.
  Variables (p : profile) (g : graph) (B v : Z).
  Hypothesis G : in_graph B p g.
  Hypothesis B0 : 0 <= B.

  Lemma k_in i j k : k_of_graph p g i j = Ret k -> in_iv B (k_span k).
  Proof.
    unfold k_of_graph. pose proof (G i j) as G1. pose proof (G j i) as G2.
    destruct (g_lower p g i j) as [a| | |]; cbn [bind]; try discriminate.
    destruct (g_lower p g j i) as [b| | |]; cbn [bind]; try discriminate.
    intros E. inv E. unfold k_span, in_iv. cbn [k_lo k_up lower upper]. split; [now apply G1|].
    specialize (G2 b eq_refl). unfold within, tv_neg in *. lia.
  Qed.
  (** the source slot [i] has bounds [D], the others [E >= D + B] *)
  Lemma step_move D E i ls a : D + B <= E -> 0 <= D -> E + 1 + Z.abs v < oo -> in_slots E ls ->
    (forall x, slot_get ls i = Ret x -> in_set D x) ->
    sc_step p g i (move_slots v ls) a = omap (move_slots v) (sc_step p g i ls a) /\
    forall m, sc_step p g i ls a = Ret m -> in_slots E m.
  Proof.
    intros DE D0 S H Hi. unfold sc_step. pose proof (k_in (fst a) (snd a)) as K.
    destruct (k_of_graph p g (fst a) (snd a)) as [k| | |]; cbn [bind omap]; try (split; [reflexivity|discriminate]).
    specialize (K k eq_refl). rewrite !slot_get_move. pose proof (slot_get_in E ls (snd a)) as Kj.
    destruct (slot_get ls (snd a)) as [sj| | |]; cbn [bind omap]; try (split; [reflexivity|discriminate]).
    specialize (Kj sj H eq_refl).
    destruct (slot_get ls i) as [si| | |]; cbn [bind omap]; try (split; [reflexivity|discriminate]).
    specialize (Hi si eq_refl).
    destruct (set_add_span_move D B p v si (k_span k) Hi K) as [E1 K1]; auto; [lia|]. rewrite E1.
    destruct (set_add_span p si (k_span k)) as [tr| | |]; cbn [bind omap]; try (split; [reflexivity|discriminate]).
    assert (Kt : in_set E tr) by (eapply in_set_up; [|apply K1; reflexivity]; exact DE).
    destruct (inter_list_sim E v S sj tr Kj Kt) as [E2 K2]. rewrite E2.
    destruct (inter_list sj tr) as [u| | |]; cbn [bind omap]; try (split; [reflexivity|discriminate]).
    destruct (from_iter_sim E v S u (K2 u eq_refl)) as [E3 K3]. rewrite E3.
    destruct (from_iter u) as [r| | |]; cbn [bind omap]; try (split; [reflexivity|discriminate]).
    apply slot_set_move; auto.
  Qed.

  Hypothesis St : stored g.

  Lemma slot_other ls i j x m : 0 <= i -> 0 <= j -> i <> j -> slot_set ls j x = Ret m -> slot_get m i = slot_get ls i.
  Proof.
    intros Hi Hj N. unfold slot_set, slot_get. destruct (nth_error ls (Z.to_nat j)) as [y|] eqn:E; [|discriminate].
    intros M. assert (firstn (Z.to_nat j) ls ++ x :: skipn (S (Z.to_nat j)) ls = m) by (injection M; auto). subst m.
    assert (L : (Z.to_nat j < length ls)%nat) by (apply nth_error_Some; congruence).
    assert (NN : Z.to_nat i <> Z.to_nat j) by lia.
    destruct (Nat.lt_ge_cases (Z.to_nat i) (Z.to_nat j)) as [A|A].
    - rewrite nth_error_app1 by (rewrite firstn_length; lia).
      rewrite <- (firstn_skipn (Z.to_nat j) ls) at 2. rewrite nth_error_app1 by (rewrite firstn_length; lia). reflexivity.
    - rewrite nth_error_app2 by (rewrite firstn_length; lia). rewrite firstn_length, Nat.min_l by lia.
      rewrite <- (firstn_skipn (S (Z.to_nat j)) ls) at 2.
      rewrite nth_error_app2 by (rewrite firstn_length; lia). rewrite firstn_length, Nat.min_l by lia.
      replace (Z.to_nat i - Z.to_nat j)%nat with (S (Z.to_nat i - S (Z.to_nat j))) by lia. reflexivity.
  Qed.
  Lemma step_other ls i a m : 0 <= i -> 0 <= snd a -> i <> snd a -> sc_step p g i ls a = Ret m ->
    slot_get m i = slot_get ls i.
  Proof.
    intros Hi Hj N. unfold sc_step.
    destruct (k_of_graph p g (fst a) (snd a)); cbn [bind]; try discriminate.
    destruct (slot_get ls (snd a)); cbn [bind]; try discriminate.
    destruct (slot_get ls i) as [si| | |] eqn:E; cbn [bind]; try discriminate.
    destruct (set_add_span p si (k_span a0)); cbn [bind]; try discriminate.
    destruct (inter_list a1 a2); cbn [bind]; try discriminate.
    destruct (from_iter a3); cbn [bind]; try discriminate.
    intros M. apply slot_other with (i := i) in M; auto. congruence.
  Qed.
  Lemma steps_move D E i : 0 <= i -> D + B <= E -> 0 <= D -> E + 1 + Z.abs v < oo ->
    forall ks ls, (forall a, In a ks -> 0 <= snd a /\ i <> snd a) -> in_slots E ls ->
    (forall x, slot_get ls i = Ret x -> in_set D x) ->
    ofold (sc_step p g i) (move_slots v ls) ks = omap (move_slots v) (ofold (sc_step p g i) ls ks) /\
    forall m, ofold (sc_step p g i) ls ks = Ret m -> in_slots E m.
  Proof.
    intros Hi DE D0 S. induction ks as [|a r IH]; intros ls Hks H Hs; cbn [ofold].
    - split; [reflexivity|]. intros m M. assert (ls = m) by (injection M; auto). now subst m.
    - destruct (step_move D E i ls a DE D0 S H Hs) as [E1 K1]. rewrite E1.
      pose proof (step_other ls i a) as O. destruct (Hks a (or_introl eq_refl)) as [A1 A2].
      destruct (sc_step p g i ls a) as [m| | |]; cbn [bind omap]; try (split; [reflexivity|discriminate]).
      apply IH; auto.
      + intros b Hb. apply Hks. now right.
      + intros x Hx. apply Hs. rewrite <- Hx. symmetry. now apply O.
  Qed.
  Lemma propagate_move D ls i : 0 <= i -> 0 <= D -> D + 2 * B + 1 + Z.abs v < oo -> in_slots D ls ->
    sc_propagate p g (move_slots v ls) i = omap (move_slots v) (sc_propagate p g ls i) /\
    forall m, sc_propagate p g ls i = Ret m -> in_slots (D + 2 * B) m.
  Proof.
    intros Hi D0 S H. unfold sc_propagate. unfold move_slots at 1. rewrite map_length.
    destruct (debug_assert p (i <=? Z.of_nat (length ls))); cbn [bind omap]; try (split; [reflexivity|discriminate]).
    destruct (Z_lt_le_dec i (g_size g)) as [L|L].
    - destruct (from_ok p g i (proj1 (stored_mem g) St) (conj Hi L)) as (js & E & Hj & _). rewrite E. cbn [bind].
      cbn [map ofold].
      destruct (step_move D (D + B) i ls (i, 0)) as [E1 K1]; auto; try lia.
      { eapply in_slots_up; [|exact H]. lia. }
      { intros x Hx. eapply slot_get_in; eauto. }
      rewrite E1. destruct (sc_step p g i ls (i, 0)) as [m| | |]; cbn [bind omap]; try (split; [reflexivity|discriminate]).
      specialize (K1 m eq_refl).
      apply (steps_move (D + B)); auto; try lia.
      + intros [a1 b1] Hab. apply in_map_iff in Hab. destruct Hab as (c1 & X & Hc). inv X. apply Hj in Hc. cbn [snd]. lia.
      + eapply in_slots_up; [|exact K1]. lia.
      + intros x Hx. eapply slot_get_in; eauto.
    - rewrite (proj1 (C48_outside p g i L)). cbn [bind ofold omap]. split; [reflexivity|].
      intros m M. assert (ls = m) by (injection M; auto). subst m. eapply in_slots_up; [|exact H]. lia.
  Qed.

  Lemma and_assign_move D l c : 0 <= D -> D + 2 + Z.abs v < oo -> in_set D l -> in_cx D c ->
    set_and_assign (move v l) (move_cx v c) = move v (set_and_assign l c) /\ in_set (D + 1) (set_and_assign l c).
  Proof.
    intros D0 S Hl Hc. unfold set_and_assign.
    destruct (cx_lower_sim D v ltac:(lia) c Hc) as [E1 K1]. destruct (cx_upper_sim D v ltac:(lia) c Hc) as [E2 K2].
    rewrite E1, E2. assert (Hl' : in_set (D + 1) l) by (eapply in_set_up; [|exact Hl]; lia).
    destruct (set_after_sim (D + 1) v ltac:(lia) l (cx_upper c) Hl' K2) as [E3 K3]. rewrite E3. cbn [fst].
    destruct (set_before_sim (D + 1) v ltac:(lia) _ (cx_lower c) K3 K1) as [E4 K4]. rewrite E4. auto.
  Qed.
  Lemma slot_and_move D s w : 0 <= D -> D + 2 + Z.abs v < oo -> in_set D s -> in_w D w ->
    slot_and (move v s) (move_w v w) = omap (move v) (slot_and s w) /\
    forall r, slot_and s w = Ret r -> in_set (D + 1) r.
  Proof.
    intros D0 S Hs Hw. destruct w as [c|l]; cbn [slot_and move_w in_w] in *.
    - destruct (and_assign_move D s c) as [E K]; auto. rewrite E. split; [reflexivity|].
      intros r M. assert (set_and_assign s c = r) by (injection M; auto). now subst r.
    - destruct (and_sim D v ltac:(lia) s l Hs Hw) as [E K]. split; auto.
      intros r M. eapply in_set_up; [|apply K; exact M]. lia.
  Qed.
  Lemma w_contains_move D w s : D + 1 + Z.abs v < oo -> in_w D w -> in_set D s ->
    w_contains (move_w v w) (move v s) = w_contains w s /\ w_overlaps (move_w v w) (move v s) = w_overlaps w s.
  Proof.
    intros S Hw Hs. destruct w as [c|l]; cbn [w_contains w_overlaps move_w in_w] in *; split.
    - now apply (cx_contains_sim D v S c (WSet s)).
    - now apply (overlaps_cx_sim D v S s c).
    - now apply (contains_sim D v S l s).
    - now apply (overlaps_sim D v S l s).
  Qed.
  Lemma retain_move D ls i w : 0 <= i -> 0 <= D -> D + 2 * B + 2 + Z.abs v < oo -> in_slots D ls -> in_w D w ->
    sc_retain p (mkS g (move_slots v ls)) i (move_w v w) =
      omap (fun '(s, r) => (move_s v s, r)) (sc_retain p (mkS g ls) i w) /\
    forall s r, sc_retain p (mkS g ls) i w = Ret (s, r) -> sc_graph s = g /\ in_slots (D + 2 * B + 1) (sc_slots s).
  Proof.
    intros Hi D0 S H Hw. unfold sc_retain. cbn [sc_slots sc_graph]. unfold move_slots at 1. rewrite map_length.
    destruct (assert_ (i <? Z.of_nat (length ls))); cbn [bind omap]; try (split; [reflexivity|discriminate]).
    rewrite slot_get_move. pose proof (slot_get_in D ls i) as Ki.
    destruct (slot_get ls i) as [si| | |]; cbn [bind omap]; try (split; [reflexivity|discriminate]).
    specialize (Ki si H eq_refl).
    destruct (w_contains_move D w si) as [E1 E2]; auto; [lia|]. rewrite E1, E2.
    assert (U : in_slots (D + 2 * B + 1) ls) by (eapply in_slots_up; [|exact H]; lia).
    destruct (w_contains w si); [split; [reflexivity|]; intros s r M; inv M; auto|].
    destruct (w_overlaps w si); cbn [negb]; [|split; [reflexivity|]; intros s r M; inv M; auto].
    destruct (slot_and_move D si w) as [E3 K3]; auto; [lia|]. rewrite E3.
    destruct (slot_and si w) as [ri| | |]; cbn [bind omap]; try (split; [reflexivity|discriminate]).
    destruct (slot_set_move (D + 1) v ls i ri) as [E4 K4]; auto.
    { eapply in_slots_up; [|exact H]. lia. }
    rewrite E4. destruct (slot_set ls i ri) as [l1| | |]; cbn [bind omap]; try (split; [reflexivity|discriminate]).
    destruct (propagate_move (D + 1) l1 i) as [E5 K5]; auto; try lia.
    rewrite E5. destruct (sc_propagate p g l1 i) as [l2| | |]; cbn [bind omap]; try (split; [reflexivity|discriminate]).
    split; [reflexivity|]. intros s r M. inv M. cbn [sc_graph sc_slots]. split; auto.
    eapply in_slots_up; [|apply K5; reflexivity]. lia.
  Qed.
  Lemma h_not_move D h : D + 1 + Z.abs v < oo -> in_h D h ->
    h_not (move_h v h) = move v (h_not h) /\ in_set (D + 1) (h_not h).
  Proof.
    intros S. destruct h; cbn [in_h move_h h_not]; intros H.
    - now apply not_sim.
    - now apply iv_not_sim.
    - now apply pt_not_sim.
  Qed.
  Lemma remove_move D ls i h : 0 <= i -> 0 <= D -> D + 2 * B + 3 + Z.abs v < oo -> in_slots D ls -> in_h D h ->
    sc_remove p (mkS g (move_slots v ls)) i (move_h v h) =
      omap (fun '(s, r) => (move_s v s, r)) (sc_remove p (mkS g ls) i h) /\
    forall s r, sc_remove p (mkS g ls) i h = Ret (s, r) -> sc_graph s = g /\ in_slots (D + 2 * B + 2) (sc_slots s).
  Proof.
    intros Hi D0 S H Hh. unfold sc_remove. destruct (h_not_move D h) as [E K]; auto; [lia|]. rewrite E.
    destruct (retain_move (D + 1) ls i (WSet (h_not h))) as [E1 K1]; auto; try lia.
    { eapply in_slots_up; [|exact H]. lia. }
    split; [exact E1|]. intros s r M. destruct (K1 s r M) as [A1 A2]. split; auto.
    eapply in_slots_up; [|exact A2]. lia.
  Qed.
  Lemma retain_all_move w : forall ns D ls res, 0 <= D -> in_slots D ls -> in_w D w ->
    D + Z.of_nat (length ns) * (2 * B + 2) + 2 + Z.abs v < oo ->
    let F := fun '(s, res) n =>
      r <- sc_retain p s (Z.of_nat n) w ;;
      let '(s1, x) := r in
      match x with
      | Unchanged => Ret (s1, res)
      | Propagated => Ret (s1, Propagated)
      | Recovered | Fatal => Panic
      end in
    let F' := fun '(s, res) n =>
      r <- sc_retain p s (Z.of_nat n) (move_w v w) ;;
      let '(s1, x) := r in
      match x with
      | Unchanged => Ret (s1, res)
      | Propagated => Ret (s1, Propagated)
      | Recovered | Fatal => Panic
      end in
    ofold F' (mkS g (move_slots v ls), res) ns = omap (fun '(s, r) => (move_s v s, r)) (ofold F (mkS g ls, res) ns) /\
    forall s r, ofold F (mkS g ls, res) ns = Ret (s, r) ->
      sc_graph s = g /\ in_slots (D + Z.of_nat (length ns) * (2 * B + 2)) (sc_slots s).
  Proof.
    induction ns as [|n r IH]; intros D ls res D0 H Hw S F F'.
    - split; [reflexivity|]. intros s x M. inv M. cbn [sc_graph sc_slots length]. split; auto.
      eapply in_slots_up; [|exact H]. lia.
    - cbn [length] in S. rewrite Nat2Z.inj_succ in S. cbn [ofold]. unfold F at 1 3, F' at 1.
      assert (0 <= Z.of_nat (length r) * (2 * B + 2)) by (apply Z.mul_nonneg_nonneg; lia).
      destruct (retain_move D ls (Z.of_nat n) w) as [E K]; auto; try lia.
      rewrite E. destruct (sc_retain p (mkS g ls) (Z.of_nat n) w) as [[s1 x]| | |]; cbn [bind omap];
        try (split; [reflexivity|discriminate]).
      destruct (K s1 x eq_refl) as [K1 K2]. destruct s1 as [g1 l1]. cbn [sc_graph sc_slots] in *. subst g1.
      assert (U : in_slots (D + (2 * B + 2)) l1) by (eapply in_slots_up; [|exact K2]; lia).
      assert (Uw : in_w (D + (2 * B + 2)) w).
      { destruct w as [c|l]; cbn in *; [|eapply in_set_up; [|exact Hw]; lia].
        destruct c; cbn in *; try (eapply within_up; [|exact Hw]; lia);
          try (destruct Hw; split; (eapply within_up; [|eassumption]; lia)). }
      cbn [length]. rewrite Nat2Z.inj_succ.
      replace (D + Z.succ (Z.of_nat (length r)) * (2 * B + 2)) with
        (D + (2 * B + 2) + Z.of_nat (length r) * (2 * B + 2)) by lia.
      destruct x; cbn [bind omap]; try (split; [reflexivity|discriminate]);
        (refine (IH (D + (2 * B + 2)) l1 _ _ _ _ _); auto; lia).
  Qed.
End Scheduler.
