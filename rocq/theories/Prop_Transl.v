(** C19, C28: translations of intervals and sets. *)
From Verif Require Import Machine TimeValue Spec Tac TimeValueProofs Interval Iter TimeSet Relns
  Transl SpecSets SetProofs CollectProofs Prop_Interval SetOpsProofs Prop_TimeSet.

(** ** Helpers *)

Definition lsum (a b : Z) : Z := if (a =? - oo) || (b =? - oo) then - oo else clamp (a + b).
Definition usum (a b : Z) : Z := if (a =? oo) || (b =? oo) then oo else clamp (a + b).

Lemma add_lower a b : valid a -> valid b -> a < oo -> b < oo -> tv_add a b = Ret (lsum a b).
Proof. intros. rewrite tv_add_spec by auto. unfold lsum. pts. tests; auto; f_equal; lia. Qed.
Lemma add_upper a b : valid a -> valid b -> - oo < a -> - oo < b -> tv_add a b = Ret (usum a b).
Proof. intros. rewrite tv_add_spec by auto. unfold usum. pts. tests; auto; f_equal; lia. Qed.

(** the interval of the sums, when there is one *)
Lemma checked_sum p i j : wf_iv i -> wf_iv j ->
  let lo := lsum (lower i) (lower j) in let up := usum (upper i) (upper j) in
  (exists x, finite x /\ lo <= x <= up) /\ iv_checked p lo up = Ret (mkI lo up) /\ wf_iv (mkI lo up)
  \/ (forall x, ~ (finite x /\ lo <= x <= up)) /\
     iv_checked p lo up = match p with Debug => Panic | Release => Ret iv_empty end.
Proof.
  intros Wi Wj lo up.
  assert (V : valid lo /\ valid up /\ lo <= up).
  { unfold lo, up, lsum, usum. unfold wf_iv in *. pts. tests; lia. }
  clearbody lo up. destruct V as (V1 & V2 & V3).
  destruct (Z.eq_dec lo oo) as [E|E]; [right|destruct (Z.eq_dec up (- oo)) as [E'|E']; [right|left]].
  - split; [intros x; pts; lia|]. assert (up = oo) by (unfold valid in *; lia). subst. destruct p; reflexivity.
  - split; [intros x; pts; lia|]. assert (lo = - oo) by (unfold valid in *; lia). subst. destruct p; reflexivity.
  - split; [|split].
    + exists (Z.max lo (- oo + 1)). pts. lia.
    + unfold iv_checked, iv_new. destruct (Z.compare_spec lo up); [| |lia].
      * subst. unfold iv_singleton. replace (is_finite up) with true by (pts; lia).
        unfold iv_is_empty; cbn [lower]. replace (is_future_infinite up) with false by (pts; lia).
        destruct p; reflexivity.
      * unfold iv_is_empty; cbn [lower]. replace (is_future_infinite lo) with false by (pts; lia).
        destruct p; reflexivity.
    + unfold wf_iv, valid in *; cbn. lia.
Qed.

Lemma sum_bounds i j x : wf_iv i -> wf_iv j -> finite x ->
  (lsum (lower i) (lower j) <= x <= usum (upper i) (upper j) <->
   exists y z, In_ext y i /\ In_ext z j /\ x = y + z).
Proof.
  intros Wi Wj Fx. unfold In_ext, lsum, usum. unfold wf_iv in *. split.
  - intros H.
    assert (H' : (lower i = - oo \/ lower j = - oo \/ lower i + lower j <= x) /\
                 (upper i = oo \/ upper j = oo \/ x <= upper i + upper j)) by (pts; tests_in H; lia).
    clear H.
    set (a := if lower i =? - oo then if upper j =? oo then Z.min 0
                (if upper i =? oo then if lower j =? - oo then 0 else x - lower j
                 else if lower j =? - oo then upper i else Z.min (upper i) (x - lower j))
                else x - upper j
              else if upper j =? oo then lower i else Z.max (lower i) (x - upper j)).
    exists a, (x - a). unfold a. clear a. pts. split; [|split]; [| |lia]; tests; lia.
  - intros (y & z & [Hy1 Hy2] & [Hz1 Hz2] & ->). pts. tests; lia.
Qed.

Lemma add_span_eq p i j : wf_iv i -> wf_iv j ->
  iv_add_span p i j = iv_checked p (lsum (lower i) (lower j)) (usum (upper i) (upper j)).
Proof.
  intros Wi Wj. unfold iv_add_span. unfold wf_iv in *.
  rewrite add_lower, add_upper by (unfold valid; lia). reflexivity.
Qed.

(** ** C19 *)

(** [I + J] and [I - J] are the sums and the differences of a point of [I] and a point of
    [J]; if no such value is a time value, debug builds panic and release builds return the
    empty interval. *)
Theorem C19_add_span : forall p i j, wf_iv i -> wf_iv j ->
  let S x := finite x /\ exists y z, In_ext y i /\ In_ext z j /\ x = y + z in
  ((exists x, S x) -> exists k, iv_add_span p i j = Ret k /\ wf_iv k /\ forall x, In_iv x k <-> S x) /\
  ((forall x, ~ S x) ->
     iv_add_span p i j = match p with Debug => Panic | Release => Ret iv_empty end).
Proof.
  intros p i j Wi Wj S. rewrite add_span_eq by auto.
  assert (B : forall x, S x <-> finite x /\
    lsum (lower i) (lower j) <= x <= usum (upper i) (upper j)).
  { intros x. unfold S. split; intros [F H]; (split; [auto|]); apply (sum_bounds i j x Wi Wj F); auto. }
  destruct (checked_sum p i j Wi Wj) as [(X & E & W)|[X E]]; rewrite E; split; auto.
  - intros _. eexists. split; [reflexivity|]. split; auto. intros x. rewrite B. reflexivity.
  - intros N. destruct X as [x X]. apply B in X. now apply N in X.
  - intros [x H]. apply B in H. now apply X in H.
Qed.
Theorem C19_sub_span : forall p i j, wf_iv i -> wf_iv j ->
  let S x := finite x /\ exists y z, In_ext y i /\ In_ext z j /\ x = y - z in
  ((exists x, S x) -> exists k, iv_sub_span p i j = Ret k /\ wf_iv k /\ forall x, In_iv x k <-> S x) /\
  ((forall x, ~ S x) ->
     iv_sub_span p i j = match p with Debug => Panic | Release => Ret iv_empty end).
Proof.
  intros p i j Wi Wj S.
  assert (Wn : wf_iv (iv_neg j)) by (apply (proj2 (proj2 (C21_neg j 0 ltac:(iv; lia)))); auto).
  change (iv_sub_span p i j) with (iv_add_span p i (iv_neg j)).
  assert (E : forall x, S x <-> finite x /\
    exists y z, In_ext y i /\ In_ext z (iv_neg j) /\ x = y + z).
  { intros x. unfold S. split; intros (F & y & z & Hy & Hz & ->); (split; [exact F|]);
      exists y, (- z); (split; [exact Hy|]); (split; [|lia]);
      unfold In_ext, iv_neg in *; cbn [lower upper] in *; pts; lia. }
  destruct (C19_add_span p i (iv_neg j) Wi Wn) as [H1 H2]. split.
  - intros [x H]. destruct H1 as (k & Ek & Wk & D).
    { exists x. now apply E. }
    exists k. split; auto. split; auto. intros y. rewrite D, E. reflexivity.
  - intros N. apply H2. intros x H. apply (N x). now apply E.
Qed.
Example C19_span_case : iv_add_span Debug (mkI 1 5) (mkI (-2) 10) = Ret (mkI (-1) 15) /\
  iv_sub_span Debug (mkI 1 5) (mkI (-2) oo) = Ret (mkI (- oo) 7) /\
  iv_add_span Debug (mkI 1 5) (mkI (oo - 1) (oo - 1)) = Panic /\
  iv_add_span Release (mkI 1 5) (mkI (oo - 1) (oo - 1)) = Ret iv_empty.
Proof. vm_compute. auto. Qed.

(** Moving by a duration, on either side, and reflecting through a point. *)
Lemma ext_single y v : finite v -> (In_ext y (mkI v v) <-> y = v).
Proof. intros. unfold In_ext; cbn [lower upper]. unfold finite in *. lia. Qed.
Lemma add_v_span p i v : wf_iv i -> finite v -> iv_add_v p i v = iv_add_span p i (mkI v v).
Proof. reflexivity. Qed.
Theorem C19_add_v : forall p i v, wf_iv i -> finite v ->
  ((exists x, finite x /\ In_ext (x - v) i) ->
     exists k, iv_add_v p i v = Ret k /\ wf_iv k /\
       (forall x, In_iv x k <-> finite x /\ In_ext (x - v) i)) /\
  ((forall x, finite x -> ~ In_ext (x - v) i) ->
     iv_add_v p i v = match p with Debug => Panic | Release => Ret iv_empty end).
Proof.
  intros p i v W F. rewrite add_v_span by auto.
  assert (Wv : wf_iv (mkI v v)) by (unfold wf_iv, finite in *; cbn; lia).
  assert (E : forall x, (finite x /\ exists y z, In_ext y i /\ In_ext z (mkI v v) /\ x = y + z) <->
                        finite x /\ In_ext (x - v) i).
  { intros x. split; intros [Fx H]; (split; [auto|]).
    - destruct H as (y & z & Hy & Hz & ->). apply ext_single in Hz; auto. subst.
      now replace (y + v - v) with y by lia.
    - exists (x - v), v. split; auto. split; [apply ext_single; auto|lia]. }
  destruct (C19_add_span p i (mkI v v) W Wv) as [H1 H2]. split.
  - intros [x H]. apply E in H. destruct H1 as (k & Ek & Wk & D); [eauto|].
    exists k. split; auto. split; auto. intros y. rewrite D. apply E.
  - intros N. apply H2. intros x H. apply E in H as [Fx H]. exact (N x Fx H).
Qed.
Theorem C19_sub_v : forall p i v, wf_iv i -> finite v ->
  ((exists x, finite x /\ In_ext (x + v) i) ->
     exists k, iv_sub_v p i v = Ret k /\ wf_iv k /\
       (forall x, In_iv x k <-> finite x /\ In_ext (x + v) i)) /\
  ((forall x, finite x -> ~ In_ext (x + v) i) ->
     iv_sub_v p i v = match p with Debug => Panic | Release => Ret iv_empty end).
Proof.
  intros p i v W F. change (iv_sub_v p i v) with (iv_add_v p i (- v)).
  assert (F' : finite (- v)) by (unfold finite in *; lia).
  destruct (C19_add_v p i (- v) W F') as [H1 H2].
  assert (E : forall x, x - - v = x + v) by (intros; lia). split.
  - intros [x H]. destruct H1 as (k & Ek & Wk & D); [exists x; now rewrite E|].
    exists k. split; auto. split; auto. intros y. rewrite D, E. reflexivity.
  - intros N. apply H2. intros x. rewrite E. auto.
Qed.
Theorem C19_v_sub : forall p i v, wf_iv i -> finite v ->
  ((exists x, finite x /\ In_ext (v - x) i) ->
     exists k, v_sub_iv p v i = Ret k /\ wf_iv k /\
       (forall x, In_iv x k <-> finite x /\ In_ext (v - x) i)) /\
  ((forall x, finite x -> ~ In_ext (v - x) i) ->
     v_sub_iv p v i = match p with Debug => Panic | Release => Ret iv_empty end).
Proof.
  intros p i v W F. unfold v_sub_iv.
  assert (Wn : wf_iv (iv_neg i)) by (apply (proj2 (proj2 (C21_neg i 0 ltac:(iv; lia)))); auto).
  destruct (C19_add_v p (iv_neg i) v Wn F) as [H1 H2].
  assert (E : forall x, In_ext (x - v) (iv_neg i) <-> In_ext (v - x) i).
  { intros x. unfold In_ext, iv_neg; cbn [lower upper]. pts. lia. }
  split.
  - intros [x H]. destruct H1 as (k & Ek & Wk & D); [exists x; now rewrite E|].
    exists k. split; auto. split; auto. intros y. rewrite D, E. reflexivity.
  - intros N. apply H2. intros x Fx. rewrite E. auto.
Qed.
Example C19_v_case : iv_add_v Debug (mkI 1 oo) 4 = Ret (mkI 5 oo) /\
  iv_sub_v Debug (mkI 1 7) 4 = Ret (mkI (-3) 3) /\ v_sub_iv Debug 10 (mkI 1 7) = Ret (mkI 3 9).
Proof. vm_compute. auto. Qed.

(** A date plus or minus a span, a span plus or minus a date, a slot minus a slot or a date:
    the same functions. *)
Theorem C19_dates : forall p t j, wf_iv j -> finite t ->
  ts_add_span p t j = iv_add_v p j t /\ ts_sub_span p t j = v_sub_iv p t j /\
  span_sub_ts p j t = iv_sub_v p j t.
Proof.
  intros p t j W F.
  assert (K : forall a, valid a -> tv_add t a = tv_add a t).
  { intros a V. apply tv_add_comm; auto. unfold valid, finite in *; lia. }
  assert (K' : forall a, valid a -> tv_add (- t) a = tv_add a (- t)).
  { intros a V. apply tv_add_comm; auto; unfold valid, finite in *; lia. }
  unfold wf_iv in W. split; [|split].
  - unfold ts_add_span, iv_add_v, ts_add_tv. rewrite !K by (unfold valid; lia). reflexivity.
  - unfold ts_sub_span, v_sub_iv, iv_add_v, iv_neg, ts_sub_tv, tv_sub; cbn [lower upper].
    rewrite !K by (unfold tv_neg, valid; lia). reflexivity.
  - unfold span_sub_ts, ts_add_span, iv_sub_v, ts_add_tv, ts_neg, tv_sub, tv_neg.
    rewrite !K' by (unfold valid; lia). reflexivity.
Qed.
Example C19_dates_case : ts_add_span Debug 100 (mkI 1 7) = Ret (mkI 101 107) /\
  ts_sub_span Debug 100 (mkI 1 7) = Ret (mkI 93 99) /\ span_sub_ts Debug (mkI 1 7) 100 = Ret (mkI (-99) (-93)).
Proof. vm_compute. auto. Qed.

(** By an infinite duration: [+oo] panics when the interval has no lower bound (an
    undefined sum), otherwise the result is out of range as above. *)
Theorem C19_add_infinite : forall p i, wf_iv i ->
  iv_add_v p i oo = (if lower i =? - oo then Panic else match p with Debug => Panic | Release => Ret iv_empty end) /\
  iv_add_v p i (- oo) = (if upper i =? oo then Panic else match p with Debug => Panic | Release => Ret iv_empty end).
Proof.
  intros p i W. unfold iv_add_v. unfold wf_iv in W. rewrite !tv_add_spec by (pts; lia).
  split; (destruct p; tests; try lia; cbn [bind]; try reflexivity); exfalso; pts; lia.
Qed.

(** The assigning operators.  Full statement: the same interval as [+] and [-].  Proved: the
    points are right whenever they do not panic, and they panic exactly when the result is
    one finite point (the assertion is inverted, see below). *)
Theorem C19_assign_partial : forall i v, wf_iv i -> finite v ->
  (iv_add_assign_v i v = Panic <-> lower i = upper i /\ finite (lower i + v)) /\
  (forall k, iv_add_assign_v i v = Ret k ->
     forall x, In_iv x k <-> finite x /\ In_ext (x - v) i) /\
  (iv_sub_assign_v i v = Panic <-> lower i = upper i /\ finite (lower i - v)) /\
  (forall k, iv_sub_assign_v i v = Ret k ->
     forall x, In_iv x k <-> finite x /\ In_ext (x + v) i).
Proof.
  assert (G : forall i v, wf_iv i -> finite v ->
    (iv_add_assign_v i v = Panic <-> lower i = upper i /\ finite (lower i + v)) /\
    (forall k, iv_add_assign_v i v = Ret k ->
       forall x, In_iv x k <-> finite x /\ In_ext (x - v) i)).
  { intros i v W F. unfold iv_add_assign_v, iv_asserted, assert_. unfold wf_iv in W.
    rewrite !tv_add_shift by (auto; unfold valid; lia). cbn [bind].
    destruct (negb (shift (lower i) v =? shift (upper i) v) || negb (is_finite (shift (lower i) v))) eqn:E;
      cbn [bind]; split.
    - split; [discriminate|]. unfold shift in E. intros [E1 E2]. rewrite <- E1 in E.
      pts. exfalso. tests_in E; lia.
    - intros k H x. inv H. unfold In_iv, In_ext, shift; cbn [lower upper]. pts. clear E. tests; lia.
    - split; [|reflexivity]. intros _. unfold shift in E. pts. tests_in E; lia.
    - discriminate. }
  intros i v W F. assert (F' : finite (- v)) by (unfold finite in *; lia).
  destruct (G i v W F) as [G1 G2]. destruct (G i (- v) W F') as [G3 G4].
  split; [exact G1|]. split; [exact G2|].
  change (iv_sub_assign_v i v) with (iv_add_assign_v i (- v)). split.
  - rewrite G3. replace (lower i + - v) with (lower i - v) by lia. reflexivity.
  - intros k H x. rewrite (G4 k H). replace (x - - v) with (x + v) by lia. reflexivity.
Qed.
Example C19_assign_case : iv_add_assign_v (mkI 1 5) 3 = Ret (mkI 4 8).
Proof. reflexivity. Qed.
Theorem C19_assign_refuted : iv_add_v Debug (mkI 5 5) 1 = Ret (mkI 6 6) /\
  iv_add_assign_v (mkI 5 5) 1 = Panic /\ iv_sub_assign_v (mkI 5 5) 1 = Panic /\
  iv_add_assign_span (mkI 5 5) (mkI 1 1) = Panic /\
  iv_add_assign_v (mkI 5 6) (oo - 1) = Ret (mkI oo oo).
Proof. vm_compute. auto 10. Qed.
(** Partial: only if the call returns (C19_assign_refuted). *)
Theorem C19_assign_span_partial : forall i j k, wf_iv i -> wf_iv j ->
  (iv_add_assign_span i j = Ret k -> forall x, In_iv x k <-> finite x /\
     exists y z, In_ext y i /\ In_ext z j /\ x = y + z) /\
  (iv_sub_assign_span i j = Ret k -> forall x, In_iv x k <-> finite x /\
     exists y z, In_ext y i /\ In_ext z j /\ x = y - z).
Proof.
  assert (G : forall i j k, wf_iv i -> wf_iv j ->
    iv_add_assign_span i j = Ret k -> forall x, In_iv x k <-> finite x /\
     exists y z, In_ext y i /\ In_ext z j /\ x = y + z).
  { intros i j k Wi Wj H x. unfold iv_add_assign_span in H.
    rewrite add_lower, add_upper in H by (unfold wf_iv, valid in *; lia). cbn [bind] in H.
    unfold iv_asserted, assert_ in H. destruct (_ || _) in H; [|discriminate].
    cbn [bind] in H. inv H. unfold In_iv; cbn [lower upper].
    split; intros [F H]; (split; [auto|]); apply (sum_bounds i j x Wi Wj F); auto. }
  intros i j k Wi Wj. split; [now apply G|].
  assert (Wn : wf_iv (iv_neg j)) by (apply (proj2 (proj2 (C21_neg j 0 ltac:(iv; lia)))); auto).
  intros H x. change (iv_sub_assign_span i j) with (iv_add_assign_span i (iv_neg j)) in H.
  rewrite (G i (iv_neg j) k Wi Wn H).
  split; intros (F & y & z & Hy & Hz & ->); (split; [exact F|]);
      exists y, (- z); (split; [exact Hy|]); (split; [|lia]);
      unfold In_ext, iv_neg in *; cbn [lower upper] in *; pts; lia.
Qed.
Example C19_assign_span_case : iv_add_assign_span (mkI 1 5) (mkI 0 3) = Ret (mkI 1 8) /\
  iv_sub_assign_span (mkI 1 5) (mkI 0 3) = Ret (mkI (-2) 5).
Proof. vm_compute. auto. Qed.

(** ** C28 *)

Lemma omapM_Ret {A B} (f : A -> outcome B) l : forall out,
  omapM f l = Ret out <-> Forall2 (fun a b => f a = Ret b) l out.
Proof.
  induction l as [|a r IH]; intros out; cbn [omapM].
  - split; intros H; inv H; constructor.
  - destruct (f a) as [b| | |] eqn:E; cbn [bind];
      try (split; intros H; [discriminate|inv H; congruence]).
    destruct (omapM f r) as [bs| | |] eqn:R; cbn [bind].
    + split; intros H; inv H; [constructor; auto; now apply IH|].
      rewrite E in H2. inv H2. apply IH in H4. inv H4. reflexivity.
    + split; intros H; [discriminate|]. inv H. apply IH in H4. discriminate.
    + split; intros H; [discriminate|]. inv H. apply IH in H4. discriminate.
    + split; intros H; [discriminate|]. inv H. apply IH in H4. discriminate.
Qed.
Lemma omapM_Panic {A B} (f : A -> outcome B) l :
  (forall a, In a l -> f a = Panic \/ exists b, f a = Ret b) ->
  (exists a, In a l /\ f a = Panic) -> omapM f l = Panic.
Proof.
  induction l as [|a r IH]; intros H (x & Hx & E); [destruct Hx|]. cbn [omapM].
  destruct (H a (or_introl eq_refl)) as [E'|[b E']]; rewrite E'; cbn [bind]; auto.
  destruct Hx as [->|Hx]; [congruence|].
  rewrite IH; auto. - intros; apply H; cbn; auto. - eauto.
Qed.
Lemma omapM_ext {A B} (f g : A -> outcome B) l : (forall a, In a l -> f a = g a) ->
  omapM f l = omapM g l.
Proof.
  induction l as [|a r IH]; intros H; auto. cbn [omapM]. rewrite H by (cbn; auto).
  rewrite IH by (intros; apply H; cbn; auto). reflexivity.
Qed.

Definition moved (i : interval) (v : Z) : interval := mkI (shift (lower i) v) (shift (upper i) v).
Lemma checked_moved p i v : wf_iv i -> finite v ->
  (exists x, finite x /\ In_ext (x - v) i) /\ iv_add_v p i v = Ret (moved i v) /\ wf_iv (moved i v) \/
  (forall x, finite x -> ~ In_ext (x - v) i) /\
  iv_add_v p i v = match p with Debug => Panic | Release => Ret iv_empty end.
Proof.
  intros W F. assert (Wv : wf_iv (mkI v v)) by (unfold wf_iv, finite in *; cbn; lia).
  pose proof (checked_sum p i (mkI v v) W Wv) as H. cbn [lower upper] in H.
  rewrite add_v_span, add_span_eq by auto. cbn [lower upper].
  assert (El : lsum (lower i) v = shift (lower i) v).
  { unfold lsum, shift. unfold wf_iv in W. pts. tests; lia. }
  assert (Eu : usum (upper i) v = shift (upper i) v).
  { unfold usum, shift. unfold wf_iv in W. pts. tests; lia. }
  rewrite El, Eu in *.
  assert (B : forall x, finite x ->
    (shift (lower i) v <= x <= shift (upper i) v <-> In_ext (x - v) i)).
  { intros x Fx. unfold In_ext, shift. unfold wf_iv in W. pts. tests; lia. }
  destruct H as [([x [Fx H]] & E & W')|[H E]]; [left|right].
  - split; [exists x; split; auto; now apply B|]. auto.
  - split; auto. intros x Fx H'. apply (H x). split; auto. now apply B.
Qed.

(** The points of a set moved by [v]. *)
Definition Moved (l : list interval) (v x : Z) : Prop := finite x /\ In_sext (x - v) l.
(** every piece keeps a representable point *)
Definition stays (l : list interval) (v : Z) : Prop :=
  forall i, In i l -> exists x, finite x /\ In_ext (x - v) i.

Lemma shift_gap u a v : valid u -> valid a -> finite v -> u + 1 < a ->
  - oo < shift u v -> shift a v < oo -> shift u v + 1 < shift a v.
Proof.
  intros Vu Va F G. unfold shift.
  destruct (u =? oo) eqn:E1, (a =? oo) eqn:E2, (u =? - oo) eqn:E3, (a =? - oo) eqn:E4;
    unfold valid, finite, clamp in *; lia.
Qed.
Lemma moved_canon l v : finite v -> stays l v -> forall b c,
  canon_from b l -> (forall i, In i l -> wf_iv (moved i v)) ->
  (forall a, b < a -> valid a -> shift a v < oo -> c < shift a v) -> canon_from c (map (fun i => moved i v) l).
Proof.
  intros F. induction l as [|i r IH]; intros S b c C W H; [exact I|].
  destruct C as (Lb & Wi & C). cbn [map canon_from].
  pose proof (W i (or_introl eq_refl)) as Wm.
  split; [|split].
  - unfold moved in *; cbn [lower]. apply H; unfold wf_iv, valid in *; cbn in *; lia.
  - auto.
  - apply (IH ltac:(intros k Hk; apply S; cbn; auto) (upper i + 1)); auto.
    + intros k Hk. apply W. cbn; auto.
    + intros a La Va Sa. unfold moved in *; cbn [upper]. clear - La Va Sa Wm Wi F.
      unfold wf_iv in *; cbn [lower upper] in *. apply shift_gap; unfold valid; auto; lia.
Qed.

Lemma set_add_v_stays p l v : canonical l -> finite v -> stays l v ->
  set_add_v p l v = Ret (map (fun i => moved i v) l) /\ canonical (map (fun i => moved i v) l).
Proof.
  intros C F S.
  assert (K : forall i, In i l -> iv_add_v p i v = Ret (moved i v) /\ wf_iv (moved i v)).
  { intros i Hi. pose proof (canonical_In _ _ C Hi) as W.
    destruct (checked_moved p i v W F) as [H|[H _]]; [tauto|].
    destruct (S i Hi) as (x & Fx & Hx). destruct (H x Fx Hx). }
  split.
  - unfold set_add_v. apply omapM_Ret. clear - K. induction l; constructor.
    + apply K. cbn; auto. + apply IHl. intros; apply K; cbn; auto.
  - apply canonical_from_iff. apply canonical_from_iff in C.
    eapply moved_canon; eauto; [intros i Hi; apply K; auto|].
    intros a La Va Sa. unfold shift. pts. tests; lia.
Qed.
Lemma moved_points i v x : wf_iv i -> finite v ->
  (In_iv x (moved i v) <-> finite x /\ In_ext (x - v) i).
Proof.
  intros W F. unfold In_iv, In_ext, moved, shift; cbn [lower upper]. unfold wf_iv in W. pts. tests; lia.
Qed.
Lemma moved_set_points l v x : canonical l -> finite v ->
  (In_set x (map (fun i => moved i v) l) <-> Moved l v x).
Proof.
  intros C F. unfold Moved, In_sext. split.
  - intros (k & Hk & Hx). apply in_map_iff in Hk as (i & <- & Hi).
    apply moved_points in Hx as [Fx Hx]; eauto using canonical_In.
  - intros (Fx & i & Hi & Hx). exists (moved i v). split; [now apply (in_map (fun i => moved i v))|].
    apply moved_points; eauto using canonical_In.
Qed.

(** Set plus duration: exact and canonical when every piece keeps a representable point;
    otherwise debug builds panic, and release builds keep exact points but store an empty
    interval. *)
Theorem C28_add_v : forall p l v, canonical l -> finite v -> stays l v ->
  exists out, set_add_v p l v = Ret out /\ canonical out /\ length out = length l /\
    forall x, In_set x out <-> Moved l v x.
Proof.
  intros p l v C F S. destruct (set_add_v_stays p l v C F S) as [E C'].
  exists (map (fun i => moved i v) l). split; auto. split; auto.
  split; [apply map_length|]. intros x. now apply moved_set_points.
Qed.
(** Partial: the claim is that the call returns in all builds (C28_add_v_refuted). *)
Theorem C28_add_v_partial : forall l v, canonical l -> finite v -> ~ stays l v ->
  set_add_v Debug l v = Panic /\
  exists out, set_add_v Release l v = Ret out /\ forall x, In_set x out <-> Moved l v x.
Proof.
  intros l v C F N.
  assert (K : forall p i, In i l -> (exists x, finite x /\ In_ext (x - v) i) /\ iv_add_v p i v = Ret (moved i v) \/
    (forall x, finite x -> ~ In_ext (x - v) i) /\
     iv_add_v p i v = match p with Debug => Panic | Release => Ret iv_empty end).
  { intros p i Hi. destruct (checked_moved p i v (canonical_In _ _ C Hi) F); tauto. }
  split.
  - unfold set_add_v. apply omapM_Panic.
    + intros i Hi. destruct (K Debug i Hi) as [[_ E]|[_ E]]; rewrite E; eauto.
    + clear C. induction l as [|i r IH]; [exfalso; apply N; intros i []|].
      destruct (K Debug i (or_introl eq_refl)) as [[S _]|[_ E]].
      * destruct IH as (a & Ha & E).
        -- intros H. apply N. intros k [<-|Hk]; auto.
        -- intros; apply K; cbn; auto.
        -- exists a. cbn; auto.
      * exists i. cbn; auto.
  - assert (Pt : forall i, In i l -> exists k, iv_add_v Release i v = Ret k /\
      forall x, In_iv x k <-> finite x /\ In_ext (x - v) i).
    { intros i Hi. destruct (K Release i Hi) as [[_ E]|[H E]]; rewrite E; eexists; (split; [reflexivity|]).
      - intros x. apply moved_points; eauto using canonical_In.
      - intros x. split; [intros Hx; iv; lia|]. intros [Fx Hx]. destruct (H x Fx Hx). }
    clear C N K. unfold set_add_v, Moved. induction l as [|i r IH].
    + exists []. split; auto. intros x. rewrite In_set_nil. unfold In_sext. split; [tauto|]. now intros (_ & i & [] & _).
    + destruct (Pt i (or_introl eq_refl)) as (k & Ek & Dk).
      destruct IH as (out & Eo & Do); [intros; apply Pt; cbn; auto|].
      cbn [omapM]. rewrite Ek. cbn [bind]. rewrite Eo. cbn [bind].
      exists (k :: out). split; auto. intros x. rewrite In_set_cons, Dk, Do.
      unfold In_sext. split.
      * intros [[Fx H]|(Fx & j & Hj & H)]; (split; [auto|]); [exists i|exists j]; cbn; auto.
      * intros (Fx & j & [<-|Hj] & H); [left; auto|right; split; auto; exists j; auto].
Qed.
Theorem C28_add_v_refuted : exists l v out, canonical l /\ finite v /\
  set_add_v Release l v = Ret out /\ ~ canonical out.
Proof.
  exists [mkI 1 5; mkI (oo - 5) (oo - 3)], 10, [mkI 11 15; iv_empty].
  split; [cbn; iv; lia|]. split; [pts; lia|]. split; [reflexivity|]. vm_compute. intuition congruence.
Qed.
(** Set minus duration, set of spans plus or minus a date: the same translation. *)
Theorem C28_same_translation : forall p l v, canonical l -> finite v ->
  set_sub_v p l v = set_add_v p l (- v) /\
  spans_add_ts p l v = set_add_v p l v /\ spans_sub_ts p l v = set_add_v p l (- v).
Proof.
  intros p l v C F. split; [reflexivity|]. split; apply omapM_ext; intros i Hi;
    destruct (C19_dates p v i (canonical_In _ _ C Hi) F) as (E1 & _ & E2); auto.
Qed.
Example C28_v_case : set_add_v Debug [mkI 1 5; mkI 10 oo] 4 = Ret [mkI 5 9; mkI 14 oo] /\
  stays [mkI 1 5; mkI 10 oo] 4 /\ set_sub_v Debug [mkI (- oo) 5; mkI 10 20] 4 = Ret [mkI (- oo) 1; mkI 6 16].
Proof.
  split; [reflexivity|]. split; [|reflexivity].
  intros i [<-|[<-|[]]]; [exists 6|exists 15]; unfold In_ext; pts; cbn; lia.
Qed.


(** Date minus set of spans: the translation of the reflected set. *)
Lemma omapM_map {A B C} (f : B -> outcome C) (g : A -> B) l :
  omapM f (map g l) = omapM (fun a => f (g a)) l.
Proof. induction l; cbn [omapM map]; auto. now rewrite IHl. Qed.
Lemma ext_neg y i : In_ext y (iv_neg i) <-> In_ext (- y) i.
Proof. unfold In_ext, iv_neg; cbn [lower upper]. pts. lia. Qed.
Theorem C28_ts_sub_spans : forall p l t, canonical l -> finite t ->
  (forall i, In i l -> exists x, finite x /\ In_ext (t - x) i) ->
  exists out, ts_sub_spans p t l = Ret out /\ canonical out /\
    forall x, In_set x out <-> finite x /\ In_sext (t - x) l.
Proof.
  intros p l t C F S.
  assert (E : ts_sub_spans p t l = set_add_v p (set_neg l) t).
  { unfold ts_sub_spans, set_add_v, set_neg. rewrite omapM_map. apply omapM_ext. intros i Hi.
    apply in_rev in Hi. apply (C19_dates p t i (canonical_In _ _ C Hi) F). }
  rewrite E. destruct (C22_neg l C) as [Cn _].
  assert (N : forall x, In_sext (x - t) (set_neg l) <-> In_sext (t - x) l).
  { intros x. unfold In_sext, set_neg. split.
    - intros (k & Hk & H). apply in_map_iff in Hk as (i & <- & Hi). apply in_rev in Hi.
      exists i. split; auto. apply ext_neg in H. now replace (t - x) with (- (x - t)) by lia.
    - intros (i & Hi & H). exists (iv_neg i). split; [apply in_map, in_rev; now rewrite rev_involutive|].
      apply ext_neg. now replace (- (x - t)) with (t - x) by lia. }
  destruct (C28_add_v p (set_neg l) t Cn F) as (out & Eo & Co & _ & D).
  - intros k Hk. unfold set_neg in Hk. apply in_map_iff in Hk as (i & <- & Hi). apply in_rev in Hi.
    destruct (S i Hi) as (x & Fx & Hx). exists x. split; auto.
    apply ext_neg. now replace (- (x - t)) with (t - x) by lia.
  - exists out. split; auto. split; auto. intros x. rewrite D. unfold Moved. now rewrite N.
Qed.
Example C28_ts_sub_case : ts_sub_spans Debug 100 [mkI 1 5; mkI 10 20] = Ret [mkI 80 90; mkI 95 99].
Proof. reflexivity. Qed.

(** The assigning operators.  Full statement: the same as [+] and [-].  Proved: so it is
    if no piece is a single point (then they panic, see below). *)
Theorem C28_assign_partial : forall p l v, canonical l -> finite v -> stays l v ->
  (Forall (fun i => lower i <> upper i) l -> set_add_assign_v l v = set_add_v p l v) /\
  (~ Forall (fun i => lower i <> upper i) l -> set_add_assign_v l v = Panic) /\
  set_sub_assign_v l v = set_add_assign_v l (- v).
Proof.
  intros p l v C F S.
  assert (K : forall i, In i l -> (lower i <> upper i -> iv_add_assign_v i v = Ret (moved i v)) /\
                                  (lower i = upper i -> iv_add_assign_v i v = Panic)).
  { intros i Hi. pose proof (canonical_In _ _ C Hi) as W.
    destruct (C19_assign_partial i v W F) as (P & _). split.
    - intros N. unfold iv_add_assign_v, iv_asserted, assert_ in *.
      rewrite !tv_add_shift in * by (auto; unfold wf_iv, valid in *; lia). cbn [bind] in *.
      destruct (_ || _); cbn [bind] in *; [reflexivity|]. exfalso. apply N. apply P. reflexivity.
    - intros E. apply P. split; auto. destruct (S i Hi) as (x & Fx & Hx).
      unfold In_ext in Hx. unfold wf_iv, finite in *. lia. }
  split; [|split; [|reflexivity]].
  - intros N. rewrite (proj1 (set_add_v_stays p l v C F S)). apply omapM_Ret.
    clear - K N. induction N; constructor.
    + apply K; cbn; auto. + apply IHN. intros; apply K; cbn; auto.
  - intros N. apply omapM_Panic.
    + intros i Hi. destruct (K i Hi) as [K1 K2].
      destruct (Z.eq_dec (lower i) (upper i)); [left|right; eexists]; eauto.
    + clear - K N. induction l as [|i r IH]; [destruct N; constructor|].
      destruct (Z.eq_dec (lower i) (upper i)) as [E|E].
      * exists i. split; [cbn; auto|]. apply K; cbn; auto.
      * destruct IH as (a & Ha & Ea).
        -- intros; apply K; cbn; auto.
        -- intros H. apply N. constructor; auto.
        -- exists a. cbn; auto.
Qed.
Theorem C28_assign_refuted : exists l v r, canonical l /\ finite v /\ stays l v /\
  set_add_v Debug l v = Ret r /\ set_add_assign_v l v = Panic.
Proof.
  exists [mkI 5 5], 1, [mkI 6 6]. split; [cbn; iv; lia|]. split; [pts; lia|]. split.
  - intros i [<-|[]]. exists 6. unfold In_ext; cbn; pts; lia.
  - split; reflexivity.
Qed.

(** ** Sums with spans *)

(** sums (or differences) of a point of [l] and a point of [m] *)
Definition Sums (l m : list interval) (x : Z) : Prop :=
  finite x /\ exists y z, In_sext y l /\ In_sext z m /\ x = y + z.
Definition Diffs (l m : list interval) (x : Z) : Prop :=
  finite x /\ exists y z, In_sext y l /\ In_sext z m /\ x = y - z.

Lemma or_empty acc : canonical acc -> exists out, set_or_cx acc (CIv iv_empty) = Ret out /\
  canonical out /\ forall x, In_set x out <-> In_set x acc.
Proof.
  intros C. unfold set_or_cx; cbn [cx_into]. change (iv_into_iter iv_empty) with (@nil interval).
  destruct (union_list_spec acc [] C I) as (out & E & Co & D). rewrite E. cbn [bind].
  rewrite from_iter_canonical by auto. exists out. split; auto. split; auto.
  intros x. rewrite D, In_set_nil. cbn [union_kept]. tauto.
Qed.

Lemma Forall2_in_r {A B} (R : A -> B -> Prop) l m y : Forall2 R l m -> In y m ->
  exists x, In x l /\ R x y.
Proof.
  induction 1; intros []; [subst; eexists; cbn; eauto|].
  destruct (IHForall2 H1) as (x' & ? & ?). exists x'. cbn; auto.
Qed.
Definition nonempty (i : interval) : bool := negb (iv_is_empty i).
Lemma wf_nonempty_b i : wf_iv i -> nonempty i = true.
Proof. intros W. unfold nonempty, iv_is_empty. unfold wf_iv in W. pts. lia. Qed.

Lemma fold_or_forward (f : interval -> outcome interval) l : forall acc src xs,
  omapM f l = Ret xs -> Forall (fun k => wf_iv k \/ k = iv_empty) xs ->
  canonical acc -> Forall wf_iv src -> (forall x, In_set x acc <-> In_set x src) ->
  forward (src ++ filter nonempty xs) ->
  exists out, ofold (fun r i => x <- f i ;; set_or_cx r (CIv x)) acc l = Ret out /\ canonical out /\
    forall x, In_set x out <-> In_set x (src ++ filter nonempty xs).
Proof.
  induction l as [|a r IH]; intros acc src xs E W C Ws D O.
  - cbn in E. inv E. exists acc. cbn. rewrite app_nil_r. auto.
  - cbn [omapM] in E. cbn [ofold].
    destruct (f a) as [k| | |]; try discriminate. cbn [bind] in *.
    destruct (omapM f r) as [ks| | |] eqn:R; try discriminate. cbn [bind] in E. inv E. inv W.
    destruct H1 as [Wk| ->].
    + cbn [filter] in *. rewrite wf_nonempty_b in * by auto.
      assert (Fk : Forall (fun e => lower e <= upper k) src).
      { clear - O. induction src; [constructor|]. cbn in O. inv O. constructor; auto.
        rewrite Forall_forall in H1. apply H1. apply in_app_iff; cbn; auto. }
      destruct (set_or_cx_wf acc k C Wk) as (acc' & -> & C' & D'). cbn [bind].
      rewrite (forward_step acc k src) in D' by auto.
      destruct (IH acc' (src ++ [k]) ks eq_refl H2 C') as (out & Eo & Co & Do).
      * apply Forall_app; auto.
      * intros x. rewrite D', In_set_app, In_set_one, D. tauto.
      * now rewrite <- app_assoc.
      * exists out. split; auto. split; auto. intros x. rewrite Do, <- app_assoc. reflexivity.
    + change (filter nonempty (iv_empty :: ks)) with (filter nonempty ks) in *.
      destruct (or_empty acc C) as (acc' & -> & C' & D'). cbn [bind].
      apply (IH acc' src ks eq_refl H2 C'); auto. intros x. now rewrite D', D.
Qed.

Lemma forward_filter P l : forward l -> forward (filter P l).
Proof.
  unfold forward. induction 1 as [|a l F O IH]; cbn; [constructor|].
  destruct (P a); auto. constructor; auto. rewrite Forall_forall in *. intros x Hx.
  apply filter_In in Hx. apply F, Hx.
Qed.

(** the pieces of a sum, one by one *)
Lemma add_span_pieces p i j : wf_iv i -> wf_iv j ->
  (iv_add_span Release i j = Ret (mkI (lsum (lower i) (lower j)) (usum (upper i) (upper j))) /\
   (exists x, finite x /\ exists y z, In_ext y i /\ In_ext z j /\ x = y + z) /\
   wf_iv (mkI (lsum (lower i) (lower j)) (usum (upper i) (upper j))) \/
   iv_add_span Release i j = Ret iv_empty /\
   (forall x, ~ (finite x /\ exists y z, In_ext y i /\ In_ext z j /\ x = y + z))) /\
  ((exists x, finite x /\ exists y z, In_ext y i /\ In_ext z j /\ x = y + z) ->
    iv_add_span p i j = iv_add_span Release i j).
Proof.
  intros Wi Wj. rewrite !add_span_eq by auto.
  assert (B : forall x, (finite x /\ exists y z, In_ext y i /\ In_ext z j /\ x = y + z) <->
    finite x /\ lsum (lower i) (lower j) <= x <= usum (upper i) (upper j)).
  { intros x. split; intros [F H]; (split; [auto|]); apply (sum_bounds i j x Wi Wj F); auto. }
  destruct (checked_sum Release i j Wi Wj) as [(X & E & W)|[X E]]; rewrite E; split.
  - left. split; auto. split; auto. destruct X as [x X]. exists x. now apply B.
  - intros _. destruct (checked_sum p i j Wi Wj) as [(_ & E' & _)|[X' _]]; auto.
    destruct X as [x X]. destruct (X' x X).
  - right. split; auto. intros x H. apply B in H. exact (X x H).
  - intros [x H]. apply B in H. destruct (X x H).
Qed.

Lemma lsum_usum a b c d : a + b <= c + d -> lsum a b <= usum c d.
Proof. unfold lsum, usum. intros. pts. tests; lia. Qed.
Lemma sums_forward j : wf_iv j -> forall l xs b, canon_from b l ->
  Forall2 (fun i k => k = mkI (lsum (lower i) (lower j)) (usum (upper i) (upper j)) /\ wf_iv k
                      \/ k = iv_empty) l xs -> forward (filter nonempty xs).
Proof.
  intros Wj l xs b C F. revert b C. unfold forward. induction F as [|i k l xs H F IH]; intros b C; [constructor|].
  destruct C as (_ & Wi & C). specialize (IH _ C). destruct H as [[-> W]| ->].
  - cbn [filter]. rewrite wf_nonempty_b by auto. constructor; auto.
    apply Forall_forall. intros k Hk. apply filter_In in Hk as [Hk N].
    destruct (Forall2_in_r _ _ _ _ F Hk) as (i' & Hi & [[-> _]| ->]); [|discriminate].
    cbn [lower upper]. apply lsum_usum.
    destruct (canon_from_In _ _ _ C Hi). unfold wf_iv in *. lia.
  - exact IH.
Qed.

Definition sums_ok (i j : interval) : Prop :=
  exists x, finite x /\ exists y z, In_ext y i /\ In_ext z j /\ x = y + z.

(** [s + J], [J] a span: exact and canonical in release builds; debug builds panic iff some
    piece has no representable sum. *)
Theorem C28_add_span : forall p l j, canonical l -> wf_iv j ->
  (p = Release \/ forall i, In i l -> sums_ok i j) ->
  exists out, set_add_span p l j = Ret out /\ canonical out /\
    forall x, In_set x out <-> Sums l [j] x.
Proof.
  intros p l j C Wj P.
  assert (Q : forall i, In i l -> iv_add_span p i j = iv_add_span Release i j).
  { intros i Hi. destruct P as [->|P]; auto. apply add_span_pieces; eauto using canonical_In. exact (P i Hi). }
  set (sum i := mkI (lsum (lower i) (lower j)) (usum (upper i) (upper j))).
  assert (M : exists xs, omapM (fun i => iv_add_span p i j) l = Ret xs /\
    Forall2 (fun i k => k = sum i /\ wf_iv k \/ k = iv_empty) l xs /\
    forall x, In_set x (filter nonempty xs) <-> Sums l [j] x).
  { clear P. revert Q C. generalize l. clear l. induction l as [|i r IH]; intros Q C.
    - exists []. split; auto. split; auto. intros x. cbn. rewrite In_set_nil.
      unfold Sums, In_sext. split; [tauto|]. now intros (_ & y & z & (i & [] & _) & _).
    - pose proof (canonical_In _ _ C (or_introl eq_refl)) as Wi.
      destruct C as (_ & _ & C).
      destruct IH as (xs & E & F & D); [intros; apply Q; cbn; auto|auto|].
      destruct (C19_add_span Release i j Wi Wj) as [S1 S2].
      destruct (add_span_pieces p i j Wi Wj) as [[(E' & X & W)|[E' X]] _];
        cbn [omapM]; rewrite Q, E' by (cbn; auto); cbn [bind]; rewrite E; cbn [bind];
        eexists; (split; [reflexivity|]); (split; [constructor; auto|]).
      + intros x. cbn [filter]. rewrite wf_nonempty_b by auto. rewrite In_set_cons, D.
        destruct S1 as (k & Ek & _ & Dk); auto. rewrite E' in Ek. inv Ek. rewrite Dk.
        unfold Sums, In_sext. split.
        * intros [(Fx & y & z & Hy & Hz & ->)|(Fx & y & z & (a & Ha & Hy) & Hz & ->)]; (split; [auto|]).
          -- exists y, z. split; [exists i; cbn; auto|]. split; auto. exists j. cbn; auto.
          -- exists y, z. split; [exists a; cbn; auto|]. auto.
        * intros (Fx & y & z & (a & [<-|Ha] & Hy) & Hz & ->).
          -- left. split; auto. exists y, z. split; auto. split; auto. destruct Hz as (b & [<-|[]] & Hz); auto.
          -- right. split; auto. exists y, z. split; [exists a; auto|]. auto.
      + intros x. change (filter nonempty (iv_empty :: xs)) with (filter nonempty xs). rewrite D.
        unfold Sums, In_sext. split.
        * intros (Fx & y & z & (a & Ha & Hy) & Hz & ->); (split; [auto|]).
          exists y, z. split; [exists a; cbn; auto|]. auto.
        * intros (Fx & y & z & (a & [<-|Ha] & Hy) & Hz & ->).
          -- exfalso. apply (X (y + z)). split; auto. exists y, z. split; auto. split; auto.
             destruct Hz as (b & [<-|[]] & Hz); auto.
          -- split; auto. exists y, z. split; [exists a; auto|]. auto. }
  destruct M as (xs & E & F & D).
  destruct (fold_or_forward (fun i => iv_add_span p i j) l [] [] xs) as (out & Eo & Co & Do); auto.
  - clear - F. induction F; constructor; auto. tauto.
  - exact I.
  - intros x. reflexivity.
  - cbn [app]. apply canonical_from_iff in C. eapply sums_forward; eauto.
  - exists out. split; auto. split; auto. intros x. rewrite Do. cbn [app]. apply D.
Qed.
Theorem C28_add_span_panics : forall l j, canonical l -> wf_iv j ->
  (exists i, In i l /\ ~ sums_ok i j) -> set_add_span Debug l j = Panic.
Proof.
  intros l j C Wj. unfold set_add_span.
  assert (G : forall l acc, (forall i, In i l -> wf_iv i) -> canonical acc ->
    (exists i, In i l /\ ~ sums_ok i j) ->
    ofold (fun r i => x <- iv_add_span Debug i j ;; set_or_cx r (CIv x)) acc l = Panic).
  { clear l C. induction l as [|i r IH]; intros acc W C (k & Hk & N); [destruct Hk|]. cbn [ofold].
    pose proof (W i (or_introl eq_refl)) as Wi.
    destruct (C19_add_span Debug i j Wi Wj) as [S1 S2].
    destruct (checked_sum Debug i j Wi Wj) as [(X & E & W')|[X E]]; rewrite add_span_eq, E by auto; [|reflexivity].
    cbn [bind]. destruct (set_or_cx_wf acc _ C W') as (acc' & -> & C' & _). cbn [bind].
    apply IH; auto; [intros; apply W; cbn; auto|].
    destruct Hk as [<-|Hk]; [|eauto]. exfalso. apply N. destruct X as (x & Fx & X).
    exists x. split; auto. now apply sum_bounds. }
  apply G; [eauto using canonical_In|exact I].
Qed.
Theorem C28_sub_span : forall p l j, canonical l -> wf_iv j ->
  (p = Release \/ forall i, In i l -> exists x, finite x /\ exists y z, In_ext y i /\ In_ext z j /\ x = y - z) ->
  exists out, set_sub_span p l j = Ret out /\ canonical out /\
    forall x, In_set x out <-> Diffs l [j] x.
Proof.
  intros p l j C Wj P.
  assert (Wn : wf_iv (iv_neg j)) by (apply (proj2 (proj2 (C21_neg j 0 ltac:(iv; lia)))); auto).
  change (set_sub_span p l j) with (set_add_span p l (iv_neg j)).
  destruct (C28_add_span p l (iv_neg j) C Wn) as (out & E & Co & D).
  - destruct P as [->|P]; [auto|right]. intros i Hi. destruct (P i Hi) as (x & Fx & y & z & Hy & Hz & ->).
    exists (y - z). split; auto. exists y, (- z). split; auto. split; [|lia].
    apply ext_neg. now replace (- - z) with z by lia.
  - exists out. split; auto. split; auto. intros x. rewrite D. unfold Sums, Diffs, In_sext.
    split; intros (Fx & y & z & Hy & (k & [<-|[]] & Hz) & ->); (split; [auto|]); exists y, (- z);
      (split; [auto|]); (split; [|lia]); eexists; (split; [left; reflexivity|]).
    + now apply ext_neg.
    + apply ext_neg. now replace (- - z) with z by lia.
Qed.
Example C28_span_case : set_add_span Debug [mkI 1 5; mkI 10 20; mkI 40 50] (mkI 0 6) = Ret [mkI 1 26; mkI 40 56] /\
  set_sub_span Debug [mkI 1 5; mkI 10 20] (mkI 1 2) = Ret [mkI (-1) 4; mkI 8 19] /\
  set_add_span Release [mkI 1 5; mkI 100 200] (mkI (oo - 50) (oo - 50)) = Ret [mkI (oo - 49) (oo - 45)] /\
  sums_ok (mkI 1 5) (mkI 0 6).
Proof.
  split; [reflexivity|]. split; [reflexivity|]. split; [reflexivity|].
  exists 3. split; [pts; lia|]. exists 2, 1. unfold In_ext; cbn; pts; lia.
Qed.

(** [s + t], [t] a set of spans.  Full statement: exactly the sums.  Proved: canonical, only
    sums, and all of them when the pieces come out in order: for [i] before [i'] in [s],
    the earliest sum with [i] starts before the last one with [i'] ends (in particular if
    [s] or [t] is one interval). *)
Definition all_sums_ok (l m : list interval) : Prop :=
  forall i j, In i l -> In j m -> sums_ok i j.
Lemma add_spans_pieces p l m : Forall wf_iv l -> Forall wf_iv m -> all_sums_ok l m ->
  let ss := map (fun '(i, j) => mkI (lsum (lower i) (lower j)) (usum (upper i) (upper j))) (list_prod l m) in
  omapM (fun '(a, b) => iv_add_span p a b) (list_prod l m) = Ret ss /\ Forall wf_iv ss /\
  forall x, In_set x ss <-> Sums l m x.
Proof.
  intros Wl Wm Ok ss.
  assert (K : forall i j, In (i, j) (list_prod l m) ->
    iv_add_span p i j = Ret (mkI (lsum (lower i) (lower j)) (usum (upper i) (upper j))) /\
    wf_iv (mkI (lsum (lower i) (lower j)) (usum (upper i) (upper j)))).
  { intros i j H. apply in_prod_iff in H as [Hi Hj]. rewrite Forall_forall in Wl, Wm.
    destruct (add_span_pieces p i j (Wl i Hi) (Wm j Hj)) as [H E]. rewrite E by (apply Ok; auto).
    destruct H as [(E' & _ & W)|[_ X]]; auto. destruct (Ok i j Hi Hj) as [x H]. destruct (X x H). }
  split; [|split].
  - apply omapM_Ret. unfold ss. clear Ok ss Wl Wm. induction (list_prod l m) as [|[i j] r IH]; constructor.
    + apply K; cbn; auto. + apply IH. intros; apply K; cbn; auto.
  - apply Forall_forall. intros k Hk. apply in_map_iff in Hk as ([i j] & <- & H). now apply K.
  - intros x. unfold Sums, In_sext. rewrite Forall_forall in Wl, Wm. split.
    + intros (k & Hk & Fx & Hx). apply in_map_iff in Hk as ([i j] & <- & H). cbn [lower upper] in Hx.
      apply in_prod_iff in H as [Hi Hj]. apply (sum_bounds i j x) in Hx as (y & z & Hy & Hz & ->); auto.
      split; auto. exists y, z. eauto 10.
    + intros (Fx & y & z & (i & Hi & Hy) & (j & Hj & Hz) & E).
      exists (mkI (lsum (lower i) (lower j)) (usum (upper i) (upper j))). split.
      * apply (in_map (fun '(i, j) => mkI (lsum (lower i) (lower j)) (usum (upper i) (upper j))) _ (i, j)).
        now apply in_prod.
      * split; auto. cbn [lower upper]. apply sum_bounds; eauto.
Qed.
Lemma forward_app l m : forward l -> forward m ->
  (forall a b, In a l -> In b m -> lower a <= upper b) -> forward (l ++ m).
Proof.
  unfold forward. induction 1 as [|a l F O IH]; intros Om H; auto. cbn [app]. constructor.
  - apply Forall_app. split; auto. apply Forall_forall. intros b Hb. apply H; cbn; auto.
  - apply IH; auto. intros; apply H; cbn; auto.
Qed.
(** Partial: the result may lack sums if the translated sets are not in order (C28_spans_refuted). *)
Theorem C28_add_spans_partial : forall p l m, canonical l -> canonical m -> all_sums_ok l m ->
  exists out, set_add_spans p l m = Ret out /\ canonical out /\
    (forall x, In_set x out -> Sums l m x) /\
    (ForallOrdPairs (fun i i' => forall j j', In j m -> In j' m ->
        lower i + lower j <= upper i' + upper j') l ->
     forall x, In_set x out <-> Sums l m x).
Proof.
  intros p l m Cl Cm Ok.
  assert (Wl : Forall wf_iv l) by (apply Forall_forall; eauto using canonical_In).
  assert (Wm : Forall wf_iv m) by (apply Forall_forall; eauto using canonical_In).
  destruct (add_spans_pieces p l m Wl Wm Ok) as (E & W & D). unfold set_add_spans. rewrite E. cbn [bind].
  destruct (from_iter_wf _ W) as (out & Eo & Co & So & _). exists out. split; auto. split; auto.
  split; [intros x Hx; apply D, So, Hx|]. intros O.
  assert (Fw : forward (map (fun '(i, j) => mkI (lsum (lower i) (lower j)) (usum (upper i) (upper j))) (list_prod l m))).
  { clear - O Cm Wl Wm. induction O as [|i l F O IH]; [constructor|]. inv Wl.
    cbn [list_prod]. rewrite map_app. apply forward_app; auto.
    - clear - Cm H1. apply canonical_from_iff in Cm. revert Cm. generalize (- oo - 1). unfold forward.
      induction m as [|j m IH]; intros b C; [constructor|]. destruct C as (_ & Wj & C). cbn [map].
      constructor; [|eapply IH; eauto]. apply Forall_forall. intros k Hk. rewrite map_map in Hk.
      apply in_map_iff in Hk as (j' & <- & Hj). destruct (canon_from_In _ _ _ C Hj).
      apply lsum_usum. unfold wf_iv in *. lia.
    - intros a b Ha Hb. rewrite map_map in Ha. apply in_map_iff in Ha as (j & <- & Hj).
      apply in_map_iff in Hb as ([i' j'] & <- & Hb). apply in_prod_iff in Hb as [Hi Hj'].
      apply lsum_usum. rewrite Forall_forall in F. now apply F. }
  destruct (from_iter_forward _ W Fw) as (out' & E' & _ & D'). rewrite Eo in E'. inv E'.
  intros x. now rewrite D', D.
Qed.
Corollary C28_add_spans_single : forall p l m, canonical l -> canonical m -> all_sums_ok l m ->
  (exists i, l = [i]) \/ (exists j, m = [j]) ->
  exists out, set_add_spans p l m = Ret out /\ canonical out /\ forall x, In_set x out <-> Sums l m x.
Proof.
  intros p l m Cl Cm Ok H. destruct (C28_add_spans_partial p l m Cl Cm Ok) as (out & E & C & _ & D).
  exists out. split; auto. split; auto. apply D. destruct H as [[i ->]|[j ->]].
  - constructor; constructor.
  - pose proof (canonical_In _ _ Cm (or_introl eq_refl)) as Wj.
    apply canonical_from_iff in Cl. revert Cl. generalize (- oo - 1). clear - Wj.
    induction l as [|i l IH]; intros b C; [constructor|]. destruct C as (_ & Wi & C).
    constructor; [|eapply IH; eauto]. apply Forall_forall. intros k Hk j1 j2 [<-|[]] [<-|[]].
    destruct (canon_from_In _ _ _ C Hk). unfold wf_iv in *. lia.
Qed.
Example C28_spans_case : set_add_spans Debug [mkI 0 1; mkI 100 101] [mkI 0 0; mkI 10 10] =
    Ret [mkI 0 1; mkI 10 11; mkI 100 101; mkI 110 111].
Proof. reflexivity. Qed.
(** Findings: sums coming out of order are lost, and so are differences as soon as the
    subtracted set has three pieces. *)
Theorem C28_spans_refuted :
  (exists l m out x, canonical l /\ canonical m /\ set_add_spans Debug l m = Ret out /\
     Sums l m x /\ ~ In_set x out) /\
  (exists i m out x, canonical [i] /\ canonical m /\ set_sub_spans Debug [i] m = Ret out /\
     Diffs [i] m x /\ ~ In_set x out).
Proof.
  split.
  - exists [mkI 0 0; mkI 5 5], [mkI 0 0; mkI 10 10; mkI 20 20], [mkI 0 0; mkI 5 5; mkI 10 10; mkI 15 15; mkI 25 25], 20.
    split; [cbn; iv; lia|]. split; [cbn; iv; lia|]. split; [vm_compute; reflexivity|]. split.
    + split; [pts; lia|]. exists 0, 20. split; [|split; [|reflexivity]].
      * exists (mkI 0 0). split; [cbn; auto|]. unfold In_ext; cbn; pts; lia.
      * exists (mkI 20 20). split; [cbn; auto|]. unfold In_ext; cbn; pts; lia.
    + intros (i & H & Hx). cbn in H. intuition (subst; iv; lia).
  - exists (mkI 100 100), [mkI 0 0; mkI 10 10; mkI 20 20], [mkI 80 80; mkI 90 90], 100.
    split; [cbn; iv; lia|]. split; [cbn; iv; lia|]. split; [vm_compute; reflexivity|]. split.
    + split; [pts; lia|]. exists 100, 0. split; [|split; [|reflexivity]].
      * exists (mkI 100 100). split; [cbn; auto|]. unfold In_ext; cbn; pts; lia.
      * exists (mkI 0 0). split; [cbn; auto|]. unfold In_ext; cbn; pts; lia.
    + intros (i & H & Hx). cbn in H. intuition (subst; iv; lia).
Qed.
(** Partial: exact for one interval only; the result may lack differences otherwise (C28_spans_refuted). *)
Theorem C28_sub_spans_partial : forall p l m, canonical l -> canonical m ->
  (forall i j, In i l -> In j m -> exists x, finite x /\ exists y z, In_ext y i /\ In_ext z j /\ x = y - z) ->
  exists out, set_sub_spans p l m = Ret out /\ canonical out /\
    (forall x, In_set x out -> Diffs l m x) /\
    ((exists j, m = [j]) -> forall x, In_set x out <-> Diffs l m x).
Proof.
  intros p l m Cl Cm Ok.
  assert (Wl : Forall wf_iv l) by (apply Forall_forall; eauto using canonical_In).
  assert (Wm : Forall wf_iv (map iv_neg m)).
  { apply Forall_forall. intros k Hk. apply in_map_iff in Hk as (j & <- & Hj).
    pose proof (canonical_In _ _ Cm Hj) as W. apply (C21_neg j 0); [iv; lia|auto]. }
  assert (Ok' : all_sums_ok l (map iv_neg m)).
  { intros i k Hi Hk. apply in_map_iff in Hk as (j & <- & Hj).
    destruct (Ok i j Hi Hj) as (x & Fx & y & z & Hy & Hz & ->). exists (y - z). split; auto.
    exists y, (- z). split; auto. split; [|lia]. apply ext_neg. now replace (- - z) with z by lia. }
  assert (Es : set_sub_spans p l m = set_add_spans p l (map iv_neg m)).
  { unfold set_sub_spans, set_add_spans. f_equal.
    assert (L : forall l : list interval, list_prod l (map iv_neg m) = map (fun '(a, b) => (a, iv_neg b)) (list_prod l m)).
    { clear. induction l as [|a l IH]; auto. cbn [list_prod]. rewrite map_app, IH, !map_map. reflexivity. }
    rewrite L, omapM_map. apply omapM_ext. now intros [a b] _. }
  assert (DS : forall x, Sums l (map iv_neg m) x <-> Diffs l m x).
  { intros x. unfold Sums, Diffs, In_sext.
    split; intros (Fx & y & z & Hy & (k & Hk & Hz) & ->); (split; [auto|]); exists y, (- z);
      (split; [auto|]); (split; [|lia]).
    - apply in_map_iff in Hk as (j & <- & Hj). exists j. split; auto. now apply ext_neg.
    - exists (iv_neg k). split; [now apply in_map|]. apply ext_neg. now replace (- - z) with z by lia. }
  rewrite Es. destruct (add_spans_pieces p l _ Wl Wm Ok') as (E & W & D).
  destruct (from_iter_wf _ W) as (out & Eo & Co & So & _). exists out. split.
  - unfold set_add_spans. rewrite E. exact Eo.
  - split; auto. split; [intros x Hx; apply DS, D, So, Hx|].
    intros [j ->]. cbn [map] in *.
    destruct (C28_add_spans_single p l [iv_neg j] Cl) as (out' & E' & _ & D').
    + cbn [canonical]. split; [inv Wm; auto|auto].
    + auto.
    + right. eauto.
    + unfold set_add_spans in E'. rewrite E in E'. cbn [bind] in E'. rewrite Eo in E'. inv E'.
      intros x. now rewrite D', DS.
Qed.
Example C28_sub_spans_case : set_sub_spans Debug [mkI 0 1; mkI 100 101] [mkI 0 3] = Ret [mkI (-3) 1; mkI 97 101].
Proof. reflexivity. Qed.

(** The translating iterator gives the same intervals as the translated set, as long as
    every piece stays representable; in release builds it stops at the first one that does
    not, even if later ones do. *)
Theorem C28_iterator_partial : forall p l v, canonical l -> finite v -> stays l v ->
  transl_list p l v = set_add_v p l v.
Proof.
  intros p l v C F S. rewrite (proj1 (set_add_v_stays p l v C F S)).
  assert (K : forall i, In i l -> iv_add_v p i v = Ret (moved i v) /\ wf_iv (moved i v)).
  { intros i Hi. pose proof (canonical_In _ _ C Hi) as W.
    destruct (checked_moved p i v W F) as [H|[H _]]; [tauto|].
    destruct (S i Hi) as (x & Fx & Hx). destruct (H x Fx Hx). }
  clear C S. induction l as [|i r IH]; auto. cbn [transl_list map].
  destruct (K i (or_introl eq_refl)) as [-> W]. cbn [bind].
  pose proof (wf_nonempty_b _ W) as N. unfold nonempty in N. destruct (iv_is_empty (moved i v)); [discriminate|].
  rewrite IH by (intros; apply K; cbn; auto). reflexivity.
Qed.
Theorem C28_iterator_refuted : exists l v out x, canonical l /\ finite v /\
  transl_list Release l v = Ret out /\ Moved l v x /\ ~ In_set x out.
Proof.
  exists [mkI (- oo + 1) (- oo + 2); mkI 5 6], (-10), [], (-5).
  split; [cbn; iv; lia|]. split; [pts; lia|]. split; [reflexivity|]. split.
  - split; [pts; lia|]. exists (mkI 5 6). split; [cbn; auto|]. unfold In_ext; cbn; pts; lia.
  - now rewrite In_set_nil.
Qed.
