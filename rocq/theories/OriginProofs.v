(** C99: the operations on windows commute with a change of the origin of time. *)
From Verif Require Import Machine TimeValue Spec Tac TimeValueProofs Interval Iter TimeSet Relns
  Transl SpecSets Graph SpecGraph Scheduler.

(** A window seen from another origin: finite bounds move, infinite ones stay. *)
Definition move_iv (v : Z) (i : interval) : interval := mkI (shift (lower i) v) (shift (upper i) v).
Definition move (v : Z) (l : tset) : tset := map (move_iv v) l.
Definition move_cx (v : Z) (c : convex) : convex :=
  match c with
  | CPoint t => CPoint (shift t v)
  | CIv i => CIv (move_iv v i)
  | CRange a b => CRange (shift a v) (shift b v)
  | CRangeFrom a => CRangeFrom (shift a v)
  | CRangeIncl a b => CRangeIncl (shift a v) (shift b v)
  | CRangeTo b => CRangeTo (shift b v)
  | CRangeToIncl b => CRangeToIncl (shift b v)
  end.
Definition move_w (v : Z) (w : window) : window :=
  match w with WCx c => WCx (move_cx v c) | WSet l => WSet (move v l) end.

(** The finite bounds of a window are at most [D]. *)
Definition in_iv (D : Z) (i : interval) : Prop := within D (lower i) /\ within D (upper i).
Definition in_set (D : Z) (l : tset) : Prop := forall i, In i l -> in_iv D i.
Definition in_cx (D : Z) (c : convex) : Prop :=
  match c with
  | CPoint t => within D t
  | CIv i => in_iv D i
  | CRange a b | CRangeIncl a b => within D a /\ within D b
  | CRangeFrom a | CRangeTo a | CRangeToIncl a => within D a
  end.
Definition in_w (D : Z) (w : window) : Prop :=
  match w with WCx c => in_cx D c | WSet l => in_set D l end.

Lemma within_up D E x : D <= E -> within D x -> within E x.
Proof. unfold within. lia. Qed.
Lemma within_inf D : within D INF.
Proof. right. reflexivity. Qed.
Lemma within_minf D : within D (- INF).
Proof. right. reflexivity. Qed.
Lemma in_iv_up D E i : D <= E -> in_iv D i -> in_iv E i.
Proof. intros H [A B]. split; eapply within_up; eauto. Qed.
Lemma in_set_up D E l : D <= E -> in_set D l -> in_set E l.
Proof. intros H A i Hi. eapply in_iv_up; eauto. Qed.
Lemma in_set_cons D i l : in_set D (i :: l) <-> in_iv D i /\ in_set D l.
Proof.
  unfold in_set. split.
  - intros H. split; [|intros]; apply H; cbn; auto.
  - intros [A B] j [<-|Hj]; auto.
Qed.
Lemma in_set_nil D : in_set D [].
Proof. intros i []. Qed.
Lemma in_set_app D l m : in_set D l -> in_set D m -> in_set D (l ++ m).
Proof. intros A B i Hi. apply in_app_iff in Hi. destruct Hi; auto. Qed.
Lemma move_app v l m : move v (l ++ m) = move v l ++ move v m.
Proof. apply map_app. Qed.
Lemma shift_inf v : shift INF v = INF.
Proof. reflexivity. Qed.
Lemma shift_minf v : shift (- INF) v = - INF.
Proof. reflexivity. Qed.

Lemma fin_two x : is_finite x = negb (is_future_infinite x) && negb (is_past_infinite x).
Proof. unfold is_finite, is_future_infinite, is_past_infinite. assert (0 < INF) by reflexivity. lia. Qed.

(** ** One bound *)
Section Bound.
  Variables D v : Z.
  Hypothesis R : D + 1 + Z.abs v < oo.
  Notation ok := (within (D + 1)).

  Lemma sh_cases x : ok x ->
    (x = oo /\ shift x v = oo) \/ (x = - oo /\ shift x v = - oo) \/
    (Z.abs x <= D + 1 /\ shift x v = x + v).
  Proof.
    intros H. unfold shift. destruct (x =? oo) eqn:E1; [left; lia|].
    destruct (x =? - oo) eqn:E2; [right; left; lia|]. right; right.
    assert (Z.abs x <= D + 1) by (destruct H; lia). split; auto. unfold clamp. lia.
  Qed.
  Ltac two x y := intros Hx Hy; pose proof (sh_cases x Hx); pose proof (sh_cases y Hy);
    assert (0 < oo) by reflexivity.

  Lemma sh_lt x y : ok x -> ok y -> (shift x v < shift y v <-> x < y).
  Proof. two x y. generalize dependent oo. intros. lia. Qed.
  Lemma sh_le x y : ok x -> ok y -> (shift x v <= shift y v <-> x <= y).
  Proof. intros. rewrite !Z.le_ngt. rewrite sh_lt; tauto. Qed.
  Lemma sh_ltb x y : ok x -> ok y -> (shift x v <? shift y v) = (x <? y).
  Proof. intros. apply eq_true_iff_eq. rewrite !Z.ltb_lt. now apply sh_lt. Qed.
  Lemma sh_leb x y : ok x -> ok y -> (shift x v <=? shift y v) = (x <=? y).
  Proof. intros. apply eq_true_iff_eq. rewrite !Z.leb_le. now apply sh_le. Qed.
  Lemma sh_eqb x y : ok x -> ok y -> (shift x v =? shift y v) = (x =? y).
  Proof.
    intros Hx Hy. apply eq_true_iff_eq. rewrite !Z.eqb_eq.
    pose proof (sh_le x y Hx Hy). pose proof (sh_le y x Hy Hx). lia.
  Qed.
  Lemma sh_fut x : ok x -> is_future_infinite (shift x v) = is_future_infinite x.
  Proof.
    intros. unfold is_future_infinite. rewrite <- (shift_inf v) at 1. apply sh_eqb; auto.
    apply within_inf.
  Qed.
  Lemma sh_past x : ok x -> is_past_infinite (shift x v) = is_past_infinite x.
  Proof.
    intros. unfold is_past_infinite. rewrite <- (shift_minf v) at 1. apply sh_eqb; auto.
    apply within_minf.
  Qed.
  Lemma sh_fin x : ok x -> is_finite (shift x v) = is_finite x.
  Proof. intros. now rewrite !fin_two, sh_fut, sh_past. Qed.
  Lemma ok_up x : within D x -> ok x.
  Proof. apply within_up. lia. Qed.
  Lemma jb_cases x : within D x -> (x = oo /\ just_before x = oo) \/ (x = - oo /\ just_before x = - oo) \/
    (Z.abs x <= D /\ just_before x = x - 1).
  Proof.
    intros H. unfold just_before. rewrite fin_two. unfold is_future_infinite, is_past_infinite.
    change INF with oo. destruct (x =? oo) eqn:E1; [left; cbn; lia|].
    destruct (x =? - oo) eqn:E2; [right; left; cbn; lia|]. right; right. cbn. destruct H; lia.
  Qed.
  Lemma ja_cases x : within D x -> (x = oo /\ just_after x = oo) \/ (x = - oo /\ just_after x = - oo) \/
    (Z.abs x <= D /\ just_after x = x + 1).
  Proof.
    intros H. unfold just_after. rewrite fin_two. unfold is_future_infinite, is_past_infinite.
    change INF with oo. destruct (x =? oo) eqn:E1; [left; cbn; lia|].
    destruct (x =? - oo) eqn:E2; [right; left; cbn; lia|]. right; right. cbn. destruct H; lia.
  Qed.
  Lemma ok_jb x : within D x -> ok (just_before x).
  Proof. intros H. unfold within. destruct (jb_cases x H) as [[_ ->]|[[_ ->]|[A ->]]]; [now right|now right|left; lia]. Qed.
  Lemma ok_ja x : within D x -> ok (just_after x).
  Proof. intros H. unfold within. destruct (ja_cases x H) as [[_ ->]|[[_ ->]|[A ->]]]; [now right|now right|left; lia]. Qed.
  Lemma small_plain x : Z.abs x <= D + 1 -> shift x v = x + v.
  Proof. intros H. destruct (sh_cases x) as [[E _]|[[E _]|[_ E]]]; auto; [now left| |]; lia. Qed.
  Lemma sh_jb x : within D x -> just_before (shift x v) = shift (just_before x) v.
  Proof.
    intros H. destruct (jb_cases x H) as [[-> _]|[[-> _]|[A ->]]]; [reflexivity|reflexivity|].
    rewrite !small_plain by lia. unfold just_before. rewrite fin_two.
    unfold is_future_infinite, is_past_infinite. change INF with oo.
    replace (x + v =? oo) with false by lia. replace (x + v =? - oo) with false by lia. cbn. lia.
  Qed.
  Lemma sh_ja x : within D x -> just_after (shift x v) = shift (just_after x) v.
  Proof.
    intros H. destruct (ja_cases x H) as [[-> _]|[[-> _]|[A ->]]]; [reflexivity|reflexivity|].
    rewrite !small_plain by lia. unfold just_after. rewrite fin_two.
    unfold is_future_infinite, is_past_infinite. change INF with oo.
    replace (x + v =? oo) with false by lia. replace (x + v =? - oo) with false by lia. cbn. lia.
  Qed.
  Lemma sh_min x y : ok x -> ok y -> Z.min (shift x v) (shift y v) = shift (Z.min x y) v.
  Proof.
    intros Hx Hy. pose proof (sh_le x y Hx Hy). pose proof (sh_le y x Hy Hx).
    destruct (Z.le_ge_cases x y); [rewrite (Z.min_l x y) | rewrite (Z.min_r x y)]; auto;
      [apply Z.min_l | apply Z.min_r]; tauto.
  Qed.
  Lemma sh_max x y : ok x -> ok y -> Z.max (shift x v) (shift y v) = shift (Z.max x y) v.
  Proof.
    intros Hx Hy. pose proof (sh_le x y Hx Hy). pose proof (sh_le y x Hy Hx).
    destruct (Z.le_ge_cases x y); [rewrite (Z.max_r x y) | rewrite (Z.max_l x y)]; auto;
      [apply Z.max_r | apply Z.max_l]; tauto.
  Qed.
End Bound.

(** ** Simulation of the iterators *)

Definition map_turn {A B} (g : A -> B) (t : turn A) : turn B :=
  match t with Again => Again | Yield a => Yield (g a) | Stop => Stop end.

Section Simulation.
  Context {S A : Type}.
  Variables (step : S -> S * turn A) (f : S -> S) (g : A -> A) (okS : S -> Prop) (okA : A -> Prop).
  Hypothesis sim : forall s, okS s ->
    step (f s) = (f (fst (step s)), map_turn g (snd (step s))) /\ okS (fst (step s)) /\
    forall a, snd (step s) = Yield a -> okA a.

  Lemma run_next_sim n s : okS s ->
    run_next step n (f s) = omap (fun '(a, s') => (option_map g a, f s')) (run_next step n s) /\
    forall a s', run_next step n s = Ret (a, s') -> okS s' /\ forall x, a = Some x -> okA x.
  Proof.
    revert s. induction n as [|n IH]; intros s Hs; [split; [reflexivity|discriminate]|].
    destruct (sim s Hs) as (E & K & Y). cbn [run_next]. rewrite E.
    destruct (step s) as [s1 t]. cbn [fst snd] in *. destruct t; cbn [map_turn].
    - now apply IH.
    - split; [reflexivity|]. intros x s' H. inv H. split; auto. intros x H. inv H. auto.
    - split; [reflexivity|]. intros x s' H. inv H. split; auto. discriminate.
  Qed.

  Variable fuel : S -> nat.
  Hypothesis same : forall s, fuel (f s) = fuel s.
  Lemma run_collect_sim n s : okS s ->
    run_collect (fun s => run_next step (fuel s) s) n (f s) =
      omap (map g) (run_collect (fun s => run_next step (fuel s) s) n s) /\
    forall l, run_collect (fun s => run_next step (fuel s) s) n s = Ret l -> Forall okA l.
  Proof.
    revert s. induction n as [|n IH]; intros s Hs; [split; [reflexivity|discriminate]|].
    cbn [run_collect]. destruct (run_next_sim (fuel (f s)) s Hs) as [E K]. rewrite same in *. rewrite E.
    destruct (run_next step (fuel s) s) as [[[a|] s']| | |]; cbn [omap bind option_map];
      try (split; [reflexivity|discriminate]).
    - destruct (K _ _ eq_refl) as [K1 K2]. destruct (IH s' K1) as [I1 I2]. rewrite I1.
      destruct (run_collect _ n s'); cbn [omap bind]; try (split; [reflexivity|discriminate]).
      split; [reflexivity|]. intros l H. inv H. constructor; auto.
    - split; [reflexivity|]. intros l H. inv H. constructor.
  Qed.
End Simulation.

Lemma Forall_in_set D l : Forall (in_iv D) l <-> in_set D l.
Proof. apply Forall_forall. Qed.
Lemma move_length v l : length (move v l) = length l.
Proof. apply map_length. Qed.
Lemma move_all v : move_iv v iv_all = iv_all.
Proof. reflexivity. Qed.
Lemma in_all D : in_iv D iv_all.
Proof. split; [apply within_minf|apply within_inf]. Qed.

Section Sets.
  Variables D v : Z.
  Hypothesis R : D + 1 + Z.abs v < oo.

  Ltac okb := first [ assumption | apply ok_up; assumption | apply ok_jb; assumption | apply ok_ja; assumption
    | apply within_inf | apply within_minf ].
  Ltac push :=
    repeat first
      [ rewrite (sh_jb D v R) by okb | rewrite (sh_ja D v R) by okb
      | rewrite (sh_ltb D v R) by okb | rewrite (sh_leb D v R) by okb | rewrite (sh_eqb D v R) by okb
      | rewrite (sh_min D v R) by okb | rewrite (sh_max D v R) by okb
      | rewrite (sh_fut D v R) by okb | rewrite (sh_past D v R) by okb | rewrite (sh_fin D v R) by okb ].
  Ltac open_all :=
    repeat match goal with
    | H : in_set D (_ :: _) |- _ => apply in_set_cons in H; destruct H
    | H : in_iv D _ |- _ => destruct H
    end.
  Lemma within_min x y : within D x -> within D y -> within D (Z.min x y).
  Proof. intros. destruct (Z.min_spec x y) as [[_ ->]|[_ ->]]; auto. Qed.
  Lemma within_max x y : within D x -> within D y -> within D (Z.max x y).
  Proof. intros. destruct (Z.max_spec x y) as [[_ ->]|[_ ->]]; auto. Qed.
  Ltac okg :=
    repeat match goal with
    | |- _ /\ _ => split
    | |- in_iv D _ => split; cbn [lower upper]
    | |- in_set D (_ :: _) => apply in_set_cons
    | |- in_set D [] => apply in_set_nil
    | |- within D (Z.min _ _) => apply within_min
    | |- within D (Z.max _ _) => apply within_max
    | |- forall a, Yield _ = Yield a -> _ => let H := fresh in intros ? H; inv H
    | |- forall a, _ = Yield a -> _ => discriminate
    | |- _ => okb
    end.

  (** *** Intersection *)
  Definition inter_mv (s : inter_state) : inter_state :=
    mkInter (move v (in_i s)) (move v (in_j s)) (in_phase s) (move_iv v (in_tmp s)).
  Definition inter_ok (s : inter_state) : Prop :=
    in_set D (in_i s) /\ in_set D (in_j s) /\ in_iv D (in_tmp s).
  Lemma inter_sim s : inter_ok s ->
    inter_turn (inter_mv s) = (inter_mv (fst (inter_turn s)), map_turn (move_iv v) (snd (inter_turn s))) /\
    inter_ok (fst (inter_turn s)) /\ forall a, snd (inter_turn s) = Yield a -> in_iv D a.
  Proof.
    destruct s as [li lj ph [xl xu]]. intros (Hi & Hj & Ht). cbn [in_i in_j in_tmp] in *.
    unfold inter_mv, inter_ok, inter_turn. cbn [in_i in_j in_phase in_tmp].
    destruct ph; destruct li as [|[il iu] ri]; destruct lj as [|[jl ju] rj]; cbn [move map];
      unfold move_iv at 1; open_all; cbn [lower upper move_iv] in *; push; tests;
      cbn [fst snd map_turn in_i in_j in_phase in_tmp move map]; unfold move_iv; cbn [lower upper tl];
      (split; [reflexivity|]); okg.
  Qed.
  Lemma inter_list_sim a b : in_set D a -> in_set D b ->
    inter_list (move v a) (move v b) = omap (move v) (inter_list a b) /\
    forall l, inter_list a b = Ret l -> in_set D l.
  Proof.
    intros Ha Hb.
    assert (F : forall s, inter_fuel (inter_mv s) = inter_fuel s).
    { intros s. unfold inter_fuel, inter_mv. cbn [in_i in_j]. now rewrite !move_length. }
    destruct (run_collect_sim inter_turn inter_mv (move_iv v) inter_ok (in_iv D) inter_sim inter_fuel F
      (inter_fuel (inter_init a b)) (inter_init a b)) as [E K].
    { split; [exact Ha|]. split; [exact Hb|]. apply in_all. }
    unfold inter_list, inter_collect. split.
    - change (inter_init (move v a) (move v b)) with (inter_mv (inter_init a b)). rewrite F. exact E.
    - intros l H. apply Forall_in_set. now apply K.
  Qed.

  (** *** Union *)
  Definition union_mv (s : union_state) : union_state :=
    mkUnion (move v (un_i s)) (move v (un_j s)) (un_phase s) (move_iv v (un_tmp s)).
  Definition union_ok (s : union_state) : Prop :=
    in_set D (un_i s) /\ in_set D (un_j s) /\ in_iv D (un_tmp s).
  Lemma union_sim s : union_ok s ->
    union_turn (union_mv s) = (union_mv (fst (union_turn s)), map_turn (move_iv v) (snd (union_turn s))) /\
    union_ok (fst (union_turn s)) /\ forall a, snd (union_turn s) = Yield a -> in_iv D a.
  Proof.
    destruct s as [li lj ph [xl xu]]. intros (Hi & Hj & Ht). cbn [un_i un_j un_tmp] in *.
    unfold union_mv, union_ok, union_turn. cbn [un_i un_j un_phase un_tmp].
    destruct ph; destruct li as [|[il iu] ri]; destruct lj as [|[jl ju] rj]; cbn [move map];
      unfold move_iv at 1; open_all; cbn [lower upper move_iv] in *; push; tests;
      cbn [fst snd map_turn un_i un_j un_phase un_tmp move map]; unfold move_iv; cbn [lower upper];
      (split; [reflexivity|]); okg.
  Qed.
  Lemma union_list_sim a b : in_set D a -> in_set D b ->
    union_list (move v a) (move v b) = omap (move v) (union_list a b) /\
    forall l, union_list a b = Ret l -> in_set D l.
  Proof.
    intros Ha Hb.
    assert (F : forall s, union_fuel (union_mv s) = union_fuel s).
    { intros s. unfold union_fuel, union_mv. cbn [un_i un_j]. now rewrite !move_length. }
    destruct (run_collect_sim union_turn union_mv (move_iv v) union_ok (in_iv D) union_sim union_fuel F
      (union_fuel (union_init a b)) (union_init a b)) as [E K].
    { split; [exact Ha|]. split; [exact Hb|]. apply in_all. }
    unfold union_list, union_collect. split.
    - change (union_init (move v a) (move v b)) with (union_mv (union_init a b)). rewrite F. exact E.
    - intros l H. apply Forall_in_set. now apply K.
  Qed.

  (** *** Collecting *)
  Lemma into_iter_sim i : in_iv D i ->
    iv_into_iter (move_iv v i) = move v (iv_into_iter i) /\ in_set D (iv_into_iter i).
  Proof.
    destruct i as [a b]. intros H. unfold iv_into_iter, iv_is_empty, move_iv. cbn [lower upper].
    open_all. cbn [lower upper] in *. push. tests; (split; [reflexivity|]); okg.
  Qed.
  Lemma of_convex_sim i : in_iv D i ->
    set_of_convex (CIv (move_iv v i)) = move v (set_of_convex (CIv i)) /\ in_set D (set_of_convex (CIv i)).
  Proof. apply into_iter_sim. Qed.
  Lemma last_map {A B} (f : A -> B) l : last_opt (map f l) = option_map f (last_opt l).
  Proof.
    induction l as [|x [|y r] IH]; auto.
  Qed.
  Lemma last_in {A} (l : list A) x : last_opt l = Some x -> In x l.
  Proof.
    induction l as [|y [|z r] IH]; [discriminate| |].
    - intros H. inv H. now left.
    - intros H. right. now apply IH.
  Qed.
  Lemma upper_sim l : in_set D l -> set_upper (move v l) = shift (set_upper l) v /\ within D (set_upper l).
  Proof.
    intros H. unfold set_upper, move. rewrite last_map. destruct (last_opt l) as [i|] eqn:E; cbn [option_map].
    - split; [reflexivity|]. apply H. now apply last_in.
    - split; [reflexivity|apply within_minf].
  Qed.
  Lemma lower_sim l : in_set D l -> set_lower (move v l) = shift (set_lower l) v /\ within D (set_lower l).
  Proof.
    intros H. destruct l as [|i r]; cbn.
    - split; [reflexivity|apply within_inf].
    - split; [reflexivity|]. apply H. now left.
  Qed.
  Lemma ofold_sim {A B} (F : A -> B -> outcome A) (fa : A -> A) (fb : B -> B) (okA : A -> Prop) (okB : B -> Prop) :
    (forall a b, okA a -> okB b -> F (fa a) (fb b) = omap fa (F a b) /\ forall c, F a b = Ret c -> okA c) ->
    forall l a, okA a -> (forall b, In b l -> okB b) ->
      ofold F (fa a) (map fb l) = omap fa (ofold F a l) /\ forall c, ofold F a l = Ret c -> okA c.
  Proof.
    intros HF. induction l as [|b r IH]; intros a Ha Hl; cbn [map ofold].
    - split; [reflexivity|]. intros c H. now inv H.
    - destruct (HF a b Ha (Hl b (or_introl eq_refl))) as [E K]. rewrite E.
      destruct (F a b) as [c| | |]; cbn [omap bind]; try (split; [reflexivity|discriminate]).
      apply IH; auto. intros. apply Hl. now right.
  Qed.
  Lemma from_iter_d_sim n : forall l, in_set D l ->
    from_iter_d n (move v l) = omap (move v) (from_iter_d n l) /\
    forall m, from_iter_d n l = Ret m -> in_set D m.
  Proof.
    induction n as [|n IH]; intros l Hl; [split; [reflexivity|discriminate]|].
    destruct l as [|i r]; [split; [reflexivity|]; intros m H; inv H; apply in_set_nil|].
    apply in_set_cons in Hl. destruct Hl as [Hi Hr]. cbn [from_iter_d move map].
    destruct (of_convex_sim i Hi) as [E1 K1]. rewrite E1.
    apply (ofold_sim _ (move v) (move_iv v) (in_set D) (in_iv D)); auto.
    intros a b Ha Hb. destruct (upper_sim a Ha) as [E2 K2]. rewrite E2.
    unfold move_iv at 1. cbn [lower]. destruct Hb as [Hb1 Hb2]. push.
    destruct (just_after (set_upper a) <? lower b).
    - cbn [omap bind]. rewrite move_app. split; [reflexivity|]. intros c H. inv H.
      apply in_set_app; auto. apply in_set_cons. split; [split; auto|apply in_set_nil].
    - destruct (into_iter_sim b (conj Hb1 Hb2)) as [E3 K3]. rewrite E3.
      destruct (union_list_sim a (iv_into_iter b) Ha K3) as [E4 K4]. rewrite E4.
      destruct (union_list a (iv_into_iter b)) as [u| | |]; cbn [omap bind]; try (split; [reflexivity|discriminate]).
      apply IH. now apply K4.
  Qed.
  Lemma from_iter_sim l : in_set D l ->
    from_iter (move v l) = omap (move v) (from_iter l) /\ forall m, from_iter l = Ret m -> in_set D m.
  Proof. intros H. unfold from_iter. rewrite move_length. now apply from_iter_d_sim. Qed.

  Lemma or_sim a b : in_set D a -> in_set D b ->
    set_or (move v a) (move v b) = omap (move v) (set_or a b) /\ forall l, set_or a b = Ret l -> in_set D l.
  Proof.
    intros Ha Hb. unfold set_or. destruct (union_list_sim a b Ha Hb) as [E K]. rewrite E.
    destruct (union_list a b) as [u| | |]; cbn [omap bind]; try (split; [reflexivity|discriminate]).
    apply from_iter_sim. now apply K.
  Qed.
  Lemma and_sim a b : in_set D a -> in_set D b ->
    set_and (move v a) (move v b) = omap (move v) (set_and a b) /\ forall l, set_and a b = Ret l -> in_set D l.
  Proof.
    intros Ha Hb. unfold set_and. destruct (inter_list_sim a b Ha Hb) as [E K]. rewrite E.
    destruct (inter_list a b) as [u| | |]; cbn [omap bind]; try (split; [reflexivity|discriminate]).
    apply from_iter_sim. now apply K.
  Qed.
End Sets.
