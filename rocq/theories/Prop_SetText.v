(** What the Display texts of sets and schedulers tell (property C96). *)
From Coq Require Import String Ascii.
From Verif Require Import Machine TimeValue Spec Tac TimeValueProofs Prop_TimeValue Interval Iter TimeSet SpecSets SetProofs
  Graph MaxPlus GraphProofs GraphSafe GraphInv SpecGraph GraphHist Prop_Graph Prop_Propagation
  SchedSets Scheduler SpecSched SchedProofs Prop_Scheduler
  Format TextProofs Prop_Format GraphText Prop_GraphText Calendar Prop_Calendar.

Local Open Scope string_scope.
Local Open Scope Z_scope.

(** ** Specification *)

(** At most one tick apart, and infinite together *)
Definition about (t u : Z) : Prop := Z.abs (t - u) <= 1 /\ (t = oo <-> u = oo) /\ (t = - oo <-> u = - oo).
(** Intervals whose bounds are about the same; a singleton is about the same as singletons only *)
Definition about_iv (i j : interval) : Prop :=
  about (lower i) (lower j) /\ about (upper i) (upper j) /\ (lower i = upper i <-> lower j = upper j).

(** ** Texts of intervals *)

Definition bracket (c : ascii) : bool := (c =? "[")%char || (c =? "]")%char || (c =? "{")%char || (c =? "}")%char.
Definition inside (c : ascii) : bool := negb (bracket c).
(** The characters of the texts of points *)
Definition plain (c : ascii) : bool := negb (bracket c || (c =? ",")%char || (c =? "010")%char).
Definition notnl (c : ascii) : bool := negb (c =? "010")%char.

Lemma plain_inside s : chars plain s = true -> chars inside s = true.
Proof. apply chars_weaken. intros c. unfold plain, inside. destruct (bracket c); auto. Qed.
Lemma plain_notnl s : chars plain s = true -> chars notnl s = true.
Proof. apply chars_weaken. intros c. unfold plain, notnl. destruct (bracket c), (c =? ",")%char, (c =? "010")%char; auto. Qed.

(** Infinite bounds outwards only; the bounds may be in any order *)
Definition loose (i : interval) : Prop := - oo <= lower i /\ upper i <= oo /\ lower i < oo /\ - oo < upper i.

Section Texts.
Variable f : Z -> outcome string.
Hypothesis f_about : forall t u s, finite t -> finite u -> f t = Ret s -> f u = Ret s -> Z.abs (t - u) <= 1.
Hypothesis f_plain : forall t s, finite t -> f t = Ret s -> chars plain s = true.
Hypothesis f_nonempty : forall t s, finite t -> f t = Ret s -> s <> "".

(** An opening bracket, the text of the bounds, a closing bracket; the brackets tell which bounds are finite *)
Inductive shape : interval -> ascii -> string -> ascii -> Prop :=
| s_one t a : finite t -> f t = Ret a -> shape (mkI t t) "{" a "}"
| s_both t u a b : finite t -> finite u -> t <> u -> f t = Ret a -> f u = Ret b -> shape (mkI t u) "[" (a ++ "," ++ b) "]"
| s_low t a : finite t -> f t = Ret a -> shape (mkI t oo) "[" (a ++ ",+oo") "["
| s_up u b : finite u -> f u = Ret b -> shape (mkI (- oo) u) "]" ("-oo," ++ b) "]"
| s_all : shape (mkI (- oo) oo) "]" "-oo,+oo" "[".

Lemma shaped none i s : loose i -> iv_text none f i = Ret s ->
  exists o b c, shape i o b c /\ s = String o (b ++ String c "").
Proof.
  destruct i as (t, u). unfold loose. cbn [lower upper]. intros (A & C & D & E).
  unfold iv_text, iv_is_empty, iv_is_singleton, iv_is_low_bounded, iv_is_up_bounded, is_future_infinite, is_past_infinite.
  change INF with oo. cbn [lower upper].
  assert (O : oo = 9223372036854775807) by reflexivity.
  destruct (Z.eqb_spec t oo) as [T|T]; [lia|].
  destruct (Z.eqb_spec t u) as [<-|N].
  - destruct (f t) as [a| | |] eqn:Ea; try discriminate. cbn [bind]. intros X. injection X as <-.
    exists "{"%char, a, "}"%char. split; [constructor; auto; unfold finite; lia|reflexivity].
  - destruct (Z.eqb_spec t (- oo)) as [->|T']; cbn [negb].
    + destruct (Z.eqb_spec u oo) as [->|U']; cbn [negb].
      * intros X. injection X as <-. exists "]"%char, "-oo,+oo", "["%char. split; [constructor|reflexivity].
      * destruct (f u) as [b| | |] eqn:Eb; try discriminate. cbn [bind]. intros X. injection X as <-.
        exists "]"%char, ("-oo," ++ b), "]"%char. split; [constructor; auto; unfold finite; lia|]. rewrite app_assoc_s. reflexivity.
    + destruct (f t) as [a| | |] eqn:Ea; try (destruct (negb (u =? oo)); discriminate).
      destruct (Z.eqb_spec u oo) as [->|U']; cbn [negb bind].
      * intros X. injection X as <-. exists "["%char, (a ++ ",+oo"), "["%char.
        split; [constructor; auto; unfold finite; lia|]. rewrite app_assoc_s. reflexivity.
      * destruct (f u) as [b| | |] eqn:Eb; try discriminate. cbn [bind]. intros X. injection X as <-.
        exists "["%char, (a ++ "," ++ b), "]"%char. split; [constructor; auto; unfold finite; lia|].
        rewrite !app_assoc_s. reflexivity.
Qed.
Lemma shape_inside i o b c : shape i o b c -> chars inside b = true /\ chars notnl b = true /\
  bracket o = true /\ bracket c = true /\ b <> "" /\ chars notnl (String o "") = true /\ chars notnl (String c "") = true.
Proof.
  intros H. assert (P : forall t a, finite t -> f t = Ret a -> chars inside a = true /\ chars notnl a = true).
  { intros t a Ft E. pose proof (f_plain t a Ft E). split; [apply plain_inside|apply plain_notnl]; auto. }
  destruct H as [t a Ft Ea|t u a b Ft Fu N Ea Eb|t a Ft Ea|u b Fu Eb|].
  - destruct (P t a Ft Ea). repeat split; auto. eapply f_nonempty; eauto.
  - destruct (P t a Ft Ea) as (A1 & A2), (P u b Fu Eb) as (B1 & B2). rewrite !chars_app, A1, A2, B1, B2.
    repeat split; auto. destruct a; discriminate.
  - destruct (P t a Ft Ea) as (A1 & A2). rewrite !chars_app, A1, A2. repeat split; auto. destruct a; discriminate.
  - destruct (P u b Fu Eb) as (A1 & A2). rewrite !chars_app, A1, A2. repeat split; auto. discriminate.
  - repeat split; discriminate.
Qed.
Lemma about_refl t : about t t.
Proof. unfold about. split; [lia|tauto]. Qed.
Lemma about_finite t u s : finite t -> finite u -> f t = Ret s -> f u = Ret s -> about t u.
Proof.
  intros Ft Fu Et Eu. split; [eapply f_about; eauto|]. unfold finite in *. lia.
Qed.
Lemma shape_about i j o b c : shape i o b c -> shape j o b c -> about_iv i j.
Proof.
  assert (K : forall a b a' b', chars plain a = true -> chars plain a' = true -> a ++ "," ++ b = a' ++ "," ++ b' -> a = a' /\ b = b').
  { intros x y x' y' Hx Hx' E. destruct (split_eq plain x x' ("," ++ y) ("," ++ y') Hx Hx' eq_refl eq_refl E) as (E1 & E2).
    injection E2 as E2. auto. }
  intros H H'. unfold about_iv.
  destruct H as [t a Ft Ea|t u a b Ft Fu N Ea Eb|t a Ft Ea|u b Fu Eb|]; inversion H'; subst; cbn [lower upper].
  - assert (about t t0) by (eapply about_finite; eauto). tauto.
  - match goal with H : _ ++ _ = _ ++ _ |- _ => apply K in H as (-> & ->); eauto using f_plain end.
    split; [eapply about_finite; eauto|]. split; [eapply about_finite; eauto|]. tauto.
  - match goal with H : _ ++ _ = _ ++ _ |- _ => apply app_inj_r in H as -> end.
    split; [eapply about_finite; eauto|]. split; [apply about_refl|]. unfold finite in *. lia.
  - split; [apply about_refl|]. split; [eapply about_finite; eauto|]. unfold finite in *. lia.
  - split; [apply about_refl|]. split; [apply about_refl|]. tauto.
Qed.
(** The text of an interval is followed by anything *)
Lemma iv_text_split none i j s s' r r' : loose i -> loose j -> iv_text none f i = Ret s -> iv_text none f j = Ret s' ->
  s ++ r = s' ++ r' -> about_iv i j /\ r = r'.
Proof.
  intros Wi Wj Ei Ej E. destruct (shaped _ _ _ Wi Ei) as (o & b & c & S & ->). destruct (shaped _ _ _ Wj Ej) as (o' & b' & c' & S' & ->).
  cbn [append] in E. rewrite !app_assoc_s in E. cbn [append] in E. injection E as <- E.
  destruct (shape_inside _ _ _ _ S) as (I1 & _ & _ & I2 & _). destruct (shape_inside _ _ _ _ S') as (I1' & _ & _ & I2' & _).
  destruct (split_eq inside b b' (String c r) (String c' r') I1 I1') as (<- & X); auto; try (cbn; unfold inside; rewrite ?I2, ?I2'; reflexivity).
  injection X as <- <-. split; auto. eapply shape_about; eauto.
Qed.

(** ** Texts of sets *)

Lemma set_pieces none l s : set_text none f l = Ret s -> l <> [] ->
  exists xs, Forall2 (fun i x => iv_text none f i = Ret x) l xs /\ s = String.concat "U" xs.
Proof.
  destruct l as [|i l]; [congruence|]. intros E _. unfold set_text in E.
  destruct (iv_text none f i) as [x| | |] eqn:Ei; try discriminate. cbn [bind] in E.
  cut (forall p, exists xs, Forall2 (fun i x => iv_text none f i = Ret x) l xs /\
    (ofold (fun s j => x <- iv_text none f j ;; Ret (s ++ "U" ++ x)) (p ++ x) l = Ret s -> s = p ++ String.concat "U" (x :: xs))).
  { intros G. destruct (G "") as (xs & F & C). exists (x :: xs). split; [constructor; auto|]. apply C. exact E. }
  intros p. 
  assert (T : exists xs, Forall2 (fun i x => iv_text none f i = Ret x) l xs).
  { clear Ei. revert x E. induction l as [|j l IH]; intros x E; [exists []; constructor|]. cbn [ofold] in E.
    destruct (iv_text none f j) as [y| | |] eqn:Ej; try discriminate. cbn [bind] in E. destruct (IH _ E) as (xs & F).
    exists (y :: xs). constructor; auto. }
  destruct T as (xs & F). exists xs. split; auto. clear E Ei i. revert p x. induction F as [|j y l xs Ej F IH]; intros p x; cbn [ofold].
  - intros X. injection X as <-. reflexivity.
  - rewrite Ej. cbn [bind]. rewrite concat_cons by discriminate. intros X.
    rewrite <- (app_assoc_s p x), <- (app_assoc_s (p ++ x) "U"). apply IH. rewrite app_assoc_s. exact X.
Qed.
Lemma pieces_about none l xs : Forall2 (fun i x => iv_text none f i = Ret x) l xs -> Forall loose l ->
  forall m ys, Forall2 (fun i x => iv_text none f i = Ret x) m ys -> Forall loose m -> l <> [] -> m <> [] ->
  String.concat "U" xs = String.concat "U" ys -> Forall2 about_iv l m.
Proof.
  induction 1 as [|i x l xs Ei F IH]; intros Wl m ys G Wm Nl Nm E; [congruence|].
  destruct G as [|j y m ys Ej G]; [congruence|]. inversion Wl; subst. inversion Wm; subst.
  destruct F as [|i' x' l xs Ei' F], G as [|j' y' m ys Ej' G].
  - cbn [String.concat] in E. destruct (iv_text_split none i j x y "" "") as (A & _); auto. now rewrite !app_nil_s.
  - rewrite (concat_cons "U" y) in E by discriminate. cbn [String.concat] in E. rewrite <- (app_nil_s x) in E.
    apply (iv_text_split none i j) in E as (_ & E); auto. discriminate.
  - rewrite (concat_cons "U" x) in E by discriminate. change (String.concat "U" [y]) with y in E. rewrite <- (app_nil_s y) in E.
    apply (iv_text_split none i j) in E as (_ & E); auto. discriminate.
  - rewrite (concat_cons "U" x), (concat_cons "U" y) in E by discriminate.
    apply (iv_text_split none i j) in E as (A & E); auto. injection E as E. constructor; auto.
    apply IH with (ys := y' :: ys); auto; try discriminate.
Qed.
Lemma piece_long none l xs : Forall2 (fun i x => iv_text none f i = Ret x) l xs -> Forall loose l -> l <> [] ->
  String.concat "U" xs <> "{}".
Proof.
  intros F W N E. destruct F as [|i x l xs Ei F]; [congruence|]. inversion W; subst.
  destruct (shaped none i x) as (o & b & c & S & ->); auto. destruct (shape_inside _ _ _ _ S) as (I & _ & _ & _ & B & _).
  assert (X : exists r, String o (b ++ String c r) = "{}").
  { destruct F as [|j y l xs Ej F]; [exists ""; exact E|]. rewrite concat_cons in E by discriminate.
    cbn [append] in E. rewrite app_assoc_s in E. eexists. exact E. }
  destruct X as (r & X). injection X as _ X. destruct b as [|d b]; [congruence|]. cbn [append] in X. injection X as -> X.
  discriminate I.
Qed.
Lemma set_about l m s : Forall loose l -> Forall loose m -> set_display f l = Ret s -> set_display f m = Ret s -> Forall2 about_iv l m.
Proof.
  intros Wl Wm El Em. destruct l as [|i l], m as [|j m]; auto.
  - cbn in El. injection El as <-. apply set_pieces in Em as (ys & G & E); [|discriminate]. symmetry in E.
    now apply (piece_long _ _ _ G Wm) in E.
  - cbn in Em. injection Em as <-. apply set_pieces in El as (ys & G & E); [|discriminate]. symmetry in E.
    now apply (piece_long _ _ _ G Wl) in E.
  - apply set_pieces in El as (xs & F & E); [|discriminate]. apply set_pieces in Em as (ys & G & E'); [|discriminate].
    eapply pieces_about; eauto; try discriminate. congruence.
Qed.
Lemma set_notnl l s : Forall loose l -> set_display f l = Ret s -> chars notnl s = true.
Proof.
  intros W E. destruct l as [|i l]; [cbn in E; injection E as <-; reflexivity|].
  apply set_pieces in E as (xs & F & ->); [|discriminate].
  assert (N : Forall (fun x => chars notnl x = true) xs).
  { clear - F W f_about f_plain f_nonempty. induction F as [|j x l' xs Ej F IH]; [constructor|]. inversion W; subst. constructor; auto.
    destruct (shaped _ _ _ H1 Ej) as (o & b & c & S & ->). destruct (shape_inside _ _ _ _ S) as (_ & B & _ & _ & _ & O & C).
    cbn [chars] in O |- *. rewrite chars_app, B, C. rewrite andb_true_r in O. rewrite O. reflexivity. }
  clear F. induction N as [|x xs Hx N IH]; [reflexivity|]. destruct xs as [|y xs]; [exact Hx|].
  rewrite concat_cons by discriminate. rewrite !chars_app, Hx, IH. reflexivity.
Qed.
End Texts.

(** ** Points *)

Lemma canonical_loose l : canonical l -> Forall loose l.
Proof. induction l as [|i l IH]; [constructor|]. intros (W & _ & C). constructor; auto. unfold loose. unfold wf_iv in W. lia. Qed.
Lemma nanosecond p t u : 0 <= t -> 0 <= u -> as_secs t = as_secs u -> subsec_nanos p t = subsec_nanos p u -> Z.abs (t - u) <= 1.
Proof.
  intros Ht Hu S N. rewrite !subsec_nanos_eq in N. injection N as N. rewrite !as_secs_floor in S.
  pose proof (Z.div_mod t ticks_per_sec). pose proof (Z.div_mod u ticks_per_sec).
  pose proof (Z.mod_pos_bound t ticks_per_sec). pose proof (Z.mod_pos_bound u ticks_per_sec).
  set (a := t mod ticks_per_sec) in *. set (b := u mod ticks_per_sec) in *.
  assert (Z.abs (a - b) <= 1); [|unfold ticks_per_sec in *; lia].
  clear - N. unfold nanos_of_frac, ticks_per_sec in N. rewrite !Z.div_div in N by lia. lia.
Qed.
Lemma phrase_plain c : Forall (fun x => 0 <= x) c -> chars plain (phrase c) = true /\ phrase c <> "".
Proof.
  intros P. unfold phrase.
  assert (W : forall w, In w (words units c) -> chars plain w = true /\ w <> "").
  { intros w H. destruct (words_form units c w H P) as (n & u & -> & Hn & Hu). rewrite chars_app. split.
    - apply andb_true_intro. split.
      + eapply chars_weaken; [|apply dec_digits; lia].
        intros x. destruct x as [b0 b1 b2 b3 b4 b5 b6 b7]; destruct b0, b1, b2, b3, b4, b5, b6, b7; cbn; auto; discriminate.
      + cbn in Hu. repeat (destruct Hu as [<-|Hu]; [reflexivity|]). destruct Hu.
    - pose proof (dec_nonempty n). destruct (dec n); [congruence|discriminate]. }
  destruct (words units c) as [|w l]; [split; [reflexivity|discriminate]|]. split.
  - revert w W. induction l as [|x l IH]; intros w W.
    + simpl. apply W. left. auto.
    + rewrite concat_cons by discriminate. rewrite !chars_app. rewrite (proj1 (W w (or_introl eq_refl))).
      rewrite (IH x); auto. intros v Hv. apply W. right. auto.
  - destruct (W w (or_introl eq_refl)) as (_ & N). destruct w as [|d w]; [congruence|]. destruct l; discriminate.
Qed.
Lemma tv_about p t u s : finite t -> finite u -> tv_display p t = Ret s -> tv_display p u = Ret s -> Z.abs (t - u) <= 1.
Proof.
  intros Ft Fu Et Eu. destruct (C60_determines p t u s Ft Fu Et Eu) as (S & A & B).
  pose proof (nanosecond p (Z.abs t) (Z.abs u) ltac:(lia) ltac:(lia) A B). lia.
Qed.
Lemma tv_plain p t s : finite t -> tv_display p t = Ret s -> chars plain s = true /\ s <> "".
Proof.
  intros F E. destruct (C60_text_partial p t F) as (c & n & E' & L & _). rewrite E in E'. injection E' as ->.
  destruct (phrase_plain c) as (P & N). { clear - L. induction L; constructor; auto; lia. }
  rewrite chars_app, P. destruct (t <? 0); split; auto; discriminate.
Qed.
Lemma ts_about p t u s : finite t -> finite u -> ts_show p t = Ret s -> ts_show p u = Ret s -> Z.abs (t - u) <= 1.
Proof.
  intros Ft Fu Et Eu. destruct (C95_determines p t u s Ft Fu Et Eu) as (S & A & B).
  pose proof (nanosecond p (Z.abs t) (Z.abs u) ltac:(lia) ltac:(lia) A B). lia.
Qed.
Lemma ts_plain p t s : finite t -> ts_show p t = Ret s -> chars plain s = true /\ s <> "".
Proof.
  intros F E. unfold finite in F.
  assert (D : forall s, chars digit s = true -> chars plain s = true).
  { intros x. apply chars_weaken. intros c. destruct c as [b0 b1 b2 b3 b4 b5 b6 b7]; destruct b0, b1, b2, b3, b4, b5, b6, b7; cbn; auto; discriminate. }
  destruct (Z.ltb_spec t 0) as [L|L].
  - destruct (before_text p t) as (c & P & _ & X); [lia|]. rewrite E in X. injection X as ->.
    destruct (phrase_plain c P) as (Q & N). rewrite chars_app, Q. split; [reflexivity|]. destruct (phrase c); discriminate.
  - destruct (C95_text p t) as (a & b & cc & d & e & f & g & y & m & dd & h & mi & sc & ns & Y & (La & Da & _) & (_ & Db & _) &
      (_ & Dc & _) & (_ & Dd & _) & (_ & De & _) & (_ & Df & _) & G & _); [lia|].
    rewrite E in Y. injection Y as ->.
    assert (Pg : chars plain g = true).
    { destruct G as [(-> & _)|(k & _ & r & v & -> & (_ & Dr & _) & _)]; [reflexivity|]. cbn [chars]. rewrite D; auto. }
    split; [|destruct a; discriminate].
    repeat (cbn [append chars]; rewrite ?chars_app). rewrite (D a), (D b), (D cc), (D d), (D e), (D f), Pg by auto. reflexivity.
Qed.

(** ** C96 *)

(** The Display text of a set of durations tells how many intervals it has, which of them are singletons, which bounds
    are infinite, and each bound up to one tick. *)
Theorem C96_durations : forall p l m s, canonical l -> canonical m ->
  set_display (tv_display p) l = Ret s -> set_display (tv_display p) m = Ret s -> Forall2 about_iv l m.
Proof.
  intros p l m s Cl Cm. apply set_about; auto using canonical_loose.
  - apply tv_about.
  - intros t x F E. apply (tv_plain p t x F E).
  - intros t x F E. apply (tv_plain p t x F E).
Qed.
(** So does the text of a set of timestamps. *)
Theorem C96_timestamps : forall p l m s, canonical l -> canonical m ->
  set_display (ts_show p) l = Ret s -> set_display (ts_show p) m = Ret s -> Forall2 about_iv l m.
Proof.
  intros p l m s Cl Cm. apply set_about; auto using canonical_loose.
  - apply ts_about.
  - intros t x F E. apply (ts_plain p t x F E).
  - intros t x F E. apply (ts_plain p t x F E).
Qed.
(** The Display text of a scheduler, of any graph and after any session, always exists; it has one line by instant, with
    the text of its slot. *)
Theorem C96_scheduler_text : forall p g s, stored g -> proper p g -> session p g s ->
  exists texts, Forall2 (fun l x => set_display (ts_show p) l = Ret x) (sc_slots s) texts /\
  sc_display p (ts_date p) s = Ret (slot_lines texts).
Proof.
  intros p g s M P Se. apply (C74_display p (ts_date p) g s M P Se). intros t H.
  destruct (show_from p t H) as (ns & _ & E). exists (dt_text (as_secs t) ns). rewrite <- E.
  unfold ts_show, ts_display, is_positive. replace (0 <=? t) with true by lia.
  replace (is_future_infinite t) with false by (unfold is_future_infinite, INF, i64_max; unfold oo in H; lia). reflexivity.
Qed.
Lemma session_loose p g s : stored g -> proper p g -> session p g s -> Forall (Forall loose) (sc_slots s).
Proof.
  intros M P Se. apply stored_mem in M. apply proper_prop in P; auto. destruct (session_sinv _ _ _ M P Se) as (_ & L & N).
  apply Forall_forall. intros l Hl. apply In_nth with (d := []) in Hl as (k & Hk & <-). apply Forall_forall. intros i Hi.
  specialize (N (Z.of_nat k)). unfold sl in N. rewrite Nat2Z.id in N. assert (K : 0 <= Z.of_nat k < g_size g) by (unfold tset in *; lia).
  destruct (near_from_In _ _ _ (N K) Hi) as (_ & X). unfold near, loose in *. lia.
Qed.
(** Two schedulers with the same text, even of different graphs, have as many instants and slots that differ by one tick
    at most. *)
Theorem C96_scheduler : forall p g s g' s' x, stored g -> proper p g -> session p g s -> stored g' -> proper p g' -> session p g' s' ->
  sc_display p (ts_date p) s = Ret x -> sc_display p (ts_date p) s' = Ret x -> Forall2 (Forall2 about_iv) (sc_slots s) (sc_slots s').
Proof.
  intros p g s g' s' x M P Se M' P' Se' E E'.
  destruct (C96_scheduler_text p g s M P Se) as (ts & T & D). destruct (C96_scheduler_text p g' s' M' P' Se') as (ts' & T' & D').
  pose proof (session_loose p g s M P Se) as V. pose proof (session_loose p g' s' M' P' Se') as V'.
  rewrite D in E. rewrite D' in E'. injection E as E. injection E' as E'. rewrite <- E' in E.
  assert (N : forall ls xs, Forall2 (fun l x => set_display (ts_show p) l = Ret x) ls xs -> Forall (Forall loose) ls ->
    forall y, In y xs -> chars notnl y = true).
  { clear. induction 1 as [|l z ls xs H F IH]; intros W y []; inversion W; subst; eauto.
    eapply set_notnl; [apply ts_about| | |eassumption|exact H]; intros t w Ft Et; apply (ts_plain p t w Ft Et). }
  apply lines_inj in E; [|lia|intros y [Hy|Hy]; [exact (N _ _ T V y Hy)|exact (N _ _ T' V' y Hy)]].
  subst ts'. clear - T T' V V'. revert T' V'. generalize (sc_slots s'). revert V. induction T as [|l y ls ts H T IH]; intros V m T' V'; inversion T'; subst; constructor.
  - inversion V; subst. inversion V'; subst. eapply set_about; eauto; [apply ts_about| |]; intros t w Ft Et; apply (ts_plain p t w Ft Et).
  - inversion V; subst. inversion V'; subst. auto.
Qed.
(** The texts do not tell the sets apart exactly: two ticks may be in the same nanosecond. *)
Theorem C96_exact_refuted : exists l m, canonical l /\ canonical m /\ l <> m /\ forall p,
  (exists s, set_display (tv_display p) l = Ret s /\ set_display (tv_display p) m = Ret s) /\
  (exists s, set_display (ts_show p) l = Ret s /\ set_display (ts_show p) m = Ret s).
Proof.
  exists [mkI 6 20], [mkI 7 20]. cbn [canonical]. unfold wf_iv, oo. cbn [lower upper].
  split; [repeat split; lia|]. split; [repeat split; lia|]. split; [discriminate|].
  intros p. split.
  - exists "[6ns,19ns]". split; [destruct p; vm_compute; reflexivity|]. destruct p; vm_compute; reflexivity.
  - exists "[1970-01-01 00:00:00.000000006 UTC,1970-01-01 00:00:00.000000019 UTC]".
    split; [destruct p; vm_compute; reflexivity|]. destruct p; vm_compute; reflexivity.
Qed.

Example C96_case : forall p, let l := [mkI (- oo) (- 1073741824); mkI 6 6; mkI 1073741824 oo] in
  let m := [mkI (- oo) (- 1073741824); mkI 7 7; mkI 1073741824 oo] in canonical l /\ canonical m /\
  set_display (tv_display p) l = Ret "]-oo,- 1s]U{6ns}U[1s,+oo[" /\
  set_display (tv_display p) m = Ret "]-oo,- 1s]U{6ns}U[1s,+oo[" /\
  set_display (ts_show p) l =
    Ret "]-oo,1s before 1970-01-01 00:00:00 UTC]U{1970-01-01 00:00:00.000000006 UTC}U[1970-01-01 00:00:01 UTC,+oo[" /\
  set_display (ts_show p) m =
    Ret "]-oo,1s before 1970-01-01 00:00:00 UTC]U{1970-01-01 00:00:00.000000006 UTC}U[1970-01-01 00:00:01 UTC,+oo[".
Proof.
  intros p. cbv zeta. cbn [canonical]. unfold wf_iv, oo. cbn [lower upper].
  split; [repeat split; lia|]. split; [repeat split; lia|].
  split; [destruct p; vm_compute; reflexivity|]. split; [destruct p; vm_compute; reflexivity|].
  split; destruct p; vm_compute; reflexivity.
Qed.
Example C96_scheduler_case : forall p, stored gA /\ proper p gA /\ session p gA sA2 /\ sc_display p (ts_date p) sA2 =
  Ret ("t0 in [45ns before 1970-01-01 00:00:00 UTC,3ns before 1970-01-01 00:00:00 UTC]U{1970-01-01 00:00:00.000000002 UTC}" ++ nl ++
    "t1 in {1970-01-01 00:00:00 UTC}" ++ nl ++ "t2 in {1970-01-01 00:00:00.000000005 UTC}" ++ nl).
Proof.
  intros p. destruct (C52_history_proper _ _ _ _ _ room_3 (histA p)) as (S1 & S2). split; auto. split; auto.
  split; [apply sA2_session|]. destruct p; vm_compute; reflexivity.
Qed.
