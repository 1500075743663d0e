(** The texts of time values and windows (properties C60, C64, C65). *)
From Coq Require Import String Ascii.
From Verif Require Import Machine TimeValue Spec Tac TimeValueProofs Prop_TimeValue Interval TimeSet SpecSets
  Format TextProofs.

Local Open Scope string_scope.
Local Open Scope Z_scope.

(** ** Specification of the texts of durations *)

(** The units, in nanoseconds *)
Definition units : list (string * Z) :=
  [("y", 31556952000000000); ("mo", 2629746000000000); ("d", 86400000000000); ("h", 3600000000000);
   ("min", 60000000000); ("s", 1000000000); ("ms", 1000000); ("us", 1000); ("ns", 1)].
(** One count by unit; the null ones are not written. *)
Fixpoint words (us : list (string * Z)) (c : list Z) : list string :=
  match us, c with
  | (u, _) :: us, n :: c => ((if n =? 0 then [] else [(dec n ++ u)%string]) ++ words us c)%list
  | _, _ => []
  end.
Definition phrase (c : list Z) : string :=
  match words units c with [] => "0" | w => String.concat " " w end.
Fixpoint total (us : list (string * Z)) (c : list Z) : Z :=
  match us, c with (_, u) :: us, n :: c => n * u + total us c | _, _ => 0 end.
(** The greatest counts: less than the unit before, except for the microseconds and the
    nanoseconds, where 1000 is possible *)
Definition limits : list Z := [292; 11; 30; 23; 59; 59; 999; 1000; 1000].

(** ** Helpers *)

Definition tok (n : Z) (u : string) : list string := if n =? 0 then [] else [dec n ++ u].
Lemma unit_step p r l conv u name : 0 <= r < oo -> 0 < u -> u * ticks_per_sec < oo ->
  (forall n, 0 <= n -> n * u <= 8589934591 -> conv n = n * u * ticks_per_sec) ->
  exists c, concat_unit p (r, spaced l) conv name = Ret (r - c * (u * ticks_per_sec), spaced (l ++ tok c name)%list) /\
    0 <= c /\ 0 <= r - c * (u * ticks_per_sec) < u * ticks_per_sec.
Proof.
  intros Hr Hu Lu Hc. exists (r / (u * ticks_per_sec)).
  assert (U0 : 0 < u * ticks_per_sec) by (unfold ticks_per_sec; lia).
  pose proof (Z.div_mod r (u * ticks_per_sec)). pose proof (Z.mod_pos_bound r (u * ticks_per_sec) U0).
  assert (C0 : 0 <= r / (u * ticks_per_sec)) by (apply Z.div_pos; lia).
  split; [|split; [auto|nia]].
  unfold concat_unit, as_ticks. cbn [fst snd].
  assert (E1 : conv 1 = u * ticks_per_sec).
  { rewrite Hc; [lia|lia|]. unfold ticks_per_sec, oo in *. lia. }
  rewrite E1. rewrite div64_pos by auto. rewrite Z.quot_div_nonneg by lia. cbn [bind].
  set (c := r / (u * ticks_per_sec)) in *. unfold tok. destruct (c =? 0) eqn:E.
  - assert (c = 0) as -> by lia. rewrite Z.mul_0_l, Z.sub_0_r, app_nil_r. reflexivity.
  - assert (M : c * u <= 8589934591) by (unfold ticks_per_sec, oo in *; nia).
    rewrite Hc by auto. unfold sub64. rewrite chk64_ok by (unfold oo in *; nia).
    cbn [bind]. rewrite spaced_app. cbn [spaced]. rewrite !app_assoc_s. cbn [append]. do 3 f_equal; lia.
Qed.
Lemma conv_ok k u : 0 < u -> (forall n, k n = from_secs (sat64 (n * u))) ->
  forall n, 0 <= n -> n * u <= 8589934591 -> k n = n * u * ticks_per_sec.
Proof.
  intros Hu E n Hn L. rewrite E. unfold sat64, i64_min, i64_max. replace (Z.max _ _) with (n * u) by nia.
  apply from_secs_exact. rewrite MAX_SEC_val. nia.
Qed.
Lemma duration_text p t : 0 <= t < oo -> exists c n,
  format_duration p t = Ret (phrase c) /\ Forall2 (fun x m => 0 <= x <= m) c limits /\
  subsec_nanos p t = Ret n /\ total units c = as_secs t * 1000000000 + n.
Proof.
  intros Ht. destruct (C06_subsec_nanos p t) as (n & En & Rn & Cn1 & Cn2).
  unfold format_duration, assert_. replace (0 <=? t) with true by lia. cbn [bind].
  replace (from_ticks t) with t by (unfold from_ticks, INF, i64_max; lia). rewrite En. cbn [bind].
  unfold from_nanos. rewrite from_fract_exact; [|lia|unfold in_i64, i64_min, i64_max; lia|lia]. cbn [bind].
  assert (Q : 0 <= Z.quot (n * ticks_per_sec) 1000000000 < ticks_per_sec).
  { rewrite Z.quot_div_nonneg by (unfold ticks_per_sec; lia). unfold ticks_per_sec. lia. }
  replace (MAX_SEC <? Z.quot n 1000000000) with false
    by (rewrite MAX_SEC_val; rewrite Z.quot_small by lia; reflexivity).
  unfold as_ticks at 1, sub64. rewrite chk64_ok by (unfold ticks_per_sec, oo in *; lia). cbn [bind]. clear Q.
  destruct (t =? 0) eqn:T0.
  { assert (t = 0) as -> by lia. exists [0;0;0;0;0;0;0;0;0], n. split; [reflexivity|].
    split; [repeat constructor; lia|]. split; auto. rewrite subsec_nanos_eq in En. injection En as <-. reflexivity. }
  destruct (unit_step p t [] from_years 31556952 "y") as (c1 & E1 & P1 & L1); try (unfold ticks_per_sec, oo in *; lia).
  { apply conv_ok; [lia|reflexivity]. }
  cbn [spaced app] in E1. rewrite E1. cbn [bind]. set (r1 := t - _) in *.
  destruct (unit_step p r1 (tok c1 "y") from_months 2629746 "mo") as (c2 & E2 & P2 & L2); try (unfold ticks_per_sec, oo in *; lia).
  { apply conv_ok; [lia|reflexivity]. }
  rewrite E2. cbn [bind]. set (r2 := r1 - _) in *. set (l2 := (tok c1 "y" ++ _)%list) in *.
  destruct (unit_step p r2 l2 from_days 86400 "d") as (c3 & E3 & P3 & L3); try (unfold ticks_per_sec, oo in *; lia).
  { apply conv_ok; [lia|reflexivity]. }
  rewrite E3. cbn [bind]. set (r3 := r2 - _) in *. set (l3 := (l2 ++ _)%list) in *.
  destruct (unit_step p r3 l3 from_hours 3600 "h") as (c4 & E4 & P4 & L4); try (unfold ticks_per_sec, oo in *; lia).
  { apply conv_ok; [lia|reflexivity]. }
  rewrite E4. cbn [bind]. set (r4 := r3 - _) in *. set (l4 := (l3 ++ _)%list) in *.
  destruct (unit_step p r4 l4 from_mins 60 "min") as (c5 & E5 & P5 & L5); try (unfold ticks_per_sec, oo in *; lia).
  { apply conv_ok; [lia|reflexivity]. }
  rewrite E5. cbn [bind]. set (r5 := r4 - _) in *. set (l5 := (l4 ++ _)%list) in *.
  destruct (unit_step p r5 l5 from_secs 1 "s") as (c6 & E6 & P6 & L6); try (unfold ticks_per_sec, oo in *; lia).
  { intros m Hm Lm. rewrite from_secs_exact; [lia|]. rewrite MAX_SEC_val. lia. }
  rewrite E6. cbn [bind snd]. set (r6 := r5 - _) in *. set (l6 := (l5 ++ _)%list) in *.
  assert (N : exists c7 c8 c9, 0 <= c7 <= 999 /\ 0 <= c8 <= 1000 /\ 0 <= c9 <= 1000 /\
    n = c7 * 1000000 + c8 * 1000 + c9 /\
    (let '(str, nanos) := if 1000000 <? n then (spaced l6 ++ dec (Z.quot n 1000000) ++ "ms ", Z.rem n 1000000) else (spaced l6, n) in
     let '(str, nanos) := if 1000 <? nanos then (str ++ dec (Z.quot nanos 1000) ++ "us ", Z.rem nanos 1000) else (str, nanos) in
     let str := if 0 <? nanos then str ++ dec nanos ++ "ns " else str in
     Ret (match pop str with None => "0" | Some s => s end)) =
    Ret (match pop (spaced (((l6 ++ tok c7 "ms") ++ tok c8 "us") ++ tok c9 "ns")%list) with None => "0" | Some s => s end)).
  { assert (S : forall l c name, 0 < c -> spaced l ++ dec c ++ name ++ " " = spaced (l ++ tok c name)%list).
    { intros l c name Hc. rewrite spaced_app. unfold tok. replace (c =? 0) with false by lia. cbn [spaced].
      rewrite !app_assoc_s. auto. }
    assert (S0 : forall l name, spaced l = spaced (l ++ tok 0 name)%list) by (intros; cbn [tok Z.eqb]; rewrite app_nil_r; auto).
    set (n1 := if 1000000 <? n then Z.rem n 1000000 else n).
    set (c7 := if 1000000 <? n then Z.quot n 1000000 else 0).
    assert (Q7 : (if 1000000 <? n then (spaced l6 ++ dec (Z.quot n 1000000) ++ "ms ", Z.rem n 1000000) else (spaced l6, n)) =
      (spaced (l6 ++ tok c7 "ms")%list, n1)).
    { subst c7 n1. destruct (1000000 <? n) eqn:E; [|f_equal; apply S0]. f_equal. apply (S l6 (Z.quot n 1000000) "ms").
      rewrite Z.quot_div_nonneg by lia. lia. }
    assert (V7 : 0 <= c7 <= 999 /\ 0 <= n1 <= 1000000 /\ n = c7 * 1000000 + n1).
    { subst c7 n1. destruct (1000000 <? n) eqn:E; [|lia]. rewrite Z.quot_div_nonneg, Z.rem_mod_nonneg by lia. lia. }
    set (n2 := if 1000 <? n1 then Z.rem n1 1000 else n1).
    set (c8 := if 1000 <? n1 then Z.quot n1 1000 else 0).
    assert (Q8 : forall l, (if 1000 <? n1 then (spaced l ++ dec (Z.quot n1 1000) ++ "us ", Z.rem n1 1000) else (spaced l, n1)) =
      (spaced (l ++ tok c8 "us")%list, n2)).
    { intros l. subst c8 n2. destruct (1000 <? n1) eqn:E; [|f_equal; apply S0]. f_equal. apply (S l (Z.quot n1 1000) "us").
      rewrite Z.quot_div_nonneg by lia. lia. }
    assert (V8 : 0 <= c8 <= 1000 /\ 0 <= n2 <= 1000 /\ n1 = c8 * 1000 + n2).
    { subst c8 n2. destruct (1000 <? n1) eqn:E; [|lia]. rewrite Z.quot_div_nonneg, Z.rem_mod_nonneg by lia. lia. }
    exists c7, c8, n2. split; [lia|]. split; [lia|]. split; [lia|]. split; [lia|].
    rewrite Q7, Q8. cbn zeta. do 2 f_equal. destruct (0 <? n2) eqn:E.
    - rewrite <- (S _ n2 "ns") by lia. reflexivity.
    - replace (tok n2 "ns") with (@nil string) by (unfold tok; replace (n2 =? 0) with true by lia; reflexivity).
      rewrite app_nil_r. reflexivity. }
  destruct N as (c7 & c8 & c9 & B7 & B8 & B9 & Nn & EN).
  exists [c1; c2; c3; c4; c5; c6; c7; c8; c9], n. split; [|split; [|split; auto]].
  - etransitivity; [exact EN|]. f_equal. rewrite pop_spaced. unfold phrase.
    replace (words units [c1; c2; c3; c4; c5; c6; c7; c8; c9]) with (((l6 ++ tok c7 "ms") ++ tok c8 "us") ++ tok c9 "ns")%list.
    + destruct (_ ++ tok c9 "ns")%list; reflexivity.
    + subst l6 l5 l4 l3 l2. cbn [words units]. fold (tok c1 "y"). fold (tok c2 "mo"). fold (tok c3 "d"). fold (tok c4 "h").
      fold (tok c5 "min"). fold (tok c6 "s"). fold (tok c7 "ms"). fold (tok c8 "us"). fold (tok c9 "ns").
      rewrite app_nil_r, !app_assoc. reflexivity.
  - unfold limits, ticks_per_sec, oo in *. repeat (constructor; [lia|]). constructor.
  - rewrite as_secs_floor. replace (t / ticks_per_sec) with (c1 * 31556952 + c2 * 2629746 + c3 * 86400 + c4 * 3600 + c5 * 60 + c6).
    + cbn [total units]. lia.
    + apply Z.div_unique with (r := r6); unfold ticks_per_sec in *; lia.
Qed.

(** ** C60 *)

(** The text of a finite duration is a sign and counts of units, in decreasing order, that
    make up its seconds and nanoseconds.  Full statement: with each count below the next
    unit, i.e. with the limits 999 instead of 1000. *)
Theorem C60_text_partial : forall p t, finite t -> exists c n,
  tv_display p t = Ret ((if t <? 0 then "- " else "") ++ phrase c) /\
  Forall2 (fun x m => 0 <= x <= m) c limits /\
  subsec_nanos p (Z.abs t) = Ret n /\ total units c = as_secs (Z.abs t) * 1000000000 + n.
Proof.
  intros p t F. unfold finite in F. destruct (duration_text p (Z.abs t)) as (c & n & E & L & S & T); [lia|].
  exists c, n. split; [|auto]. unfold tv_display, as_ticks, is_future_infinite, is_past_infinite, INF, i64_max, neg64, oo in *.
  destruct (0 <=? t) eqn:P.
  - replace (t =? 9223372036854775807) with false by lia. replace (t <? 0) with false by lia.
    rewrite Z.abs_eq in E by lia. exact E.
  - replace (t =? - (9223372036854775807)) with false by lia. replace (t <? 0) with true by lia.
    rewrite chk64_ok by lia. cbn [bind]. rewrite Z.abs_neq in E by lia. rewrite E. reflexivity.
Qed.
(** In ticks: the written total is the duration, to the nanosecond. *)
Theorem C60_precision : forall p t, finite t -> exists c,
  tv_display p t = Ret ((if t <? 0 then "- " else "") ++ phrase c) /\
  Forall (fun x => 0 <= x) c /\ Z.abs (total units c * ticks_per_sec - Z.abs t * 1000000000) <= ticks_per_sec.
Proof.
  intros p t F. destruct (C60_text_partial p t F) as (c & n & E & L & S & T). exists c. split; auto. split.
  - clear - L. induction L; constructor; auto. lia.
  - rewrite T. destruct (C06_subsec_nanos p (Z.abs t)) as (n' & E' & R & C1 & C2). rewrite S in E'. injection E' as <-.
    unfold frac_ticks in *. unfold ticks_per_sec in *. lia.
Qed.
Theorem C60_infinite : forall p, tv_display p oo = Ret "+oo" /\ tv_display p (- oo) = Ret "-oo".
Proof. intros p. split; reflexivity. Qed.
(** Partial: false for the infinite dates, which are printed as numbers (C60_timepoint_refuted). *)
Theorem C60_timepoint_partial : forall p t, finite t -> tv_format p t = tv_display p t.
Proof.
  intros p t F. unfold tv_format, tv_display, is_positive, as_ticks, is_future_infinite, is_past_infinite, INF, i64_max, finite, oo in *.
  destruct (0 <=? t) eqn:P.
  - replace (t =? 9223372036854775807) with false by lia. auto.
  - replace (t =? - (9223372036854775807)) with false by lia. auto.
Qed.

(** The text determines the sign, the seconds and the nanoseconds. *)
Definition letter (c : ascii) : bool := negb (digit c).
Lemma words_form us c w : In w (words us c) -> Forall (fun x => 0 <= x) c ->
  exists n u, w = dec n ++ u /\ 0 < n /\ In u (map fst us).
Proof.
  revert c. induction us as [|(u, k) us IH]; intros c H P; [destruct c; destruct H|].
  destruct c as [|n c]; [destruct H|]. cbn [words] in H. inversion P as [|? ? P1 P2]; subst. apply in_app_or in H as [H|H].
  - destruct (n =? 0) eqn:E; [destruct H|]. destruct H as [<-|[]]. exists n, u. split; auto. split; [lia|simpl; auto].
  - destruct (IH c H P2) as (m & v & Hm & Hp & Hv). exists m, v. simpl. auto.
Qed.
Lemma dec_unit_inj a b u v : 0 <= a -> 0 <= b -> stop digit u = true -> stop digit v = true ->
  dec a ++ u = dec b ++ v -> a = b /\ u = v.
Proof.
  intros Ha Hb Hu Hv E. destruct (split_eq digit _ _ _ _ (dec_digits a Ha) (dec_digits b Hb) Hu Hv E) as (E1 & E2).
  split; auto. apply dec_inj. auto.
Qed.
Lemma words_inj us : NoDup (map fst us) -> (forall u, In u (map fst us) -> stop digit u = true) ->
  forall c c', length c = length us -> length c' = length us -> Forall (fun x => 0 <= x) c -> Forall (fun x => 0 <= x) c' ->
  words us c = words us c' -> c = c'.
Proof.
  induction us as [|(u, k) us IH]; intros ND St c c' L L' P P' E.
  - destruct c, c'; try discriminate. auto.
  - destruct c as [|n c]; [discriminate|]. destruct c' as [|n' c']; [discriminate|].
    cbn [length] in L, L'. injection L as L. injection L' as L'.
    inversion P as [|? ? P1 P2]; subst. inversion P' as [|? ? P1' P2']; subst.
    inversion ND as [|? ? N1 N2]; subst. cbn [words] in E.
    assert (IHc := IH N2 (fun v Hv => St v (or_intror Hv)) c c' L L' P2 P2').
    assert (Su : stop digit u = true) by (apply St; left; auto).
    assert (X : forall m d, Forall (fun x => 0 <= x) d -> 0 < m -> ~ In (dec m ++ u) (words us d)).
    { intros m d Pd Pm H. destruct (words_form us d _ H Pd) as (m' & v & Hm & Hp & Hv).
      apply dec_unit_inj in Hm as (_ & ->); auto; try lia. apply St. right. auto. }
    destruct (n =? 0) eqn:E1, (n' =? 0) eqn:E2; cbn [app] in E.
    + f_equal; [lia|]. auto.
    + exfalso. apply (X n' c); auto; [lia|]. rewrite E. left. auto.
    + exfalso. apply (X n c'); auto; [lia|]. rewrite <- E. left. auto.
    + injection E as E3 E4. apply dec_unit_inj in E3 as (-> & _); auto. f_equal. auto.
Qed.
Lemma unit_names : NoDup (map fst units) /\ forall u, In u (map fst units) -> stop digit u = true /\ u <> "" /\
  chars (fun c => negb (c =? " ")%char) u = true.
Proof.
  split.
  - cbn. repeat (constructor; [simpl; intuition discriminate|]). constructor.
  - cbn. intros u H. repeat (destruct H as [<-|H]; [split; [reflexivity|split; [discriminate|reflexivity]]|]). destruct H.
Qed.
Lemma word_chars c w : Forall (fun x => 0 <= x) c -> In w (words units c) ->
  chars (fun c => negb (c =? " ")%char) w = true /\ w <> "" /\ exists a r, w = String a r /\ digit a = true.
Proof.
  intros P H. destruct (words_form units c w H P) as (n & u & -> & Hn & Hu).
  destruct (proj2 unit_names u Hu) as (S & N & C).
  assert (D : chars digit (dec n) = true) by (apply dec_digits; lia).
  split.
  - rewrite chars_app, C, andb_true_r. eapply chars_weaken; [|exact D].
    intros x. destruct x as [b0 b1 b2 b3 b4 b5 b6 b7]; destruct b0, b1, b2, b3, b4, b5, b6, b7; cbn; auto; discriminate.
  - destruct (dec n) as [|a r] eqn:E; [destruct (dec_nonempty n E)|]. split; [discriminate|].
    exists a, (r ++ u). split; auto. cbn in D. apply andb_prop in D. tauto.
Qed.
Lemma phrase_inj c c' : length c = 9%nat -> length c' = 9%nat -> Forall (fun x => 0 <= x) c -> Forall (fun x => 0 <= x) c' ->
  phrase c = phrase c' -> c = c'.
Proof.
  intros L L' P P' E. apply (words_inj units); auto; [apply unit_names|intros u Hu; apply unit_names; auto|].
  assert (Z0 : forall d, Forall (fun x => 0 <= x) d -> words units d <> [] -> String.concat " " (words units d) <> "0").
  { intros d Pd Nd Ed. destruct (words units d) as [|w l] eqn:Ew; [contradiction|].
    destruct (words_form units d w) as (n & u & Hw & Hn & Hu); auto; [rewrite Ew; left; auto|].
    destruct (proj2 unit_names u Hu) as (S & N & _).
    assert (R : exists r, String.concat " " (w :: l) = dec n ++ u ++ r).
    { destruct l as [|x l]; [exists ""; simpl; rewrite app_nil_s; auto|].
      exists (" " ++ String.concat " " (x :: l)). rewrite concat_cons by discriminate. rewrite Hw, !app_assoc_s. auto. }
    destruct R as (r & Er). rewrite Er in Ed.
    destruct (split_eq digit (dec n) "0" (u ++ r) "") as (_ & E2); auto.
    - apply dec_digits. lia.
    - destruct u; [congruence|]. exact S.
    - destruct u; [congruence|discriminate]. }
  unfold phrase in E. pose proof (Z0 c P) as Zc. pose proof (Z0 c' P') as Zc'.
  destruct (words units c) as [|w l] eqn:Ec, (words units c') as [|w' l'] eqn:Ec'; auto.
  - symmetry in E. destruct Zc'; auto. discriminate.
  - destruct Zc; auto. discriminate.
  - apply (concat_inj " "%char); auto. intros x [H|H].
    + rewrite <- Ec in H. destruct (word_chars c x P H) as (H1 & H2 & _). auto.
    + rewrite <- Ec' in H. destruct (word_chars c' x P' H) as (H1 & H2 & _). auto.
Qed.
Lemma phrase_head c : Forall (fun x => 0 <= x) c -> exists a r, phrase c = String a r /\ digit a = true.
Proof.
  intros P. unfold phrase. destruct (words units c) as [|w l] eqn:E; [exists "0"%char, ""; auto|].
  destruct (word_chars c w P) as (_ & _ & a & r & -> & D); [rewrite E; left; auto|].
  destruct l as [|x l]; [exists a, r; auto|]. rewrite concat_cons by discriminate. eexists a, _. split; [reflexivity|auto].
Qed.
Theorem C60_determines : forall p t u s, finite t -> finite u -> tv_display p t = Ret s -> tv_display p u = Ret s ->
  (t < 0 <-> u < 0) /\ as_secs (Z.abs t) = as_secs (Z.abs u) /\ subsec_nanos p (Z.abs t) = subsec_nanos p (Z.abs u).
Proof.
  intros p t u s Ft Fu Et Eu.
  destruct (C60_text_partial p t Ft) as (c & n & E & L & S & T). destruct (C60_text_partial p u Fu) as (c' & n' & E' & L' & S' & T').
  assert (P : forall c, Forall2 (fun x m => 0 <= x <= m) c limits -> length c = 9%nat /\ Forall (fun x => 0 <= x) c).
  { intros d H. split; [change 9%nat with (length limits); clear - H; induction H; simpl; congruence|]. clear - H. induction H; constructor; auto. lia. }
  destruct (P c L) as (L9 & P0). destruct (P c' L') as (L9' & P0').
  rewrite E in Et. rewrite E' in Eu. injection Et as Es. rewrite <- Es in Eu. injection Eu as Eq.
  destruct (phrase_head c P0) as (a & r & Ha & Da). destruct (phrase_head c' P0') as (a' & r' & Ha' & Da').
  assert (X : (t < 0 <-> u < 0) /\ phrase c = phrase c').
  { destruct (t <? 0) eqn:E1, (u <? 0) eqn:E2; cbn [append] in Eq.
    - split; [lia|]. injection Eq as Eq. auto.
    - exfalso. rewrite Ha' in Eq. injection Eq as Eq _. subst a'. discriminate.
    - exfalso. rewrite Ha in Eq. injection Eq as Eq _. subst a. discriminate.
    - split; [lia|]. auto. }
  destruct X as (X1 & X2). split; auto. apply phrase_inj in X2; auto. subst c'. rewrite T in T'.
  destruct (C06_subsec_nanos p (Z.abs t)) as (m & M1 & M2 & _). rewrite S in M1. injection M1 as <-.
  destruct (C06_subsec_nanos p (Z.abs u)) as (m & M1 & M3 & _). rewrite S' in M1. injection M1 as <-.
  rewrite S, S'. assert (as_secs (Z.abs t) = as_secs (Z.abs u)) by lia. split; auto. f_equal. lia.
Qed.
(** A count may reach the next unit: no list of counts below the next unit has the text. *)
Theorem C60_limit_refuted : exists t, finite t /\ forall p, exists s, tv_display p t = Ret s /\
  forall c, Forall2 (fun x m => 0 <= x <= Z.min 999 m) c limits -> s <> phrase c.
Proof.
  exists 1073742. split; [unfold finite, oo; lia|]. intros p. exists "1000us". split; [destruct p; vm_compute; reflexivity|].
  intros c H E. change "1000us" with (phrase [0; 0; 0; 0; 0; 0; 0; 1000; 0]) in E.
  apply phrase_inj in E; auto.
  - subst c. unfold limits in H. repeat match goal with H : Forall2 _ (_ :: _) _ |- _ => inversion H; subst; clear H end. lia.
  - change 9%nat with (length limits). clear - H. induction H; simpl; congruence.
  - repeat constructor; lia.
  - clear - H. induction H; constructor; auto. lia.
Qed.
(** [format_timepoint] writes an infinite duration as a finite one. *)
Theorem C60_timepoint_refuted : exists t c, ~ finite t /\ forall p,
  tv_format p t = Ret (phrase c) /\ tv_display p t = Ret "+oo" /\ phrase c = "272y 2mo 13d 16h 55min 55s 999ms 999us 999ns".
Proof.
  exists oo, [272; 2; 13; 16; 55; 55; 999; 999; 999]. split; [unfold finite; lia|].
  intros []; (split; [|split]); vm_compute; reflexivity.
Qed.
Example C60_case : forall p, exists s, finite (- (123456789012345678)) /\ tv_display p (- (123456789012345678)) = Ret s /\
  s = "- 3y 7mo 21d 23h 30min 16s 596ms 737us 696ns" /\ phrase [3; 7; 21; 23; 30; 16; 596; 737; 696] = "3y 7mo 21d 23h 30min 16s 596ms 737us 696ns" /\
  tv_display p (- (123456789012345679)) = Ret "- 3y 7mo 21d 23h 30min 16s 596ms 737us 697ns".
Proof.
  intros p. eexists. split; [unfold finite, oo; lia|]. split; [destruct p; vm_compute; reflexivity|].
  split; [reflexivity|]. split; [vm_compute; reflexivity|]. destruct p; vm_compute; reflexivity.
Qed.

(** ** C64: the Debug texts tell the values apart *)

Definition point_char (c : ascii) : bool :=
  digit c || (c =? "-")%char || (c =? "+")%char || (c =? "o")%char || (c =? "t")%char || (c =? "=")%char.
Lemma dec_char n : chars point_char (dec n) = true.
Proof.
  eapply chars_weaken; [|apply dec_signed]. intros c H. unfold point_char. rewrite H. reflexivity.
Qed.
Lemma tv_debug_char t : chars point_char (tv_debug t) = true.
Proof.
  unfold tv_debug. destruct (0 <=? t), (is_future_infinite t), (is_past_infinite t); try reflexivity; apply dec_char.
Qed.
Lemma tv_debug_nonempty t : tv_debug t <> "".
Proof.
  unfold tv_debug. destruct (0 <=? t), (is_future_infinite t), (is_past_infinite t); try discriminate; apply dec_nonempty.
Qed.
Lemma dec_oo n : dec n <> "+oo" /\ dec n <> "-oo".
Proof. pose proof (dec_signed n) as H. split; intros E; rewrite E in H; discriminate. Qed.
Theorem C64_duration : forall t u, valid t -> valid u -> tv_debug t = tv_debug u -> t = u.
Proof.
  intros t u Vt Vu E. unfold tv_debug, is_future_infinite, is_past_infinite, INF, i64_max, valid, oo in *.
  pose proof (dec_oo t). pose proof (dec_oo u).
  destruct (0 <=? t) eqn:T0, (0 <=? u) eqn:U0, (t =? 9223372036854775807) eqn:T1, (u =? 9223372036854775807) eqn:U1,
    (t =? - (9223372036854775807)) eqn:T2, (u =? - (9223372036854775807)) eqn:U2; try lia; try (apply dec_inj; assumption);
    exfalso; intuition congruence.
Qed.
Theorem C64_timestamp : forall t u, valid t -> valid u -> ts_debug t = ts_debug u -> t = u.
Proof. intros t u Vt Vu E. unfold ts_debug in E. apply app_inj_l in E. apply C64_duration; auto. Qed.

Section Debug.
Variable f : Z -> string.
Hypothesis f_inj : forall t u, valid t -> valid u -> f t = f u -> t = u.
Hypothesis f_char : forall t, chars point_char (f t) = true.
Hypothesis f_nonempty : forall t, f t <> "".

Lemma f_split t u c d : valid t -> valid u -> stop point_char c = true -> stop point_char d = true ->
  f t ++ c = f u ++ d -> t = u /\ c = d.
Proof.
  intros Vt Vu Hc Hd E. destruct (split_eq point_char _ _ _ _ (f_char t) (f_char u) Hc Hd E) as (E1 & E2). auto.
Qed.
Lemma f_oo t r : stop point_char r = true -> f t ++ r <> "+oo[" \/ r = "[".
Proof.
  intros Hr. destruct (string_dec r "["); auto. left. intros E. change "+oo[" with ("+oo" ++ "[") in E.
  destruct (split_eq point_char (f t) "+oo" r "[" (f_char t) eq_refl Hr eq_refl E). auto.
Qed.
Lemma iv_debug_inj i j : valid_iv i -> valid_iv j -> iv_debug f i = iv_debug f j -> i = j.
Proof.
  destruct i as (a, b), j as (c, d). unfold valid_iv. cbn [lower upper]. intros (Va & Vb) (Vc & Vd).
  unfold iv_debug, iv_is_low_bounded, iv_is_up_bounded, is_past_infinite, is_future_infinite, INF, i64_max. cbn [lower upper].
  assert (B : forall t, f t ++ "]" <> "+oo[") by (intros t E; destruct (f_oo t "]"); auto; discriminate).
  destruct (a =? _) eqn:Ea, (b =? _) eqn:Eb; cbn [negb]; try (destruct (a =? b) eqn:Eab);
    destruct (c =? _) eqn:Ec, (d =? _) eqn:Ed; cbn [negb]; try (destruct (c =? d) eqn:Ecd); cbn [append]; intros E; try discriminate;
    try (f_equal; lia); injection E as E;
    try (exfalso; eapply B; eauto; fail); try (exfalso; eapply B; symmetry; eauto; fail).
  all: try (f_equal; lia).
  all: try (apply f_split in E as (E1 & E2); auto; first [discriminate | injection E2 as E2 | clear E2]).
  all: try (exfalso; eapply B; eauto; fail); try (exfalso; eapply B; symmetry; eauto; fail).
  all: try (apply f_split in E2 as (E2 & _); auto).
  all: f_equal; lia.
Qed.
Definition window_char (c : ascii) : bool := point_char c ||
  (c =? "[")%char || (c =? "]")%char || (c =? "{")%char || (c =? "}")%char || (c =? ",")%char.
Lemma f_window t : chars window_char (f t) = true.
Proof. eapply chars_weaken; [|apply f_char]. intros c H. unfold window_char. rewrite H. reflexivity. Qed.
Lemma iv_debug_char i : chars window_char (iv_debug f i) = true.
Proof.
  unfold iv_debug. destruct (iv_is_low_bounded i), (iv_is_up_bounded i), (lower i =? upper i);
    repeat (cbn [append chars]; rewrite ?chars_app, ?f_window); reflexivity.
Qed.
Lemma iv_debug_first i : exists a b r, iv_debug f i = String a (String b r) /\ (b =? "}")%char = false.
Proof.
  assert (F : forall t s, exists b r, f t ++ s = String b r /\ (b =? "}")%char = false).
  { intros t s. pose proof (f_char t) as H. pose proof (f_nonempty t) as N. destruct (f t) as [|b r]; [congruence|].
    exists b, (r ++ s). split; auto. cbn in H. apply andb_prop in H as (H & _).
    destruct (b =? "}")%char eqn:E; auto. apply Ascii.eqb_eq in E. subst b. discriminate. }
  unfold iv_debug. destruct (iv_is_low_bounded i), (iv_is_up_bounded i); try (destruct (lower i =? upper i)); cbn [append].
  - destruct (F (lower i) "}") as (b & r & -> & H). exists "{"%char, b, r. auto.
  - destruct (F (lower i) ("," ++ f (upper i) ++ "]")) as (b & r & E & H). cbn [append] in E. rewrite E. exists "["%char, b, r. auto.
  - destruct (F (lower i) ",+oo[") as (b & r & -> & H). exists "["%char, b, r. auto.
  - destruct (F (lower i) ",+oo[") as (b & r & -> & H). exists "["%char, b, r. auto.
  - eexists _, _, _. split; [reflexivity|]. reflexivity.
  - eexists _, _, _. split; [reflexivity|]. reflexivity.
  - eexists _, _, _. split; [reflexivity|]. reflexivity.
  - eexists _, _, _. split; [reflexivity|]. reflexivity.
Qed.
Lemma set_debug_concat l : set_debug f l = match l with [] => "{}" | _ => String.concat "U" (map (iv_debug f) l) end.
Proof.
  destruct l as [|i l]; [reflexivity|]. unfold set_debug.
  assert (G : forall l s, fold_left (fun s j => s ++ "U" ++ iv_debug f j) l s = String.concat "U" (s :: map (iv_debug f) l)).
  { clear i l. induction l as [|j l IH]; intros s; [reflexivity|]. cbn [fold_left map]. rewrite IH.
    rewrite (concat_cons "U" s) by discriminate. destruct l as [|k l]; [reflexivity|]. cbn [map].
    rewrite !(concat_cons "U" _ (iv_debug f k :: _)) by discriminate. rewrite !app_assoc_s. reflexivity. }
  apply G.
Qed.
Lemma set_debug_inj l m : Forall valid_iv l -> Forall valid_iv m -> set_debug f l = set_debug f m -> l = m.
Proof.
  intros Vl Vm E. rewrite !set_debug_concat in E.
  assert (N : forall i l, String.concat "U" (map (iv_debug f) (i :: l)) <> "{}").
  { intros i r. cbn [map]. destruct (iv_debug_first i) as (a & b & s & E1 & E2).
    destruct r as [|j r]; [|cbn [map]; rewrite concat_cons by discriminate];
      cbn [map String.concat]; rewrite E1; cbn [append]; intros H; injection H; intros; subst; discriminate. }
  destruct l as [|i l], m as [|j m]; auto.
  - symmetry in E. destruct (N _ _ E).
  - destruct (N _ _ E).
  - apply concat_inj in E.
    + revert Vl Vm E. generalize (i :: l) (j :: m). clear - f_inj f_char f_nonempty. intros l. induction l as [|a l IH]; intros [|b m] Vl Vm E; try discriminate; auto.
      cbn [map] in E. injection E as E1 E2. inversion Vl; subst. inversion Vm; subst. f_equal; [apply iv_debug_inj; auto|apply IH; auto].
    + assert (X : forall k, chars (fun y => negb (y =? "U")%char) (iv_debug f k) = true /\ iv_debug f k <> "").
      { intros k. split.
        - eapply chars_weaken; [|apply iv_debug_char]. intros c H. destruct (c =? "U")%char eqn:Ec; auto.
          apply Ascii.eqb_eq in Ec. subst c. discriminate.
        - destruct (iv_debug_first k) as (a & b & r & -> & _). discriminate. }
      intros x [H|H]; apply in_map_iff in H as (k & <- & _); apply X.
Qed.
End Debug.

Lemma ts_debug_char t : chars point_char (ts_debug t) = true.
Proof. unfold ts_debug. rewrite chars_app, tv_debug_char. reflexivity. Qed.
Lemma ts_debug_nonempty t : ts_debug t <> "".
Proof. discriminate. Qed.
(** Intervals of durations and of timestamps; any bounds, even inverted *)
Theorem C64_interval : forall i j, valid_iv i -> valid_iv j ->
  (iv_debug tv_debug i = iv_debug tv_debug j -> i = j) /\ (iv_debug ts_debug i = iv_debug ts_debug j -> i = j).
Proof.
  intros i j Vi Vj. split; apply iv_debug_inj;
    auto using C64_duration, C64_timestamp, tv_debug_char, ts_debug_char, tv_debug_nonempty, ts_debug_nonempty.
Qed.
Theorem C64_set : forall l m, Forall valid_iv l -> Forall valid_iv m ->
  (set_debug tv_debug l = set_debug tv_debug m -> l = m) /\ (set_debug ts_debug l = set_debug ts_debug m -> l = m).
Proof.
  intros l m Vl Vm. split; apply set_debug_inj;
    auto using C64_duration, C64_timestamp, tv_debug_char, ts_debug_char, tv_debug_nonempty, ts_debug_nonempty.
Qed.
Theorem C64_constraint : forall a b i a' b' i', 0 <= a -> 0 <= b -> 0 <= a' -> 0 <= b' -> valid_iv i -> valid_iv i' ->
  k_debug a b i = k_debug a' b' i' -> a = a' /\ b = b' /\ i = i'.
Proof.
  intros a b i a' b' i' Ha Hb Ha' Hb' Vi Vi' E. unfold k_debug in E. cbn [append] in E. injection E as E.
  apply dec_unit_inj in E as (-> & E); auto. injection E as E.
  apply dec_unit_inj in E as (-> & E); auto. injection E as E.
  split; auto. split; auto. exact (proj1 (C64_interval i i' Vi Vi') E).
Qed.
Example C64_case : set_debug tv_debug [mkI (- oo) (-5); mkI 3 3; mkI 10 oo] = "]-oo,-5]U{3}U[10,+oo[" /\
  set_debug ts_debug [mkI 3 4] = "[t=3,t=4]" /\ k_debug 4 12 (mkI (-3) 7) = "(4->12)=[-3,7]" /\
  Forall valid_iv [mkI (- oo) (-5); mkI 3 3; mkI 10 oo] /\ set_debug tv_debug [mkI oo (- oo)] = "[+oo,-oo]".
Proof.
  split; [reflexivity|]. split; [reflexivity|]. split; [reflexivity|]. split; [|reflexivity].
  repeat constructor; unfold oo; cbn; lia.
Qed.

(** ** C65: [format_timeset] and Display agree *)

Lemma wf_text p i x y : wf_iv i -> iv_text x (tv_format p) i = iv_text y (tv_display p) i.
Proof.
  intros (A & B & C & D & E). unfold iv_text, iv_is_empty, iv_is_singleton, iv_is_low_bounded, iv_is_up_bounded,
    is_future_infinite, is_past_infinite, INF, i64_max. unfold oo in *.
  destruct (lower i =? _) eqn:E1; [lia|].
  destruct (lower i =? upper i) eqn:E2; [rewrite C60_timepoint_partial by (unfold finite, oo; lia); auto|].
  destruct (lower i =? - _) eqn:E3; cbn [negb].
  - destruct (upper i =? _) eqn:E4; cbn [negb]; auto. rewrite C60_timepoint_partial by (unfold finite, oo; lia); auto.
  - rewrite (C60_timepoint_partial p (lower i)) by (unfold finite, oo; lia).
    destruct (upper i =? _) eqn:E4; cbn [negb]; auto. rewrite C60_timepoint_partial by (unfold finite, oo; lia); auto.
Qed.
(** Full statement: also for the empty set *)
Theorem C65_partial : forall p l, canonical l -> l <> [] ->
  format_timeset (tv_format p) l = set_display (tv_display p) l.
Proof.
  intros p [|i l] C N; [congruence|]. clear N. unfold format_timeset, set_display, set_text.
  destruct C as (W & _ & C). rewrite (wf_text p i "{{}}" "{}" W).
  assert (G : forall l s, canonical l ->
    ofold (fun s j => x <- iv_text "{{}}" (tv_format p) j ;; Ret (s ++ "U" ++ x)) s l =
    ofold (fun s j => x <- iv_text "{}" (tv_display p) j ;; Ret (s ++ "U" ++ x)) s l).
  { clear. induction l as [|j l IH]; intros s C; [reflexivity|]. destruct C as (W & _ & C). cbn [ofold].
    rewrite (wf_text p j "{{}}" "{}" W). destruct (iv_text "{}" (tv_display p) j); auto. cbn [bind]. apply IH. auto. }
  destruct (iv_text "{}" (tv_display p) i); auto. cbn [bind]. apply G. auto.
Qed.
Theorem C65_refuted : exists l, canonical l /\ forall p, format_timeset (tv_format p) l <> set_display (tv_display p) l.
Proof. exists []. split; [exact I|]. intros p. discriminate. Qed.
(** [format_timeset] of an interval: the text of the set that holds it only *)
Theorem C65_interval : forall p i, wf_iv i -> format_timeset_iv (tv_format p) i = iv_display (tv_display p) i /\
  format_timeset_iv (tv_format p) i = format_timeset (tv_format p) [i].
Proof.
  intros p i W. assert (E : iv_is_empty i = false).
  { destruct W as (A & B & C & D & _). unfold iv_is_empty, is_future_infinite, INF, i64_max. unfold oo in *. lia. }
  unfold format_timeset_iv. rewrite E. split.
  - unfold format_timeslot, iv_display. apply wf_text, W.
  - unfold format_timeslot, format_timeset, set_text. cbn [ofold]. destruct (iv_text _ _ _); reflexivity.
Qed.
Example C65_interval_case : forall p, wf_iv (mkI 5 5) /\ format_timeset_iv (tv_format p) (mkI 5 5) = iv_display (tv_display p) (mkI 5 5) /\ format_timeset_iv (tv_format p) (mkI oo (- oo)) = Ret "{{}}" /\ format_timeset_iv (tv_format p) (mkI (- oo) oo) = Ret "]-oo,+oo[".
Proof.
  intros p. assert (W : wf_iv (mkI 5 5)) by (unfold wf_iv, oo; cbn; lia). split; [exact W|].
  split; [apply C65_interval; auto|]. split; reflexivity.
Qed.
(** The texts of canonical sets always exist. *)
Theorem C65_total : forall p l, canonical l -> exists s, set_display (tv_display p) l = Ret s.
Proof.
  assert (T : forall p t, valid t -> exists s, tv_display p t = Ret s).
  { intros p t V. unfold valid in V. destruct (Z.eq_dec t oo) as [->|]; [eexists; apply C60_infinite|].
    destruct (Z.eq_dec t (- oo)) as [->|]; [eexists; apply C60_infinite|].
    destruct (C60_text_partial p t) as (c & k & E & _); [unfold finite; lia|]. eauto. }
  assert (I : forall p i, wf_iv i -> exists s, iv_text "{}" (tv_display p) i = Ret s).
  { intros p i (A & B & C & D & E). destruct (T p (lower i)) as (a & Ea); [unfold valid; lia|].
    destruct (T p (upper i)) as (b & Eb); [unfold valid; lia|].
    unfold iv_text. rewrite Ea, Eb. cbn [bind].
    destruct (iv_is_empty i), (iv_is_singleton i), (iv_is_low_bounded i), (iv_is_up_bounded i); eauto. }
  intros p [|i l] C; [eexists; reflexivity|]. unfold set_display, set_text. destruct C as (W & _ & C).
  destruct (I p i W) as (s & ->). cbn [bind]. revert s. induction l as [|j l IH]; intros s; [eexists; reflexivity|].
  destruct C as (Wj & _ & C). cbn [ofold]. destruct (I p j Wj) as (x & ->). cbn [bind]. apply IH. auto.
Qed.
Example C65_case : forall p, canonical [mkI (- oo) 0; mkI 1073741824 3221225472] /\
  set_display (tv_display p) [mkI (- oo) 0; mkI 1073741824 3221225472] = Ret "]-oo,0]U[1s,3s]".
Proof.
  intros p. split; [|destruct p; vm_compute; reflexivity].
  cbn. unfold wf_iv, oo. cbn. repeat split; lia.
Qed.
