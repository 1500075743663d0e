(** C95: the texts of timestamps. *)
From Coq Require Import String Ascii.
From Verif Require Import Machine TimeValue Spec Tac TimeValueProofs Prop_TimeValue Format TextProofs Prop_Format Calendar.

(** ** Specification: the Gregorian calendar, one day after the other *)

Definition leap (y : Z) : Prop := (4 | y) /\ (~ (100 | y) \/ (400 | y)).
Definition month_len (y m l : Z) : Prop :=
  (m = 2 /\ leap y /\ l = 29) \/ (m = 2 /\ ~ leap y /\ l = 28) \/
  (In m [4; 6; 9; 11] /\ l = 30) \/ (In m [1; 3; 5; 7; 8; 10; 12] /\ l = 31).
Inductive tomorrow : Z * Z * Z -> Z * Z * Z -> Prop :=
| t_day y m d l : month_len y m l -> 1 <= d < l -> tomorrow (y, m, d) (y, m, d + 1)
| t_month y m l : month_len y m l -> m < 12 -> tomorrow (y, m, l) (y, m + 1, 1)
| t_year y : tomorrow (y, 12, 31) (y + 1, 1, 1).
Definition before (a b : Z * Z * Z) : Prop :=
  let '(y, m, d) := a in let '(y', m', d') := b in
  y < y' \/ (y = y' /\ (m < m' \/ (m = m' /\ d < d'))).

(** ** The calendar *)

Lemma leap_days_step : forall y, leap_days (y + 1) - leap_days y = if is_leap y then 1 else 0.
Proof.
  intros y. unfold leap_days, is_leap.
  destruct (y mod 4 =? 0) eqn:A, (y mod 100 =? 0) eqn:B, (y mod 400 =? 0) eqn:C; cbn [negb orb andb]; lia.
Qed.
Lemma is_leap_spec : forall y, is_leap y = true <-> leap y.
Proof.
  intros y. unfold is_leap, leap. rewrite andb_true_iff, orb_true_iff, negb_true_iff, !Z.eqb_eq, Z.eqb_neq.
  rewrite !Z.mod_divide by lia. tauto.
Qed.
Lemma is_leap_cycle : forall y e, is_leap (y + 400 * e) = is_leap y.
Proof.
  intros y e. unfold is_leap.
  replace ((y + 400 * e) mod 4) with (y mod 4) by lia.
  replace ((y + 400 * e) mod 100) with (y mod 100) by lia.
  replace ((y + 400 * e) mod 400) with (y mod 400) by lia. reflexivity.
Qed.

Definition year_ok (c y o : Z) : Prop := 0 <= y < 400 /\ 365 * y + leap_days y + o = c /\
  0 <= o < 365 + (if is_leap y then 1 else 0).
Lemma year_day_ok : forall c, 0 <= c < 146097 -> year_ok c (fst (year_day c)) (snd (year_day c)).
Proof.
  intros c H. unfold year_day. destruct (Z.ltb_spec (c mod 365) (leap_days (c / 365))) as [L|L]; cbn [fst snd];
    unfold year_ok; rewrite <- leap_days_step; unfold leap_days in *.
  - replace (c / 365 - 1 + 1) with (c / 365) by lia. lia.
  - lia.
Qed.
Lemma year_ok_unique : forall c y o y' o', year_ok c y o -> year_ok c y' o' -> y = y' /\ o = o'.
Proof.
  intros c y o y' o' (H1 & H2 & H3) (K1 & K2 & K3). rewrite <- leap_days_step in *.
  assert (X : forall a b, a < b -> 365 * (a + 1) + leap_days (a + 1) <= 365 * b + leap_days b).
  { intros a b L. unfold leap_days. lia. }
  destruct (Z.lt_trichotomy y y') as [L|[->|L]]; [|split; lia|].
  - specialize (X y y' L). lia.
  - specialize (X y' y L). lia.
Qed.

Fixpoint sum_lens (l : list Z) : Z := match l with [] => 0 | a :: r => a + sum_lens r end.
Lemma month_walk : forall lens m o, Forall (fun l => 0 < l) lens -> 0 <= o -> o + 1 < sum_lens lens ->
  exists k l d, nth_error lens k = Some l /\ month_day lens m o = (m + Z.of_nat k, d) /\ 1 <= d <= l /\
    (d < l -> month_day lens m (o + 1) = (m + Z.of_nat k, d + 1)) /\
    (d = l -> month_day lens m (o + 1) = (m + Z.of_nat k + 1, 1) /\ (S k < length lens)%nat).
Proof.
  induction lens as [|a lens IH]; intros m o F O0 L; cbn [sum_lens] in L; [lia|].
  inversion F as [|? ? A F']; subst. cbn [month_day].
  destruct (Z.ltb_spec o a) as [C|C].
  - exists 0%nat, a, (o + 1). split; auto. split; [f_equal; lia|]. split; [lia|]. split.
    + intros D. replace (o + 1 <? a) with true by lia. f_equal; lia.
    + intros D. replace (o + 1 <? a) with false by lia.
      destruct lens as [|b lens]; [cbn [sum_lens] in L; lia|]. inversion F' as [|? ? B _]; subst.
      cbn [month_day]. replace (o + 1 - (o + 1) <? b) with true by lia. split; [f_equal; lia|]. cbn [length]. lia.
  - destruct (IH (m + 1) (o - a) F' ltac:(lia) ltac:(lia)) as (k & l & d & N & E & D & E1 & E2).
    exists (S k), l, d. split; auto. split; [rewrite E; f_equal; lia|]. split; auto.
    replace (o + 1 <? a) with false by lia. replace (o + 1 - a) with (o - a + 1) by lia.
    split; intros Q; [rewrite E1 by auto; f_equal; lia|].
    destruct (E2 Q) as (-> & K). split; [f_equal; lia|]. cbn [length]. lia.
Qed.
Lemma month_len_at : forall y k l, nth_error (month_lens y) k = Some l -> month_len y (1 + Z.of_nat k) l.
Proof.
  intros y k l H. unfold month_len. pose proof (is_leap_spec y) as S. unfold month_lens in H.
  do 12 (destruct k as [|k]; [cbn in H; injection H as <-; cbn [In]; try (destruct (is_leap y)); intuition (lia || congruence)|]).
  destruct k; discriminate.
Qed.
Lemma month_step : forall y y' o, is_leap y' = is_leap y -> 0 <= o < 364 + (if is_leap y then 1 else 0) ->
  tomorrow (y', fst (month_day (month_lens y) 1 o), snd (month_day (month_lens y) 1 o))
           (y', fst (month_day (month_lens y) 1 (o + 1)), snd (month_day (month_lens y) 1 (o + 1))).
Proof.
  intros y y' o Q H.
  assert (Q' : month_lens y = month_lens y') by (unfold month_lens; rewrite Q; auto). rewrite Q'.
  destruct (month_walk (month_lens y') 1 o) as (k & l & d & N & E & D & E1 & E2).
  - unfold month_lens. destruct (is_leap y'); repeat constructor.
  - lia.
  - rewrite <- Q in H. unfold month_lens. destruct (is_leap y'); cbn; lia.
  - rewrite E. cbn [fst snd]. apply month_len_at in N.
    destruct (Z.eq_dec d l) as [->|Nd].
    + destruct (E2 eq_refl) as (-> & K). cbn [fst snd]. apply t_month; auto.
      unfold month_lens in K. cbn [length] in K. lia.
    + rewrite E1 by lia. cbn [fst snd]. apply t_day with (l := l); auto. lia.
Qed.
Lemma month_first : forall y, month_day (month_lens y) 1 0 = (1, 1).
Proof. reflexivity. Qed.
Lemma month_last : forall y, month_day (month_lens y) 1 (364 + (if is_leap y then 1 else 0)) = (12, 31).
Proof. intros y. unfold month_lens. destruct (is_leap y); reflexivity. Qed.

Lemma civil_at : forall n y o, year_ok ((n + 719528) mod 146097) y o ->
  civil n = (y + 400 * ((n + 719528) / 146097), fst (month_day (month_lens y) 1 o), snd (month_day (month_lens y) 1 o)).
Proof.
  intros n y o H. unfold civil.
  pose proof (year_day_ok ((n + 719528) mod 146097) ltac:(apply Z.mod_pos_bound; lia)) as K.
  destruct (year_day ((n + 719528) mod 146097)) as (y' & o'). cbn [fst snd] in K.
  destruct (year_ok_unique _ _ _ _ _ H K) as (<- & <-).
  destruct (month_day (month_lens y) 1 o) as (m & d). reflexivity.
Qed.

(** The date of day 0 is 1970-01-01, and that of each day is the date after the previous one: the calendar is
    right for all days. *)
Theorem C95_calendar : civil 0 = (1970, 1, 1) /\ forall n, tomorrow (civil n) (civil (n + 1)).
Proof.
  split; [reflexivity|]. intros n.
  set (c := (n + 719528) mod 146097). set (e := (n + 719528) / 146097).
  assert (Hc : 0 <= c < 146097) by (apply Z.mod_pos_bound; lia).
  pose proof (year_day_ok c Hc) as K. destruct (year_day c) as (y & o). cbn [fst snd] in K.
  rewrite (civil_at n y o K). fold e. destruct K as (K1 & K2 & K3).
  destruct (Z.eq_dec o (364 + (if is_leap y then 1 else 0))) as [->|No].
  - rewrite month_last. cbn [fst snd].
    destruct (Z.eq_dec y 399) as [->|Ny].
    + replace ((n + 1)) with (n + 1) by lia.
      change (leap_days 399) with 97 in K2. change (is_leap 399) with false in K2.
      assert (c = 146096) by lia.
      rewrite (civil_at (n + 1) 0 0).
      * rewrite month_first. cbn [fst snd].
        replace (0 + 400 * ((n + 1 + 719528) / 146097)) with (399 + 400 * e + 1) by (unfold c, e in *; lia).
        apply t_year.
      * replace ((n + 1 + 719528) mod 146097) with 0 by (unfold c in *; lia). unfold year_ok. vm_compute. intuition congruence.
    + assert (Hc' : 365 * (y + 1) + leap_days (y + 1) + 0 = c + 1) by (pose proof (leap_days_step y); lia).
      assert (Lc : c + 1 < 146097) by (unfold leap_days in Hc'; lia).
      rewrite (civil_at (n + 1) (y + 1) 0).
      * rewrite month_first. cbn [fst snd].
        replace (y + 1 + 400 * ((n + 1 + 719528) / 146097)) with (y + 400 * e + 1) by (unfold c, e in *; lia).
        apply t_year.
      * replace ((n + 1 + 719528) mod 146097) with (c + 1) by (unfold c in *; lia).
        split; [lia|]. split; auto. destruct (is_leap (y + 1)); lia.
  - assert (Lc : c + 1 < 146097).
    { assert (y = 399 -> is_leap y = false) by (intros ->; reflexivity).
      destruct (Z.eq_dec y 399) as [->|]; [change (leap_days 399) with 97 in K2; change (is_leap 399) with false in *; cbn iota in *; lia|].
      unfold leap_days in K2. destruct (is_leap y); lia. }
    rewrite (civil_at (n + 1) y (o + 1)).
    + replace ((n + 1 + 719528) / 146097) with e by (unfold c, e in *; lia).
      apply month_step; [apply is_leap_cycle|]. lia.
    + replace ((n + 1 + 719528) mod 146097) with (c + 1) by (unfold c in *; lia).
      split; [lia|]. split; lia.
Qed.
Example C95_calendar_case : civil 11015 = (2000, 2, 28) /\ civil 11016 = (2000, 2, 29) /\ civil 11017 = (2000, 3, 1) /\
  civil 47540 = (2100, 2, 28) /\ civil 47541 = (2100, 3, 1) /\ civil (- 1) = (1969, 12, 31).
Proof. repeat split; vm_compute; reflexivity. Qed.

Lemma tomorrow_before : forall a b, tomorrow a b -> before a b.
Proof. intros a b H. destruct H; unfold before; lia. Qed.
Lemma before_trans : forall a b c, before a b -> before b c -> before a c.
Proof. intros ((y1 & m1) & d1) ((y2 & m2) & d2) ((y3 & m3) & d3). unfold before. lia. Qed.
(** Later days have later dates. *)
Theorem C95_dates_ordered : forall n m, n < m -> before (civil n) (civil m).
Proof.
  intros n m L. replace m with (n + Z.of_nat (S (Z.to_nat (m - n - 1)))) by lia.
  induction (Z.to_nat (m - n - 1)) as [|k IH].
  - apply tomorrow_before. apply C95_calendar.
  - eapply before_trans; [exact IH|]. replace (n + Z.of_nat (S (S k))) with (n + Z.of_nat (S k) + 1) by lia.
    apply tomorrow_before. apply C95_calendar.
Qed.
Example C95_dates_ordered_case : - 1 < 18262 /\ civil (- 1) = (1969, 12, 31) /\ civil 18262 = (2020, 1, 1).
Proof. split; [lia|]. split; vm_compute; reflexivity. Qed.

(** ** Numbers in the texts *)

Local Open Scope string_scope.
Local Open Scope Z_scope.

(** A text of [w] digits that writes [n] *)
Definition digit_value (c : ascii) : Z := Z.of_nat (nat_of_ascii c) - 48.
Fixpoint value (acc : Z) (s : string) : Z :=
  match s with EmptyString => acc | String c r => value (10 * acc + digit_value c) r end.
Definition numeral (w : nat) (s : string) (n : Z) : Prop :=
  String.length s = w /\ chars digit s = true /\ value 0 s = n.
(** The decimals of a number of nanoseconds: all of them, by groups of three *)
Definition decimals (s : string) (ns : Z) : Prop :=
  (s = "" /\ ns = 0) \/
  exists k, In k [1; 2; 3]%nat /\ exists r v, s = String "." r /\ numeral (3 * k) r v /\
    ns = v * 10 ^ (9 - 3 * Z.of_nat k).

Lemma digit_in : forall d, 0 <= d < 10 -> In d [0; 1; 2; 3; 4; 5; 6; 7; 8; 9].
Proof. intros d H. cbn [In]. lia. Qed.
Lemma digit_char_ok : forall d, 0 <= d < 10 -> digit (digit_char d) = true /\ digit_value (digit_char d) = d.
Proof.
  intros d H. apply digit_in in H. cbn [In] in H.
  repeat destruct H as [<-|H]; try contradiction; split; reflexivity.
Qed.
Lemma length_app_s : forall a b, String.length (a ++ b) = (String.length a + String.length b)%nat.
Proof. induction a as [|c a IH]; intros b; simpl; auto. Qed.
Lemma value_app : forall a acc b, value acc (a ++ b) = value (value acc a) b.
Proof. induction a as [|c a IH]; intros acc b; simpl; auto. Qed.
Lemma pad_length : forall w n, String.length (pad w n) = w.
Proof. induction w as [|w IH]; intros n; cbn [pad]; auto. rewrite length_app_s, IH. simpl. lia. Qed.
Lemma pad_numeral : forall w n, 0 <= n < 10 ^ Z.of_nat w -> numeral w (pad w n) n.
Proof.
  intros w n H. split; [apply pad_length|]. revert n H. induction w as [|w IH]; intros n H; cbn [pad].
  - simpl in *. split; auto. lia.
  - rewrite Nat2Z.inj_succ, Z.pow_succ_r in H by lia.
    destruct (IH (n / 10)) as (D & V). { split; [apply Z.div_pos; lia|apply Z.div_lt_upper_bound; lia]. }
    destruct (digit_char_ok (n mod 10)) as (D1 & V1). { apply Z.mod_pos_bound. lia. }
    rewrite chars_app, D, value_app, V. cbn [chars value]. rewrite D1, V1. split; auto. lia.
Qed.
Lemma pad6 : forall n, pad 6 n = pad 3 (n / 1000) ++ pad 3 (n mod 1000).
Proof.
  intros n. cbn [pad]. rewrite !app_assoc_s. cbn [append].
  replace (n mod 1000 / 10 / 10 mod 10) with (n / 10 / 10 mod 10) by lia.
  replace (n mod 1000 / 10 mod 10) with (n / 10 mod 10) by lia.
  replace (n mod 1000 mod 10) with (n mod 10) by lia.
  replace (n / 10 / 10 / 10) with (n / 1000) by lia. reflexivity.
Qed.
Lemma pad9 : forall n, pad 9 n = pad 3 (n / 1000000) ++ pad 3 (n / 1000 mod 1000) ++ pad 3 (n mod 1000).
Proof.
  intros n.
  transitivity (pad 6 (n / 1000) ++ pad 3 (n mod 1000)).
  - cbn [pad]. rewrite !app_assoc_s. cbn [append].
    replace (n mod 1000 / 10 / 10 mod 10) with (n / 10 / 10 mod 10) by lia.
    replace (n mod 1000 / 10 mod 10) with (n / 10 mod 10) by lia.
    replace (n mod 1000 mod 10) with (n mod 10) by lia.
    replace (n / 10 / 10 / 10) with (n / 1000) by lia. reflexivity.
  - rewrite pad6, app_assoc_s. replace (n / 1000 / 1000) with (n / 1000000) by lia. reflexivity.
Qed.

Lemma frac_decimals : forall ns, 0 <= ns < 1000000000 -> decimals (frac_text ns) ns.
Proof.
  intros ns H. unfold frac_text, decimals.
  destruct (Z.eqb_spec ns 0) as [->|N]; [left; auto|right].
  destruct (Z.eqb_spec (ns mod 1000000) 0) as [E|E].
  - exists 1%nat. split; [simpl; auto|]. exists (pad 3 (ns / 1000000)), (ns / 1000000). split; auto.
    split; [apply pad_numeral; simpl; lia|]. change (9 - 3 * Z.of_nat 1) with 6. change (10 ^ 6) with 1000000. lia.
  - destruct (Z.eqb_spec (ns mod 1000) 0) as [E'|E'].
    + exists 2%nat. split; [simpl; auto|]. exists (pad 6 (ns / 1000)), (ns / 1000). split; auto.
      split; [apply pad_numeral; simpl; lia|]. change (9 - 3 * Z.of_nat 2) with 3. change (10 ^ 3) with 1000. lia.
    + exists 3%nat. split; [simpl; auto|]. exists (pad 9 ns), ns. split; auto.
      split; [apply pad_numeral; simpl; lia|]. change (9 - 3 * Z.of_nat 3) with 0. lia.
Qed.

(** ** What [Display] writes *)

Lemma to_datetime_ok : forall p t, valid t -> exists ns, subsec_nanos p t = Ret ns /\ 0 <= ns < 1000000000 /\
  ts_to_datetime p t = Ret (as_secs t, ns).
Proof.
  intros p t V. destruct (C06_subsec_nanos p t) as (ns & E & R & _). exists ns. split; auto. split; auto.
  pose proof (C06_as_secs t) as S. unfold ticks_per_sec in S. unfold valid, oo in V.
  unfold ts_to_datetime. rewrite E. cbn [bind]. unfold chrono_max_secs.
  replace (_ && _) with true by lia. reflexivity.
Qed.
Lemma secs_range : forall t, 0 <= t < oo -> 0 <= as_secs t < 8589934592.
Proof. intros t H. pose proof (C06_as_secs t) as S. unfold ticks_per_sec, oo in *. lia. Qed.
Lemma years : forall n, 0 <= n <= 99420 -> exists y m d, civil n = (y, m, d) /\ 1970 <= y <= 2242.
Proof.
  intros n H. destruct (civil n) as ((y & m) & d) eqn:E. exists y, m, d. split; auto.
  assert (A : n = 0 \/ before (civil 0) (civil n)).
  { destruct (Z.eq_dec n 0); auto. right. apply C95_dates_ordered. lia. }
  assert (B : n = 99420 \/ before (civil n) (civil 99420)).
  { destruct (Z.eq_dec n 99420); auto. right. apply C95_dates_ordered. lia. }
  rewrite E in *. change (civil 0) with (1970, 1, 1) in *. change (civil 99420) with (2242, 3, 16) in *.
  unfold before in *. destruct A as [A|A], B as [B|B].
  - lia.
  - subst n. change (civil 0) with (1970, 1, 1) in E. injection E as <- <- <-. lia.
  - subst n. change (civil 99420) with (2242, 3, 16) in E. injection E as <- <- <-. lia.
  - lia.
Qed.
Lemma month_day_ok : forall n y m d, civil n = (y, m, d) -> 1 <= m <= 12 /\ 1 <= d <= 31.
Proof.
  intros n y m d E. destruct C95_calendar as (_ & T). specialize (T n). rewrite E in T.
  assert (L : forall y m l, month_len y m l -> 1 <= m <= 12 /\ 28 <= l <= 31).
  { intros y0 m0 l0 H. unfold month_len in H. cbn [In] in H. lia. }
  inversion T as [? ? ? l M D|? ? l M D|]; subst; try apply L in M; lia.
Qed.

(** A finite timestamp from the origin on is shown by its date in the Gregorian calendar, its time of the day and
    its nanoseconds. *)
Theorem C95_text : forall p t, 0 <= t < oo ->
  exists a b c d e f g y m dd h mi s ns,
    ts_show p t = Ret (a ++ "-" ++ b ++ "-" ++ c ++ " " ++ d ++ ":" ++ e ++ ":" ++ f ++ g ++ " UTC") /\
    numeral 4 a y /\ numeral 2 b m /\ numeral 2 c dd /\ numeral 2 d h /\ numeral 2 e mi /\ numeral 2 f s /\
    decimals g ns /\ civil (as_secs t / 86400) = (y, m, dd) /\ 0 <= h < 24 /\ 0 <= mi < 60 /\ 0 <= s < 60 /\
    as_secs t = as_secs t / 86400 * 86400 + h * 3600 + mi * 60 + s /\ subsec_nanos p t = Ret ns.
Proof.
  intros p t H. assert (V : valid t) by (unfold valid, oo in *; lia).
  destruct (to_datetime_ok p t V) as (ns & N & R & E). pose proof (secs_range t H) as S.
  destruct (years (as_secs t / 86400)) as (y & m & dd & Ey & Y). { lia. }
  destruct (month_day_ok _ _ _ _ Ey) as (M & D).
  set (s := as_secs t mod 86400).
  exists (pad 4 y), (pad 2 m), (pad 2 dd), (pad 2 (s / 3600)), (pad 2 (s / 60 mod 60)), (pad 2 (s mod 60)), (frac_text ns),
    y, m, dd, (s / 3600), (s / 60 mod 60), (s mod 60), ns.
  assert (Hs : 0 <= s < 86400) by (apply Z.mod_pos_bound; lia).
  split.
  { unfold ts_show, ts_display, is_positive. replace (0 <=? t) with true by lia.
    replace (is_future_infinite t) with false by (unfold is_future_infinite, INF, i64_max; unfold oo in H; lia).
    unfold ts_date. rewrite E. cbn [bind fst snd]. unfold dt_text. rewrite Ey. reflexivity. }
  do 6 (split; [apply pad_numeral; simpl; lia|]). split; [apply frac_decimals; auto|]. split; auto.
  split; [lia|]. split; [lia|]. split; [lia|]. split; auto. unfold s. lia.
Qed.
(** 14 November 2023, a half second after 22:13:20 *)
Example C95_text_case : let t := 1073741824 * 1700000000 + 536870912 in 0 <= t < oo /\
  ts_show Debug t = Ret "2023-11-14 22:13:20.500 UTC".
Proof. split; [unfold oo; lia|]. vm_compute. reflexivity. Qed.

(** ** The order of the texts *)

Definition then_ (c d : comparison) : comparison := match c with Eq => d | c => c end.
Lemma cmp_refl : forall a, (a ?= a)%string = Eq.
Proof.
  induction a as [|c a IH]; simpl; auto.
  unfold Ascii.compare. rewrite N.compare_refl. auto.
Qed.
Lemma cmp_app : forall a b x y, String.length a = String.length b ->
  (a ++ x ?= b ++ y)%string = then_ (a ?= b)%string (x ?= y)%string.
Proof.
  induction a as [|c a IH]; intros [|d b] x y L; try discriminate; auto.
  cbn [append String.compare]. destruct (c ?= d)%char; auto.
Qed.
Lemma cmp_pre : forall a x y, (a ++ x ?= a ++ y)%string = (x ?= y)%string.
Proof. intros. rewrite cmp_app by auto. rewrite cmp_refl. reflexivity. Qed.
Lemma digit_cmp : forall a b, 0 <= a < 10 -> 0 <= b < 10 -> (digit_char a ?= digit_char b)%char = (a ?= b).
Proof.
  intros a b A B. apply digit_in in A. apply digit_in in B. cbn [In] in A, B.
  repeat destruct A as [<-|A]; try contradiction; repeat destruct B as [<-|B]; try contradiction; reflexivity.
Qed.
Lemma lex_div : forall a b, then_ (a / 10 ?= b / 10) (a mod 10 ?= b mod 10) = (a ?= b).
Proof.
  intros a b. destruct (Z.compare_spec a b) as [->|L|L].
  - rewrite !Z.compare_refl. reflexivity.
  - destruct (Z.compare_spec (a / 10) (b / 10)) as [E|E|E]; cbn [then_]; auto; [|lia].
    apply Z.compare_lt_iff. lia.
  - destruct (Z.compare_spec (a / 10) (b / 10)) as [E|E|E]; cbn [then_]; auto; [|lia].
    apply Z.compare_gt_iff. lia.
Qed.
Lemma pad_cmp : forall w a b, 0 <= a < 10 ^ Z.of_nat w -> 0 <= b < 10 ^ Z.of_nat w ->
  (pad w a ?= pad w b)%string = (a ?= b).
Proof.
  induction w as [|w IH]; intros a b A B; cbn [pad].
  - simpl in *. symmetry. apply Z.compare_eq_iff. lia.
  - rewrite Nat2Z.inj_succ, Z.pow_succ_r in A, B by lia.
    rewrite cmp_app by (rewrite !pad_length; auto).
    rewrite IH by (split; [apply Z.div_pos; lia|apply Z.div_lt_upper_bound; lia]).
    cbn [String.compare]. rewrite digit_cmp by (apply Z.mod_pos_bound; lia).
    rewrite <- (lex_div a b). destruct (a mod 10 ?= b mod 10); reflexivity.
Qed.
Lemma pad_head : forall w n, exists d s, 0 <= d < 10 /\ pad (S w) n = String (digit_char d) s.
Proof.
  induction w as [|w IH]; intros n.
  - exists (n mod 10), "". split; [apply Z.mod_pos_bound; lia|]. reflexivity.
  - destruct (IH (n / 10)) as (d & s & D & E). cbn [pad] in *. rewrite E. eexists d, _. split; auto. reflexivity.
Qed.
Lemma space_pad : forall w n x, (" UTC" ?= pad (S w) n ++ x)%string = Lt.
Proof.
  intros w n x. destruct (pad_head w n) as (d & s & D & ->). cbn [append String.compare].
  apply digit_in in D. cbn [In] in D. repeat destruct D as [<-|D]; try contradiction; reflexivity.
Qed.

(** The fraction by groups *)
Definition tail_text (a b c : Z) : string :=
  if (a =? 0) && (b =? 0) && (c =? 0) then " UTC"
  else "." ++ pad 3 a ++ (if (b =? 0) && (c =? 0) then " UTC" else pad 3 b ++ (if c =? 0 then " UTC" else pad 3 c ++ " UTC")).
Lemma frac_tail : forall ns, 0 <= ns < 1000000000 ->
  frac_text ns ++ " UTC" = tail_text (ns / 1000000) (ns / 1000 mod 1000) (ns mod 1000).
Proof.
  intros ns H. unfold frac_text, tail_text.
  destruct (Z.eqb_spec ns 0) as [->|N]; [reflexivity|].
  replace ((ns / 1000000 =? 0) && (ns / 1000 mod 1000 =? 0) && (ns mod 1000 =? 0)) with false by lia.
  destruct (Z.eqb_spec (ns mod 1000000) 0) as [E|E].
  - replace ((ns / 1000 mod 1000 =? 0) && (ns mod 1000 =? 0)) with true by lia. rewrite app_assoc_s. reflexivity.
  - replace ((ns / 1000 mod 1000 =? 0) && (ns mod 1000 =? 0)) with false by lia.
    destruct (Z.eqb_spec (ns mod 1000) 0) as [E'|E'].
    + rewrite pad6, !app_assoc_s. replace (ns / 1000 / 1000) with (ns / 1000000) by lia. reflexivity.
    + rewrite pad9, !app_assoc_s. reflexivity.
Qed.
Lemma tail_lt : forall a b c a' b' c', 0 <= a < 1000 -> 0 <= b < 1000 -> 0 <= c < 1000 ->
  0 <= a' < 1000 -> 0 <= b' < 1000 -> 0 <= c' < 1000 ->
  a < a' \/ (a = a' /\ (b < b' \/ (b = b' /\ c < c'))) -> (tail_text a b c ?= tail_text a' b' c')%string = Lt.
Proof.
  intros a b c a' b' c' A B C A' B' C' H. unfold tail_text.
  replace ((a' =? 0) && (b' =? 0) && (c' =? 0)) with false by lia.
  destruct ((a =? 0) && (b =? 0) && (c =? 0)); [reflexivity|].
  rewrite cmp_pre, cmp_app by (rewrite !pad_length; auto). rewrite pad_cmp by (simpl; lia).
  destruct (Z.compare_spec a a') as [->|L|L]; cbn [then_]; auto; [|lia].
  replace ((b' =? 0) && (c' =? 0)) with false by lia.
  destruct ((b =? 0) && (c =? 0)); [apply space_pad|].
  rewrite cmp_app by (rewrite !pad_length; auto). rewrite pad_cmp by (simpl; lia).
  destruct (Z.compare_spec b b') as [->|L|L]; cbn [then_]; auto; [|lia].
  replace (c' =? 0) with false by lia.
  destruct (c =? 0); [apply space_pad|].
  rewrite cmp_app by (rewrite !pad_length; auto). rewrite pad_cmp by (simpl; lia).
  rewrite (proj2 (Z.compare_lt_iff c c')) by lia. reflexivity.
Qed.

Lemma dt_lt : forall s n s' n', 0 <= s < 8589934592 -> 0 <= s' < 8589934592 ->
  0 <= n < 1000000000 -> 0 <= n' < 1000000000 -> s < s' \/ (s = s' /\ n < n') ->
  (dt_text s n ?= dt_text s' n')%string = Lt.
Proof.
  intros s n s' n' S S' N N' H. unfold dt_text. rewrite !frac_tail by auto.
  destruct (years (s / 86400)) as (y & m & d & E & Y); [lia|]. destruct (month_day_ok _ _ _ _ E) as (M & D).
  destruct (years (s' / 86400)) as (y' & m' & d' & E' & Y'); [lia|]. destruct (month_day_ok _ _ _ _ E') as (M' & D').
  assert (K : s / 86400 = s' / 86400 \/ (s / 86400 < s' / 86400 /\ before (y, m, d) (y', m', d'))).
  { destruct (Z.eq_dec (s / 86400) (s' / 86400)); [auto|right]. split; [lia|].
    rewrite <- E, <- E'. apply C95_dates_ordered. lia. }
  rewrite E, E'. unfold before in K.
  rewrite cmp_app by (rewrite !pad_length; auto). rewrite pad_cmp by (simpl; lia).
  destruct (Z.compare_spec y y') as [->|L|L]; cbn [then_]; auto.
  2:{ exfalso. destruct K as [K|K]; [|lia]. rewrite K in E. rewrite E in E'. injection E' as <- <- <-. lia. }
  rewrite cmp_pre, cmp_app by (rewrite !pad_length; auto). rewrite pad_cmp by (simpl; lia).
  destruct (Z.compare_spec m m') as [->|L|L]; cbn [then_]; auto.
  2:{ exfalso. destruct K as [K|K]; [|lia]. rewrite K in E. rewrite E in E'. injection E' as <- <-. lia. }
  rewrite cmp_pre, cmp_app by (rewrite !pad_length; auto). rewrite pad_cmp by (simpl; lia).
  destruct (Z.compare_spec d d') as [->|L|L]; cbn [then_]; auto.
  2:{ exfalso. destruct K as [K|K]; [|lia]. rewrite K in E. rewrite E in E'. injection E' as <-. lia. }
  assert (Q : s / 86400 = s' / 86400) by lia. clear K.
  set (o := s mod 86400). set (o' := s' mod 86400).
  assert (O : 0 <= o < 86400) by (apply Z.mod_pos_bound; lia).
  assert (O' : 0 <= o' < 86400) by (apply Z.mod_pos_bound; lia).
  assert (H' : o < o' \/ (o = o' /\ n < n')) by (unfold o, o'; lia).
  rewrite cmp_pre, cmp_app by (rewrite !pad_length; auto). rewrite pad_cmp by (simpl; lia).
  destruct (Z.compare_spec (o / 3600) (o' / 3600)) as [E1|L|L]; cbn [then_]; auto; [|lia].
  rewrite cmp_pre, cmp_app by (rewrite !pad_length; auto). rewrite pad_cmp by (simpl; lia).
  destruct (Z.compare_spec (o / 60 mod 60) (o' / 60 mod 60)) as [E2|L|L]; cbn [then_]; auto; [|lia].
  rewrite cmp_pre, cmp_app by (rewrite !pad_length; auto). rewrite pad_cmp by (simpl; lia).
  destruct (Z.compare_spec (o mod 60) (o' mod 60)) as [E3|L|L]; cbn [then_]; auto; [|lia].
  apply tail_lt; try lia.
Qed.

(** The texts are sorted as the timestamps: from the origin on, the order of two timestamps is the lexicographic
    order of their texts, but for those of the same nanosecond, which have the same text. *)
Theorem C95_sorted : forall p t u a b, 0 <= t <= u -> u < oo -> ts_show p t = Ret a -> ts_show p u = Ret b ->
  (a ?= b)%string <> Gt /\
  ((a ?= b)%string = Eq <-> as_secs t = as_secs u /\ subsec_nanos p t = subsec_nanos p u).
Proof.
  intros p t u a b L U A B.
  assert (Vt : valid t) by (unfold valid, oo in *; lia). assert (Vu : valid u) by (unfold valid, oo in *; lia).
  destruct (to_datetime_ok p t Vt) as (n & N & R & E). destruct (to_datetime_ok p u Vu) as (n' & N' & R' & E').
  pose proof (secs_range t ltac:(lia)) as S. pose proof (secs_range u ltac:(lia)) as S'.
  assert (X : forall t n z, 0 <= t < oo -> ts_to_datetime p t = Ret (as_secs t, n) -> ts_show p t = Ret z -> z = dt_text (as_secs t) n).
  { intros t0 n0 z H0 E0. unfold ts_show, ts_display, is_positive. replace (0 <=? t0) with true by lia.
    replace (is_future_infinite t0) with false by (unfold is_future_infinite, INF, i64_max; unfold oo in H0; lia).
    unfold ts_date. rewrite E0. cbn [bind fst snd]. congruence. }
  apply (X t n) in A; auto; [|lia]. apply (X u n') in B; auto; [|lia]. subst a b.
  assert (O : as_secs t < as_secs u \/ (as_secs t = as_secs u /\ n <= n')).
  { destruct (Z.lt_trichotomy (as_secs t) (as_secs u)) as [?|[Q|Q]]; auto.
    - right. split; auto. apply (C06_subsec_monotone p t u); auto. unfold frac_ticks. lia.
    - pose proof (C06_as_secs t). pose proof (C06_as_secs u). unfold ticks_per_sec in *. lia. }
  rewrite N, N'.
  destruct O as [O|(O & O')].
  - rewrite dt_lt; auto. split; [discriminate|]. split; [discriminate|lia].
  - destruct (Z.eq_dec n n') as [<-|D].
    + rewrite O, cmp_refl. split; [discriminate|]. tauto.
    + rewrite dt_lt; auto; [|lia]. split; [discriminate|]. split; [discriminate|]. intros (_ & Z0). congruence.
Qed.
(** A second before noon, and noon and a half millisecond *)
Example C95_sorted_case : let t := 1073741824 * 43199 in let u := 1073741824 * 43200 + 536871 in
  0 <= t <= u /\ u < oo /\ ts_show Debug t = Ret "1970-01-01 11:59:59 UTC" /\
  ts_show Debug u = Ret "1970-01-01 12:00:00.000500 UTC".
Proof. cbv zeta. split; [lia|]. split; [unfold oo; lia|]. split; vm_compute; reflexivity. Qed.

(** ** Before the origin *)

Lemma phrase_nodash : forall c, Forall (fun x => 0 <= x) c -> chars (fun a => negb (a =? "-")%char) (phrase c) = true.
Proof.
  intros c P. unfold phrase.
  assert (W : forall w, In w (words units c) -> chars (fun a => negb (a =? "-")%char) w = true).
  { intros w H. destruct (words_form units c w H P) as (n & u & -> & Hn & Hu). rewrite chars_app.
    apply andb_true_intro. split.
    - eapply chars_weaken; [|apply dec_digits; lia].
      intros x. destruct x as [b0 b1 b2 b3 b4 b5 b6 b7]; destruct b0, b1, b2, b3, b4, b5, b6, b7; cbn; auto; discriminate.
    - cbn in Hu. repeat (destruct Hu as [<-|Hu]; [reflexivity|]). destruct Hu. }
  destruct (words units c) as [|w l]; [reflexivity|]. revert w W. induction l as [|x l IH]; intros w W.
  - simpl. apply W. left. auto.
  - rewrite concat_cons by discriminate. rewrite !chars_app. rewrite (W w) by (left; auto).
    rewrite (IH x); auto. intros v Hv. apply W. right. auto.
Qed.
Lemma before_text : forall p t, - oo < t < 0 -> exists c, Forall (fun x => 0 <= x) c /\
  tv_display p (- t) = Ret (phrase c) /\ ts_show p t = Ret (phrase c ++ " before 1970-01-01 00:00:00 UTC").
Proof.
  intros p t H. assert (F : finite (- t)) by (unfold finite; lia).
  destruct (C60_text_partial p (- t) F) as (c & n & E & L & _). exists c.
  split; [clear - L; induction L; constructor; auto; lia|].
  replace (- t <? 0) with false in E by lia. cbn [append] in E. split; auto.
  unfold ts_show, ts_display, is_positive. replace (0 <=? t) with false by lia.
  replace (is_past_infinite t) with false by (unfold is_past_infinite, INF, i64_max; unfold oo in H; lia).
  change (tv_neg t) with (- t). rewrite E. reflexivity.
Qed.
Lemma show_from : forall p t, 0 <= t < oo -> exists ns, subsec_nanos p t = Ret ns /\ ts_show p t = Ret (dt_text (as_secs t) ns).
Proof.
  intros p t H. destruct (to_datetime_ok p t) as (ns & N & R & E); [unfold valid, oo in *; lia|].
  exists ns. split; auto. unfold ts_show, ts_display, is_positive. replace (0 <=? t) with true by lia.
  replace (is_future_infinite t) with false by (unfold is_future_infinite, INF, i64_max; unfold oo in H; lia).
  unfold ts_date. rewrite E. reflexivity.
Qed.
Lemma app_inj_r : forall a b x, a ++ x = b ++ x -> a = b.
Proof.
  intros a b x E. assert (L : String.length a = String.length b).
  { apply (f_equal String.length) in E. rewrite !length_app_s in E. lia. }
  revert b L E. induction a as [|c a IH]; intros [|d b] L E; try discriminate; auto.
  cbn in E. injection E as -> E. f_equal. apply IH; auto.
Qed.
Lemma dates_differ : forall p t u s, - oo < t < 0 -> 0 <= u < oo -> ts_show p t = Ret s -> ts_show p u = Ret s -> False.
Proof.
  intros p t u s T U E F. destruct (before_text p t T) as (c & P & _ & X). rewrite X in E. injection E as <-.
  destruct (C95_text p u U) as (a & b & cc & d & e & f & g & y & m & dd & h & mi & sc & ns & Y & (La & Da & _) & _).
  rewrite Y in F. injection F as F.
  assert (Q : phrase c ++ " before 1970-01-01 00:00:00 UTC" = (phrase c ++ " before 1970") ++ "-01-01 00:00:00 UTC").
  { rewrite app_assoc_s. reflexivity. }
  rewrite Q in F.
  destruct (split_eq (fun a => negb (a =? "-")%char) a (phrase c ++ " before 1970")
    ("-" ++ b ++ "-" ++ cc ++ " " ++ d ++ ":" ++ e ++ ":" ++ f ++ g ++ " UTC") "-01-01 00:00:00 UTC") as (Z0 & _); auto.
  - eapply chars_weaken; [|exact Da].
    intros x. destruct x as [b0 b1 b2 b3 b4 b5 b6 b7]; destruct b0, b1, b2, b3, b4, b5, b6, b7; cbn; auto; discriminate.
  - rewrite chars_app, phrase_nodash by auto. reflexivity.
  - apply (f_equal String.length) in Z0. rewrite length_app_s, La in Z0. cbn [String.length] in Z0. lia.
Qed.

(** [Display] never panics, and shows the infinite timestamps as such. *)
Theorem C95_total : forall p t, valid t -> exists s, ts_show p t = Ret s /\
  (t = oo <-> s = "+oo") /\ (t = - oo <-> s = "-oo").
Proof.
  intros p t V. unfold valid in V.
  assert (O : oo = 9223372036854775807) by reflexivity.
  destruct (Z.eq_dec t oo) as [->|N1]; [|destruct (Z.eq_dec t (- oo)) as [->|N2]].
  - exists "+oo". split; [reflexivity|]. split; split; auto; [lia|discriminate].
  - exists "-oo". split; [reflexivity|]. split; split; auto; [lia|discriminate].
  - assert (S : forall s, String.length s = 3%nat -> ts_show p t <> Ret s).
    { intros s L E. destruct (Z.ltb_spec t 0).
      - destruct (before_text p t) as (c & _ & _ & X); [lia|]. rewrite X in E. injection E as <-.
        rewrite length_app_s in L. cbn [String.length] in L. lia.
      - destruct (C95_text p t) as (a & b & cc & d & e & f & g & y & m & dd & h & mi & sc & ns & Y & (La & _) & _); [lia|].
        rewrite Y in E. injection E as <-. rewrite length_app_s, La in L. cbn [String.length] in L. lia. }
    assert (X : exists s, ts_show p t = Ret s).
    { destruct (Z.ltb_spec t 0).
      - destruct (before_text p t) as (c & _ & _ & X); [lia|]. eauto.
      - destruct (show_from p t) as (ns & _ & X); [lia|]. eauto. }
    destruct X as (s & X). exists s. split; auto. split; split; try lia; intros ->; apply S in X; auto; destruct X.
Qed.
Example C95_total_case : valid (- 1) /\ ts_show Debug (- 1) = Ret "1ns before 1970-01-01 00:00:00 UTC" /\ ts_show Debug oo = Ret "+oo".
Proof. split; [unfold valid, oo; lia|]. split; vm_compute; reflexivity. Qed.

(** The text tells the sign, the seconds and the nanoseconds: two finite timestamps with the same text are on the
    same side of the origin and in the same nanosecond. *)
Theorem C95_determines : forall p t u s, finite t -> finite u -> ts_show p t = Ret s -> ts_show p u = Ret s ->
  (t < 0 <-> u < 0) /\ as_secs (Z.abs t) = as_secs (Z.abs u) /\ subsec_nanos p (Z.abs t) = subsec_nanos p (Z.abs u).
Proof.
  intros p t u s Ft Fu E F. unfold finite in *.
  destruct (Z.ltb_spec t 0) as [T|T], (Z.ltb_spec u 0) as [U|U].
  - destruct (before_text p t) as (c & P & D & X); [lia|]. destruct (before_text p u) as (c' & P' & D' & X'); [lia|].
    rewrite E in X. injection X as X. rewrite F in X'. injection X' as X'. rewrite X in X'. apply app_inj_r in X'.
    rewrite <- X' in D'.
    destruct (C60_determines p (- t) (- u) (phrase c)) as (_ & S & N); auto; try (unfold finite; lia).
    rewrite !Z.abs_opp in S, N. tauto.
  - destruct (dates_differ p t u s); auto; lia.
  - destruct (dates_differ p u t s); auto; lia.
  - rewrite !Z.abs_eq by lia. split; [lia|].
    destruct (Z.le_ge_cases t u) as [L|L].
    + apply (C95_sorted p t u s s); auto; try lia. apply cmp_refl.
    + destruct (proj1 (proj2 (C95_sorted p u t s s ltac:(lia) ltac:(lia) F E)) (cmp_refl s)) as (A & B). auto.
Qed.
(** Two ticks of the same nanosecond, and one before the origin *)
Example C95_determines_case : finite 1073741824006 /\ finite 1073741824007 /\
  ts_show Debug 1073741824006 = Ret "1970-01-01 00:16:40.000000006 UTC" /\
  ts_show Debug 1073741824007 = Ret "1970-01-01 00:16:40.000000006 UTC" /\
  ts_show Debug (- 1073741824000) = Ret "16min 40s before 1970-01-01 00:00:00 UTC".
Proof. split; [unfold finite, oo; lia|]. split; [unfold finite, oo; lia|]. repeat split; vm_compute; reflexivity. Qed.

(** ** [format_timepoint] *)

Lemma years_all : forall n, - 99421 <= n <= 99420 -> exists y m d, civil n = (y, m, d) /\ 1697 <= y <= 2242.
Proof.
  intros n H. destruct (civil n) as ((y & m) & d) eqn:E. exists y, m, d. split; auto.
  assert (A : n = - 99421 \/ before (civil (- 99421)) (civil n)).
  { destruct (Z.eq_dec n (- 99421)); auto. right. apply C95_dates_ordered. lia. }
  assert (B : n = 99420 \/ before (civil n) (civil 99420)).
  { destruct (Z.eq_dec n 99420); auto. right. apply C95_dates_ordered. lia. }
  rewrite E in *. change (civil (- 99421)) with (1697, 10, 17) in *. change (civil 99420) with (2242, 3, 16) in *.
  unfold before in *. destruct A as [A|A], B as [B|B].
  - lia.
  - subst n. change (civil (- 99421)) with (1697, 10, 17) in E. injection E as <- <- <-. lia.
  - subst n. change (civil 99420) with (2242, 3, 16) in E. injection E as <- <- <-. lia.
  - lia.
Qed.
(** With a format that gives all the fields: the date and time of the timestamp, on both sides of the origin;
    the infinite ones are formatted as the dates of their ticks. *)
(** Partial: the infinite timestamps have no date (C95_format_refuted). *)
Theorem C95_format_partial : forall p t, valid t ->
  exists a b c d e f g y m dd h mi s ns,
    ts_format p "%Y-%m-%d %H:%M:%S.%f" t =
      Ret (a ++ "-" ++ b ++ "-" ++ c ++ " " ++ d ++ ":" ++ e ++ ":" ++ f ++ "." ++ g) /\
    numeral 4 a y /\ numeral 2 b m /\ numeral 2 c dd /\ numeral 2 d h /\ numeral 2 e mi /\ numeral 2 f s /\
    numeral 9 g ns /\ civil (as_secs t / 86400) = (y, m, dd) /\ 0 <= h < 24 /\ 0 <= mi < 60 /\ 0 <= s < 60 /\
    as_secs t = as_secs t / 86400 * 86400 + h * 3600 + mi * 60 + s /\ subsec_nanos p t = Ret ns.
Proof.
  intros p t V. destruct (to_datetime_ok p t V) as (ns & N & R & E).
  assert (S : - 8589934592 <= as_secs t < 8589934592).
  { pose proof (C06_as_secs t) as S. unfold ticks_per_sec, valid, oo in *. lia. }
  destruct (years_all (as_secs t / 86400)) as (y & m & dd & Ey & Y). { lia. }
  destruct (month_day_ok _ _ _ _ Ey) as (M & D).
  set (s := as_secs t mod 86400).
  exists (pad 4 y), (pad 2 m), (pad 2 dd), (pad 2 (s / 3600)), (pad 2 (s / 60 mod 60)), (pad 2 (s mod 60)), (pad 9 ns),
    y, m, dd, (s / 3600), (s / 60 mod 60), (s mod 60), ns.
  assert (Hs : 0 <= s < 86400) by (apply Z.mod_pos_bound; lia).
  split.
  { unfold ts_format. rewrite E. cbn [bind fst snd]. 
    assert (X : forall c, spec_text c (as_secs t) ns = 
      if (c =? "Y")%char then Ret (pad 4 y)
      else if (c =? "m")%char then Ret (pad 2 m)
      else if (c =? "d")%char then Ret (pad 2 dd)
      else if (c =? "H")%char then Ret (pad 2 (s / 3600))
      else if (c =? "M")%char then Ret (pad 2 (s / 60 mod 60))
      else if (c =? "S")%char then Ret (pad 2 (s mod 60))
      else if (c =? "f")%char then Ret (pad 9 ns)
      else if (c =? "%")%char then Ret (String c "")
      else Panic).
    { intros x. unfold spec_text. rewrite Ey. reflexivity. }
    cbn [strftime Ascii.eqb Bool.eqb]. rewrite !X. cbn [Ascii.eqb Bool.eqb bind append]. rewrite app_nil_s. reflexivity. }
  do 7 (split; [apply pad_numeral; simpl; lia|]). split; auto.
  split; [lia|]. split; [lia|]. split; [lia|]. split; auto. unfold s. lia.
Qed.
Example C95_format_case : valid (- 1073741824) /\ ts_format Debug "%Y-%m-%d %H:%M:%S.%f" (- 1073741824) = Ret "1969-12-31 23:59:59.000000000".
Proof. split; [unfold valid, oo; lia|]. vm_compute. reflexivity. Qed.
(** [format_timepoint] gives the infinite timestamps a date, the one of some finite timestamp; [Display] does not.
    A format that chrono does not know panics. *)
Theorem C95_format_refuted : (forall p, ts_format p "%Y-%m-%d %H:%M:%S" oo = Ret "2242-03-16 12:56:31" /\
    ts_format p "%Y-%m-%d %H:%M:%S" (oo - 1) = Ret "2242-03-16 12:56:31" /\ ts_show p oo = Ret "+oo" /\
    ts_format p "%Y-%m-%d %H:%M:%S" (- oo) = Ret "1697-10-17 11:03:28" /\ ts_show p (- oo) = Ret "-oo") /\
  exists fmt, forall p t, ts_format p fmt t = Panic.
Proof.
  split; [intros []; repeat split; vm_compute; reflexivity|].
  exists "100%". intros p t. unfold ts_format.
  destruct (C06_subsec_nanos p t) as (n & E & R & _). unfold ts_to_datetime. rewrite E. cbn [bind].
  destruct (_ && _ && _); reflexivity.
Qed.
