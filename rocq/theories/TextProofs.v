(** Lemmas about texts: decimal notation, splitting, joining. *)
From Coq Require Import String Ascii DecimalString DecimalZ DecimalPos.
From Verif Require Import Machine TimeValue Spec Tac Format.

Local Open Scope string_scope.
Local Open Scope Z_scope.

(** All the characters satisfy [P] *)
Fixpoint chars (P : ascii -> bool) (s : string) : bool :=
  match s with EmptyString => true | String c r => P c && chars P r end.
Definition digit (c : ascii) : bool := match c with
  | "0" | "1" | "2" | "3" | "4" | "5" | "6" | "7" | "8" | "9" => true | _ => false end%char.
(** The first character, if any, does not satisfy [P]. *)
Definition stop (P : ascii -> bool) (s : string) : bool :=
  match s with EmptyString => true | String c _ => negb (P c) end.

Lemma app_assoc_s a b c : (a ++ b) ++ c = a ++ b ++ c.
Proof. induction a as [|x a IH]; simpl; congruence. Qed.
Lemma app_nil_s a : a ++ "" = a.
Proof. induction a; simpl; congruence. Qed.
Lemma chars_app P a b : chars P (a ++ b) = chars P a && chars P b.
Proof. induction a as [|x a IH]; simpl; auto. rewrite IH. apply andb_assoc. Qed.
Lemma chars_weaken (P Q : ascii -> bool) s : (forall c, P c = true -> Q c = true) -> chars P s = true -> chars Q s = true.
Proof. intros H. induction s as [|x s IH]; simpl; auto. intros E. apply andb_prop in E as (E1 & E2). rewrite H, IH; auto. Qed.
Lemma split_eq P a b c d : chars P a = true -> chars P b = true -> stop P c = true -> stop P d = true ->
  a ++ c = b ++ d -> a = b /\ c = d.
Proof.
  revert b. induction a as [|x a IH]; intros b Ha Hb Hc Hd E.
  - destruct b as [|y b]; [auto|]. simpl in *. subst c. simpl in Hc. apply andb_prop in Hb as (Hy & _). rewrite Hy in Hc. discriminate.
  - destruct b as [|y b]; simpl in *.
    + subst d. simpl in Hd. apply andb_prop in Ha as (Hx & _). rewrite Hx in Hd. discriminate.
    + injection E as -> E. apply andb_prop in Ha as (_ & Ha). apply andb_prop in Hb as (_ & Hb).
      destruct (IH b Ha Hb Hc Hd E) as (-> & ->). auto.
Qed.
Lemma app_inj_l a b c : a ++ b = a ++ c -> b = c.
Proof. induction a; simpl; auto. intros E. injection E. auto. Qed.

(** ** Decimal notation *)

Lemma uint_digits d : chars digit (NilEmpty.string_of_uint d) = true.
Proof. induction d; simpl; auto. Qed.
Lemma uint_digits0 d : chars digit (NilZero.string_of_uint d) = true.
Proof. destruct d; [reflexivity| | | | | | | | | |]; apply uint_digits. Qed.
Lemma uint_nonempty d : NilZero.string_of_uint d <> "".
Proof. destruct d; discriminate. Qed.
Lemma dec_inj a b : dec a = dec b -> a = b.
Proof.
  unfold dec. intros E.
  assert (N : forall z, Z.to_int z <> Decimal.Pos Decimal.Nil /\ Z.to_int z <> Decimal.Neg Decimal.Nil).
  { intros [|q|q]; simpl; (split; [try discriminate|try discriminate]); intros H; injection H; apply Unsigned.to_uint_nonnil. }
  assert (X : Some (Z.to_int a) = Some (Z.to_int b)).
  { rewrite <- !NilZero.isi by apply N. rewrite E. reflexivity. }
  injection X as X. rewrite <- (DecimalZ.of_to a), <- (DecimalZ.of_to b). congruence.
Qed.
Lemma dec_digits n : 0 <= n -> chars digit (dec n) = true.
Proof. intros H. unfold dec. destruct n; [reflexivity| |lia]. apply uint_digits0. Qed.
Lemma dec_nonempty n : dec n <> "".
Proof.
  unfold dec. destruct n as [|q|q]; simpl; try discriminate. apply uint_nonempty.
Qed.
Lemma dec_signed n : chars (fun c => digit c || (c =? "-")%char) (dec n) = true.
Proof.
  unfold dec. destruct n as [|q|q]; simpl; try reflexivity.
  - eapply chars_weaken; [|apply uint_digits0]. intros c ->. auto.
  - eapply chars_weaken; [|apply uint_digits0]. intros c ->. auto.
Qed.

(** ** Joining *)

Fixpoint spaced (l : list string) : string := match l with [] => "" | x :: r => x ++ " " ++ spaced r end.
Lemma spaced_app a b : spaced (a ++ b)%list = spaced a ++ spaced b.
Proof. induction a as [|x a IH]; cbn [spaced app]; auto. rewrite IH, !app_assoc_s. reflexivity. Qed.
Lemma concat_cons s x l : l <> [] -> String.concat s (x :: l) = x ++ s ++ String.concat s l.
Proof. destruct l; [contradiction|reflexivity]. Qed.
Lemma spaced_concat l : l <> [] -> spaced l = String.concat " " l ++ " ".
Proof.
  induction l as [|x l IH]; [contradiction|]. intros _. destruct l as [|y l]; [cbn; rewrite ?app_nil_s; auto|].
  rewrite concat_cons by discriminate. cbn [spaced]. cbn [spaced] in IH. rewrite IH by discriminate. rewrite !app_assoc_s. auto.
Qed.
Lemma pop_app a c : pop (a ++ String c "") = Some a.
Proof. induction a as [|x a IH]; [reflexivity|]. cbn [append pop]. rewrite IH. reflexivity. Qed.
Lemma pop_spaced l : pop (spaced l) = match l with [] => None | _ => Some (String.concat " " l) end.
Proof.
  destruct l as [|x l]; [reflexivity|]. rewrite spaced_concat by discriminate. apply pop_app.
Qed.
(** Joined texts without the separator are told apart. *)
Lemma concat_inj c l l' : (forall x, In x l \/ In x l' -> chars (fun y => negb (y =? c)%char) x = true /\ x <> "") ->
  String.concat (String c "") l = String.concat (String c "") l' -> l = l'.
Proof.
  revert l'. induction l as [|x l IH]; intros l' H E.
  - destruct l' as [|y l']; auto. exfalso. destruct (H y) as (_ & N); [simpl; auto|].
    destruct l' as [|z l']; [simpl in E; congruence|]. rewrite concat_cons in E by discriminate. destruct y; [congruence|discriminate].
  - destruct l' as [|y l'].
    { exfalso. destruct (H x) as (_ & N); [simpl; auto|].
      destruct l as [|z l]; [simpl in E; congruence|]. rewrite concat_cons in E by discriminate. destruct x; [congruence|discriminate]. }
    destruct (H x) as (Cx & Nx); [simpl; auto|]. destruct (H y) as (Cy & Ny); [simpl; auto|].
    assert (S : forall z l, exists r, String.concat (String c "") (z :: l) = z ++ r /\ stop (fun y => negb (y =? c)%char) r = true /\
      (l = [] -> r = "") /\ (l <> [] -> r = String c (String.concat (String c "") l))).
    { intros z m. destruct m as [|w m].
      - exists "". split; [simpl; rewrite app_nil_s; auto|]. split; auto. split; auto. congruence.
      - exists (String c (String.concat (String c "") (w :: m))). split; [rewrite concat_cons by discriminate; reflexivity|].
        split; [cbn; rewrite Ascii.eqb_refl; auto|]. split; [discriminate|auto]. }
    destruct (S x l) as (r & E1 & S1 & R1 & R2). destruct (S y l') as (r' & E2 & S2 & R3 & R4).
    rewrite E1, E2 in E. destruct (split_eq _ _ _ _ _ Cx Cy S1 S2 E) as (-> & Er). f_equal.
    destruct l as [|z l], l' as [|w l']; auto.
    + rewrite R1, R4 in Er by (auto; discriminate). discriminate.
    + rewrite R2, R3 in Er by (auto; discriminate). discriminate.
    + rewrite R2, R4 in Er by discriminate. injection Er as Er. apply IH; auto. intros v Hv. apply H. simpl in *. tauto.
Qed.
