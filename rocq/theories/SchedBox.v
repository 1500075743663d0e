(** Boxes around the dates, propagated through a closed matrix of differences.

    [f i] is the lower bound of the date of [i] ([- oo]: none).  The upper bounds are treated
    as lower bounds of the opposite dates, with the transposed matrix. *)
From Verif Require Import Machine TimeValue Spec Tac TimeValueProofs MaxPlus GraphProofs.

Definition tr (D : mat) : mat := fun i j => D j i.
Record half (n : Z) (D : mat) (M : Z) (f : Z -> Z) : Prop := {
  h_bnd : forall i, node n i -> bnd M (f i);
  h_arc : forall i j, node n i -> node n j -> f i <> - oo -> D i j <> - oo -> f i + D i j <= f j }.
(** Some date remains. *)
Definition apart (n : Z) (f u : Z -> Z) : Prop :=
  forall i, node n i -> f i = - oo \/ u i = - oo \/ f i + u i <= 0.

(** The bound [a] is put on [i]. *)
Definition cutf (D : mat) (i a : Z) (f : Z -> Z) : Z -> Z :=
  fun j => Z.max (f j) (esum (Z.max (f i) a) (D i j)).

Lemma tr_closed n D : closed n D -> closed n (tr D).
Proof.
  intros (Z0 & T). split; [intros i Ni; apply Z0; auto|].
  intros i k j a b Ni Nk Nj Ea Eb. unfold ent, tr in *. rewrite Z.add_comm. apply (T j k i); auto.
Qed.
Lemma tr_bnd n C D : all_bnd n C D -> all_bnd n C (tr D).
Proof. intros H i j Ni Nj. apply H; auto. Qed.

Lemma tri n D i k j : closed n D -> node n i -> node n k -> node n j ->
  D i k <> - oo -> D k j <> - oo -> D i j <> - oo /\ D i k + D k j <= D i j.
Proof. intros (_ & T) Ni Nk Nj H1 H2. apply (T i k j); auto; unfold ent; lia. Qed.

Lemma cut_at n D i a f : closed n D -> node n i -> - oo <= f i -> cutf D i a f i = Z.max (f i) a.
Proof.
  intros (Z0 & _) Ni L. unfold cutf. rewrite Z0 by auto. unfold esum, oo in *. tests; lia.
Qed.
Lemma cut_ge D i a f j : f j <= cutf D i a f j.
Proof. unfold cutf. lia. Qed.
(** The new bound comes from the old one or from [a]. *)
Lemma cut_cases n D C M W i a f j : closed n D -> all_bnd n C D -> half n D M f ->
  node n i -> node n j -> bnd W a -> 0 <= C -> W + C < oo -> M + C < oo ->
  cutf D i a f j = f j \/ (a <> - oo /\ D i j <> - oo /\ cutf D i a f j = a + D i j).
Proof.
  intros Cl Bd H Ni Nj Ba C0 L L'. unfold cutf.
  pose proof (h_arc _ _ _ _ H i j Ni Nj) as A. pose proof (Bd i j Ni Nj) as BD.
  pose proof (h_bnd _ _ _ _ H i Ni) as B1. pose proof (h_bnd _ _ _ _ H j Nj) as B2.
  unfold bnd in *. unfold esum. destruct (Z_le_dec a (f i)) as [Q|Q].
  - rewrite (Z.max_l (f i) a) by lia. left. tests; lia.
  - rewrite (Z.max_r (f i) a) by lia. destruct (Z_le_dec (a + D i j) (f j)); tests; lia.
Qed.
Lemma half_cut n D C M W i a f : closed n D -> all_bnd n C D -> half n D M f ->
  node n i -> bnd W a -> 0 <= C -> 0 <= W -> W + C <= M -> M + C < oo -> half n D M (cutf D i a f).
Proof.
  intros Cl Bd H Ni Ba C0 W0 L L'. constructor.
  - intros j Nj. destruct (cut_cases n D C M W i a f j) as [->|(E1 & E2 & ->)]; auto; try lia.
    + apply (h_bnd _ _ _ _ H); auto.
    + specialize (Bd i j Ni Nj). unfold bnd in *. lia.
  - intros j k Nj Nk Hj Hk.
    pose proof (h_arc _ _ _ _ H j k Nj Nk) as A. pose proof (cut_ge D i a f k) as G.
    destruct (cut_cases n D C M W i a f j) as [E|(E1 & E2 & E)]; auto; try lia.
    + destruct (tri n D i j k Cl Ni Nj Nk E2 Hk) as (T1 & T2).
      assert (X : a + D i k <= cutf D i a f k).
      { unfold cutf, esum. pose proof (h_bnd _ _ _ _ H i Ni). unfold bnd in *. tests; lia. }
      lia.
Qed.
(** Cutting both sides at [i] leaves a date everywhere if it does at [i]. *)
Lemma apart_cut n D C M W i a b f u : closed n D -> all_bnd n C D -> half n D M f -> half n (tr D) M u ->
  apart n f u -> node n i -> bnd W a -> bnd W b -> 0 <= C -> 0 <= W -> W + C <= M -> M + C < oo ->
  (Z.max (f i) a = - oo \/ Z.max (u i) b = - oo \/ Z.max (f i) a + Z.max (u i) b <= 0) ->
  apart n (cutf D i a f) (cutf (tr D) i b u).
Proof.
  intros Cl Bd H Hu Ap Ni Ba Bb C0 W0 L L' X j Nj.
  destruct (cut_cases n D C M W i a f j) as [E|(E1 & E2 & E)]; auto; try lia;
  destruct (cut_cases n (tr D) C M W i b u j) as [F|(F1 & F2 & F)]; auto using tr_closed, tr_bnd; try lia;
  rewrite E, F; unfold tr in *.
  - apply Ap; auto.
  - destruct (Z.eq_dec (f j) (- oo)) as [|N]; auto. right. right.
    pose proof (h_arc _ _ _ _ H j i Nj Ni N F2) as A.
    pose proof (h_bnd _ _ _ _ H i Ni) as B1. pose proof (Bd j i Nj Ni) as B2.
    pose proof (h_bnd _ _ _ _ H j Nj) as B3. pose proof (h_bnd _ _ _ _ Hu i Ni) as B4. unfold bnd in *. lia.
  - destruct (Z.eq_dec (u j) (- oo)) as [|N]; auto. right. right.
    pose proof (h_arc _ _ _ _ Hu j i Nj Ni N E2) as A. unfold tr in A.
    pose proof (h_bnd _ _ _ _ Hu i Ni) as B1. pose proof (Bd i j Ni Nj) as B2.
    pose proof (h_bnd _ _ _ _ Hu j Nj) as B3. pose proof (h_bnd _ _ _ _ H i Ni) as B4. unfold bnd in *. lia.
  - right. right. destruct (tri n D i j i Cl Ni Nj Ni E2 F2) as (_ & T).
    destruct Cl as (Z0 & _). rewrite Z0 in T by auto.
    pose proof (h_bnd _ _ _ _ H i Ni). pose proof (h_bnd _ _ _ _ Hu i Ni). unfold bnd in *. lia.
Qed.

(** ** Every remaining date belongs to a solution *)

Definition aug (n : Z) (D : mat) (f u : Z -> Z) : mat := fun a b =>
  if a =? n then if b =? n then 0 else f b
  else if b =? n then u a else Z.max (D a b) (esum (u a) (f b)).

Lemma mx C M x p q w : bnd C x -> bnd M p -> bnd M q -> 0 <= C -> 0 <= M -> 2 * M + C < oo ->
  (Z.max x (esum p q) <> - oo /\ w <= Z.max x (esum p q)) <->
  ((x <> - oo /\ w <= x) \/ (p <> - oo /\ q <> - oo /\ w <= p + q)).
Proof. intros. unfold esum, bnd in *. tests; lia. Qed.
Lemma sum_fin M C p q r : bnd M p -> bnd C q -> p <> - oo -> q <> - oo -> p + q <= r -> M + C < oo -> r <> - oo.
Proof. unfold bnd. lia. Qed.
Lemma aug_closed n D C M f u : 0 <= n -> closed n D -> all_bnd n C D -> half n D M f -> half n (tr D) M u ->
  apart n f u -> 0 <= C -> 2 * M + C < oo -> 0 <= M -> closed (n + 1) (aug n D f u).
Proof.
  intros N0 Cl Bd H Hu Ap C0 L M0. split.
  - intros i Ni. unfold aug. destruct (i =? n) eqn:E; auto.
    assert (Nn : node n i) by (unfold node in *; lia). destruct Cl as (Z0 & _). rewrite Z0 by auto.
    specialize (Ap i Nn). unfold esum. tests; lia.
  - intros i k j a b Ni Nk Nj (A1 & A2) (B1 & B2).
    assert (S : forall x, node (n + 1) x -> (x =? n) = true \/ ((x =? n) = false /\ node n x))
      by (unfold node; intros; lia).
    unfold ent, aug in *.
    destruct (S i Ni) as [Ei|(Ei & Di)]; rewrite Ei in *;
    destruct (S k Nk) as [Ek|(Ek & Dk)]; rewrite Ek in *;
    destruct (S j Nj) as [Ej|(Ej & Dj)]; rewrite Ej in *.
    + lia.
    + lia.
    + specialize (Ap k Dk). pose proof (h_bnd _ _ _ _ H k Dk). pose proof (h_bnd _ _ _ _ Hu k Dk). unfold bnd in *. lia.
    + pose proof (h_arc _ _ _ _ H k j Dk Dj) as A. specialize (Ap k Dk).
      pose proof (h_bnd _ _ _ _ H k Dk). pose proof (h_bnd _ _ _ _ H j Dj). pose proof (h_bnd _ _ _ _ Hu k Dk).
      pose proof (Bd k j Dk Dj). unfold esum, bnd in *. tests_in B1; tests_in B2; lia.
    + lia.
    + pose proof (Bd i j Di Dj). pose proof (h_bnd _ _ _ _ Hu i Di). pose proof (h_bnd _ _ _ _ H j Dj).
      unfold esum, bnd in *. tests; lia.
    + pose proof (h_arc _ _ _ _ Hu k i Dk Di) as A. unfold tr in A. specialize (Ap k Dk).
      pose proof (h_bnd _ _ _ _ Hu k Dk). pose proof (h_bnd _ _ _ _ Hu i Di). pose proof (h_bnd _ _ _ _ H k Dk).
      pose proof (Bd i k Di Dk). unfold esum, bnd in *. tests_in A1; tests_in A2; lia.
    + pose proof (h_arc _ _ _ _ Hu k i Dk Di) as Au. unfold tr in Au.
      pose proof (h_arc _ _ _ _ H k j Dk Dj) as Af. specialize (Ap k Dk).
      pose proof (tri n D i k j Cl Di Dk Dj) as T.
      pose proof (h_bnd _ _ _ _ Hu k Dk). pose proof (h_bnd _ _ _ _ Hu i Di). pose proof (h_bnd _ _ _ _ H k Dk).
      pose proof (h_bnd _ _ _ _ H j Dj).
      pose proof (Bd i k Di Dk). pose proof (Bd k j Dk Dj). pose proof (Bd i j Di Dj).
      assert (AA := proj1 (mx C M (D i k) (u i) (f k) a ltac:(auto) ltac:(auto) ltac:(auto) C0 M0 L) (conj A1 A2)).
      assert (BB := proj1 (mx C M (D k j) (u k) (f j) b ltac:(auto) ltac:(auto) ltac:(auto) C0 M0 L) (conj B1 B2)).
      clear A1 A2 B1 B2. apply (mx C M); auto.
      destruct AA as [(P1 & P2)|(P1 & P2 & P3)], BB as [(Q1 & Q2)|(Q1 & Q2 & Q3)].
      * left. destruct (T P1 Q1). lia.
      * right. specialize (Au Q1 P1). split; [|split; auto].
        -- apply (sum_fin M C (u k) (D i k)); auto. clear - L M0 C0; lia.
        -- clear - P2 Q3 Au. lia.
      * right. specialize (Af P2 Q1). split; auto. split.
        -- apply (sum_fin M C (f k) (D k j)); auto. clear - L M0 C0; lia.
        -- clear - P3 Q2 Af. lia.
      * right. split; auto. split; auto. clear - Ap P2 Q1 P3 Q3. lia.
Qed.
Lemma box_extends n D C M f u i x : 0 <= n -> closed n D -> all_bnd n C D -> half n D M f -> half n (tr D) M u ->
  apart n f u -> 0 <= C -> 2 * M + C < oo -> 0 <= M -> node n i ->
  (f i = - oo \/ f i <= x) -> (u i = - oo \/ x <= - u i) ->
  exists t, msat n D t /\ t i = x /\ forall j, node n j -> (f j = - oo \/ f j <= t j) /\ (u j = - oo \/ t j <= - u j).
Proof.
  intros N0 Cl Bd H Hu Ap C0 L M0 Ni Lx Ux.
  pose proof (aug_closed n D C M f u N0 Cl Bd H Hu Ap C0 L M0) as K.
  assert (Nn : forall j, node n j -> node (n + 1) j /\ (j =? n) = false) by (unfold node; intros; lia).
  assert (No : node (n + 1) n) by (unfold node; lia).
  destruct (closed_minimal (n + 1) (aug n D f u) n i x K No) as (t & S & E).
  - apply Nn; auto.
  - intros w (W1 & W2). destruct (Nn i Ni) as (_ & Q). unfold aug in *. rewrite Z.eqb_refl, Q in *. lia.
  - intros w (W1 & W2). destruct (Nn i Ni) as (_ & Q). unfold aug in *. rewrite Z.eqb_refl, Q in *. lia.
  - exists (fun j => t j - t n). split; [|split].
    + intros a b w Na Nb (E1 & E2). specialize (S a b w). destruct (Nn a Na) as (Na' & Qa), (Nn b Nb) as (Nb' & Qb).
      unfold ent, aug in S. rewrite Qa, Qb in S.
      assert (w <= t b - t a); [apply S; auto|lia].
      pose proof (Bd a b Na Nb). unfold bnd in *. pose proof (h_bnd _ _ _ _ H b Nb). pose proof (h_bnd _ _ _ _ Hu a Na).
      unfold esum, bnd in *. tests; lia.
    + lia.
    + intros j Nj. destruct (Nn j Nj) as (Nj' & Q). split.
      * destruct (Z.eq_dec (f j) (- oo)); auto. right. specialize (S n j (f j) No Nj').
        unfold ent, aug in S. rewrite Z.eqb_refl, Q in S. lia.
      * destruct (Z.eq_dec (u j) (- oo)); auto. right. specialize (S j n (u j) Nj' No).
        unfold ent, aug in S. rewrite Z.eqb_refl, Q in S. lia.
Qed.
