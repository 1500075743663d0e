(** Programs with finer ticks, without margin (property C114): a program whose bounds are given in
    smaller units of time builds the same graph in these units. *)
From Verif Require Import Machine TimeValue Spec Tac TimeValueProofs Interval Iter TimeSet Relns
  SpecSets Graph MaxPlus FwBound GraphProofs GraphOps GraphFits GraphWarshall GraphGrow GraphSafe GraphMem
  GraphHist GraphTight SpecGraph GraphSound GraphMono GraphInv GraphIter GraphCalls Prop_Graph Prop_Propagation
  Prop_GraphQuery Prop_Seen Prop_Queries Prop_Fits Prop_Represent Prop_Program Prop_Symmetry Prop_Unit.

(** ** Specification *)

(** The program [m] with [c] ticks for each former tick. *)
Fixpoint in_ticks (c : Z) (m : prog) : prog :=
  match m with
  | New => New
  | Add m k => Add (in_ticks c m) (finer_k c k)
  | AddAll m hint ks => AddAll (in_ticks c m) hint (map (finer_k c) ks)
  | Merge m m' => Merge (in_ticks c m) (in_ticks c m')
  | Resize m n => Resize (in_ticks c m) n
  | Clear m => Clear (in_ticks c m)
  end.
(** The finite bounds of the constraints of [m] remain finite. *)
Definition kfits (c : Z) (k : kons) : Prop :=
  (Z.abs (k_lo k) = oo \/ Z.abs (c * k_lo k) < oo) /\ (Z.abs (k_up k) = oo \/ Z.abs (c * k_up k) < oo).
Fixpoint fits (c : Z) (m : prog) : Prop :=
  match m with
  | New => True
  | Add m k => fits c m /\ kfits c k
  | AddAll m _ ks => fits c m /\ Forall (kfits c) ks
  | Merge m m' => fits c m /\ fits c m'
  | Resize m _ | Clear m => fits c m
  end.

(** ** Proofs *)

(** The dates of the two programs: the former ones in ticks, and the latter ones rounded down, wherever
    the ticks are counted from. *)
Definition bridge (c : Z) (S S' : (Z -> Z) -> Prop) : Prop :=
  (forall t, S t -> S' (fun i => c * t i)) /\ forall t s, S' t -> S (fun i => (t i + s) / c).

Lemma floor_ge c a b w s : 0 < c -> c * w <= b - a -> w <= (b + s) / c - (a + s) / c.
Proof.
  intros C H. assert (X : (a + s + w * c) / c <= (b + s) / c) by (apply Z.div_le_mono; lia).
  rewrite Z.div_add in X by lia. lia.
Qed.
Lemma finer_fin c v : Z.abs v <> oo -> finer c v = c * v.
Proof. intros H. unfold finer. destruct (Z.eqb_spec (Z.abs v) oo); auto. contradiction. Qed.
Lemma sat_finer c k t : 0 < c -> k_lo k < oo -> - oo < k_up k -> kfits c k -> sat k t ->
  sat (finer_k c k) (fun i => c * t i).
Proof.
  intros C L U (F1 & F2) (A & B). unfold sat, In_ext in *. cbn [lower upper finer_k k_from k_to k_lo k_up] in *.
  assert (O : 0 < oo) by reflexivity. split.
  - destruct A as [A|A]; [left; unfold finer; rewrite A; reflexivity|]. unfold finer.
    destruct (Z.eqb_spec (Z.abs (k_lo k)) oo) as [e|e]; [left; clear - e L O; lia|right]. nia.
  - destruct B as [B|B]; [left; unfold finer; rewrite B; reflexivity|]. unfold finer.
    destruct (Z.eqb_spec (Z.abs (k_up k)) oo) as [e|e]; [left; clear - e U O; lia|right]. nia.
Qed.
Lemma sat_coarser c k t s : 0 < c -> k_lo k < oo -> - oo < k_up k -> kfits c k -> sat (finer_k c k) t ->
  sat k (fun i => (t i + s) / c).
Proof.
  intros C L U (F1 & F2) (A & B). unfold sat, In_ext in *. cbn [lower upper finer_k k_from k_to k_lo k_up] in *.
  assert (O : 0 < oo) by reflexivity. set (a := t (k_from k)) in *. set (b := t (k_to k)) in *. split.
  - destruct (Z.eq_dec (Z.abs (k_lo k)) oo) as [e|e]; [left; clear - e L O; lia|right].
    rewrite finer_fin in A by auto. destruct F1 as [F1|F1]; [contradiction|].
    apply floor_ge; auto. destruct A as [A|A]; [|exact A]. clear - A F1 O. lia.
  - destruct (Z.eq_dec (Z.abs (k_up k)) oo) as [e|e]; [left; clear - e U O; lia|right].
    rewrite finer_fin in B by auto. destruct F2 as [F2|F2]; [contradiction|].
    assert (X : - k_up k <= (a + s) / c - (b + s) / c); [|clear - X; lia].
    apply floor_ge; auto. destruct B as [B|B]; [clear - B F2 O; lia|]. clear - B. lia.
Qed.
(** The constraints of dates that are intervals of time values have bounds. *)
Lemma spread_bounds n S k : spread n S -> (exists t, S t) -> (forall t, S t -> sat k t) ->
  0 <= k_from k < n -> 0 <= k_to k < n -> k_lo k < oo /\ - oo < k_up k.
Proof.
  intros Sp (t0 & S0) H Nf Nt. destruct (Sp _ _ Nf Nt) as (iv & ((P1 & P2) & (P3 & P4)) & V).
  assert (O : 0 < oo) by reflexivity.
  assert (I0 : In_ext (t0 (k_to k) - t0 (k_from k)) iv) by (apply V; eauto).
  set (d := t0 (k_to k) - t0 (k_from k)) in *.
  assert (X : forall v, In_ext v iv -> In_ext v (mkI (k_lo k) (k_up k))).
  { intros v Hv. apply V in Hv. destruct Hv as (t & St & <-). apply (H t St). }
  split.
  - destruct (X (Z.min d (Z.max (lower iv) (- oo)))) as (A & _).
    + unfold In_ext in *. lia.
    + cbn [lower] in A. lia.
  - destruct (X (Z.max d (Z.min (upper iv) oo))) as (_ & A).
    + unfold In_ext in *. lia.
    + cbn [upper] in A. lia.
Qed.
Lemma bridge_sat c S S' k : 0 < c -> k_lo k < oo -> - oo < k_up k -> kfits c k -> bridge c S S' ->
  bridge c (fun t => S t /\ sat k t) (fun t => S' t /\ sat (finer_k c k) t).
Proof.
  intros C L U F (B1 & B2). split.
  - intros t (A & B). split; auto. apply sat_finer; auto.
  - intros t s (A & B). split; auto. apply sat_coarser; auto.
Qed.
Lemma bridge_all c S S' ks : 0 < c -> Forall (fun k => k_lo k < oo /\ - oo < k_up k) ks -> Forall (kfits c) ks ->
  bridge c S S' ->
  bridge c (fun t => S t /\ Forall (fun k => sat k t) ks) (fun t => S' t /\ Forall (fun k => sat k t) (map (finer_k c) ks)).
Proof.
  intros C L F (B1 & B2). rewrite Forall_forall in L, F. split.
  - intros t (A & B). split; auto. rewrite Forall_forall in *. intros k Ik. apply in_map_iff in Ik.
    destruct Ik as (k0 & <- & Ik). apply sat_finer; auto; apply L; auto.
  - intros t s (A & B). split; auto. rewrite Forall_forall in *. intros k Ik.
    apply sat_coarser; auto; [apply L; auto..|]. apply B. apply in_map. auto.
Qed.
Lemma good_bounds n k : good n oo k -> k_lo k < oo /\ - oo < k_up k.
Proof. intros (_ & (_ & _ & _ & A & B) & _). auto. Qed.

Lemma ticks_bridge c m n S : 0 < c -> means m n S -> fits c m -> forall n' S', means (in_ticks c m) n' S' ->
  n' = n /\ bridge c S S'.
Proof.
  intros C H. induction H as [|m n S k H IH G Co Sp|m n S k H IH G N|m n S k H IH G Nf Nt Ne|m n S hint ks n1 H IH Lk H0 H1 L F X Co Sp
    |m m' n n1 S S1 H IH H' IH' Co Sp|m n S n1 H IH L|m n S H IH]; cbn [fits in_ticks]; intros Fi n' S' M.
  - inversion M; subst. split; auto. split; auto.
  - destruct Fi as (Fi & Fk). destruct (good_bounds _ _ G) as (K1 & K2).
    inversion M as [|m0 n0 S0 k0 M0 G0 Co0 Sp0|m0 n0 S0 k0 M0 G0 N0|m0 n0 S0 k0 M0 G0 Nf Nt Ne| | | |]; subst;
      destruct (IH Fi _ _ M0) as (-> & Br).
    + split; auto. apply bridge_sat; auto.
    + exfalso. destruct Co as (t & A & B). apply (N0 (fun i => c * t i)). split; [apply Br; auto|apply sat_finer; auto].
    + exfalso. cbn [finer_k k_from] in Nf. destruct G as (_ & _ & G & _). lia.
  - destruct Fi as (Fi & Fk). destruct (good_bounds _ _ G) as (K1 & K2).
    inversion M as [|m0 n0 S0 k0 M0 G0 Co0 Sp0|m0 n0 S0 k0 M0 G0 N0|m0 n0 S0 k0 M0 G0 Nf Nt Ne| | | |]; subst;
      destruct (IH Fi _ _ M0) as (-> & Br).
    + exfalso. destruct Co0 as (t & A & B). apply (N (fun i => (t i + 0) / c)). split; [apply Br; auto|].
      apply sat_coarser; auto.
    + split; auto.
    + exfalso. cbn [finer_k k_from] in Nf. destruct G as (_ & _ & G & _). lia.
  - destruct Fi as (Fi & Fk). destruct (good_bounds _ _ G) as (K1 & K2).
    inversion M as [|m0 n0 S0 k0 M0 G0 Co0 Sp0|m0 n0 S0 k0 M0 G0 N0|m0 n0 S0 k0 M0 G0 Nf0 Nt0 Ne0| | | |]; subst;
      destruct (IH Fi _ _ M0) as (-> & Br).
    + exfalso. destruct G0 as (_ & _ & G0 & _). cbn [finer_k k_from] in G0. lia.
    + exfalso. destruct G0 as (_ & _ & G0 & _). cbn [finer_k k_from] in G0. lia.
    + cbn [finer_k k_from k_to]. split; auto. apply bridge_sat; auto.
  - destruct Fi as (Fi & Fk).
    inversion M as [| | | |m0 n0 S0 h0 ks0 n2 M0 Lk0 H00 H10 L0 F0 X0 Co0 Sp0| | |]; subst.
    destruct (IH Fi _ _ M0) as (-> & Br).
    assert (Bd : Forall (fun k => k_lo k < oo /\ - oo < k_up k) ks).
    { rewrite Forall_forall in *. intros k Ik. apply (spread_bounds n1 _ k Sp Co).
      - intros t (_ & T). rewrite Forall_forall in T. apply T. auto.
      - specialize (F k Ik). specialize (Lk k Ik). unfold legal in Lk. lia.
      - specialize (F k Ik). specialize (Lk k Ik). unfold legal in Lk. lia. }
    split; [|apply bridge_all; auto].
    assert (F0' : Forall (fun k => k_from k < n' /\ k_to k < n') ks).
    { rewrite Forall_forall in *. intros k Ik. apply (F0 (finer_k c k)). apply in_map. auto. }
    assert (X0' : n' = n \/ Exists (fun k => n' = k_from k + 1 \/ n' = k_to k + 1) ks).
    { destruct X0 as [X0|X0]; auto. right. rewrite Exists_exists in *. destruct X0 as (k & Ik & Y).
      apply in_map_iff in Ik. destruct Ik as (k0 & <- & Ik). exists k0. auto. }
    rewrite Forall_forall in F, F0'. rewrite Exists_exists in X, X0'.
    apply Z.le_antisymm.
    + destruct X0' as [->|(k & Ik & Y)]; auto. specialize (F k Ik). lia.
    + destruct X as [->|(k & Ik & Y)]; auto. specialize (F0' k Ik). lia.
  - destruct Fi as (Fi & Fi'). inversion M as [| | | | |m0 m1 n0 n2 S0 S2 M0 M1 Co0 Sp0| |]; subst.
    destruct (IH Fi _ _ M0) as (-> & B1 & B2). destruct (IH' Fi' _ _ M1) as (-> & B1' & B2'). split; auto. split.
    + intros t (A & B). auto.
    + intros t s (A & B). auto.
  - inversion M as [| | | | | |m0 n0 S0 n2 M0 L0|]; subst. destruct (IH Fi _ _ M0) as (-> & B1 & B2). split; auto. split.
    + intros t (t' & A & B). exists (fun i => c * t' i). split; auto. intros i Ni. rewrite B; auto.
    + intros t s (t' & A & B). exists (fun i => (t' i + s) / c). split; auto. intros i Ni. rewrite B; auto.
  - inversion M as [| | | | | | |m0 n0 S0 M0]; subst. destruct (IH Fi _ _ M0) as (-> & _). split; auto. split; auto.
Qed.

(** The differences, lower side *)
Lemma scaled_low c iv iv' : 0 < c -> proper_bounds iv -> proper_bounds iv' ->
  (exists v, In_ext v iv) -> (forall v, In_ext v iv -> In_ext (c * v) iv') ->
  (forall v, In_ext v iv' -> lower iv = - oo \/ c * lower iv <= v) -> lower iv' = finer c (lower iv).
Proof.
  intros C (P1 & P2) (Q1 & Q2) (v0 & V0) H1 H2. assert (O : 0 < oo) by reflexivity.
  destruct (Z.eq_dec (lower iv) (- oo)) as [e|e].
  - unfold finer. rewrite e. change (Z.abs (- oo) =? oo) with true. cbv iota.
    destruct (Z.eq_dec (lower iv') (- oo)) as [e'|e']; auto. exfalso.
    assert (V : In_ext (Z.min v0 (Z.min 0 (lower iv' - 1))) iv) by (unfold In_ext in *; clear - V0 e; lia).
    apply H1 in V. destruct V as ([V|V] & _); [contradiction|].
    assert (c * Z.min v0 (Z.min 0 (lower iv' - 1)) <= 1 * Z.min v0 (Z.min 0 (lower iv' - 1))) by nia.
    clear - V H. lia.
  - assert (V : In_ext (lower iv) iv) by (unfold In_ext in *; clear - V0 e; lia).
    apply H1 in V. assert (ab : Z.abs (lower iv) <> oo) by (clear - P1 e O; lia). rewrite finer_fin by auto.
    destruct (Z.eq_dec (lower iv') (- oo)) as [e'|e'].
    + exfalso. assert (V' : In_ext (Z.min (c * lower iv) (c * lower iv - 1)) iv') by (unfold In_ext in *; clear - V e'; lia).
      apply H2 in V'. clear - V' e. lia.
    + assert (V' : In_ext (lower iv') iv') by (unfold In_ext in *; clear - V e'; lia).
      apply H2 in V'. unfold In_ext in V. clear - V V' e e'. lia.
Qed.
Definition neg_iv (iv : interval) : interval := mkI (- upper iv) (- lower iv).
Lemma finer_opp c v : finer c (- v) = - finer c v.
Proof. unfold finer. rewrite Z.abs_opp. destruct (Z.abs v =? oo); lia. Qed.
Lemma neg_in v iv : In_ext v (neg_iv iv) <-> In_ext (- v) iv.
Proof. unfold In_ext, neg_iv. cbn [lower upper]. lia. Qed.

(** ** C114 *)

(** The reported intervals are the former ones, in the new unit. *)
Theorem C114_ticks : forall p c m n S n' S' i j, 0 < c -> means m n S -> means (in_ticks c m) n' S' -> fits c m ->
  0 <= i < n -> 0 <= j < n -> n' = n /\ exists iv, reports p m i j iv /\ reports p (in_ticks c m) i j (finer_iv c iv).
Proof.
  intros p c m n S n' S' i j C H H' Fi Ni Nj. destruct (ticks_bridge c m n S C H Fi n' S' H') as (-> & B1 & B2). split; auto.
  destruct (reports_exact p m n S i j H Ni Nj) as (iv & R & P & Ex & V).
  destruct (reports_exact p _ n S' i j H' Ni Nj) as (iv' & R' & P' & Ex' & V').
  exists iv. split; auto.
  assert (H1 : forall v, In_ext v iv -> In_ext (c * v) iv').
  { intros v Hv. apply V in Hv. destruct Hv as (t & A & <-). apply V'. exists (fun i => c * t i). split; auto. lia. }
  assert (H2 : forall v, In_ext v iv' -> exists q, In_ext q iv /\ c * q <= v).
  { intros v Hv. apply V' in Hv. destruct Hv as (t & A & <-).
    exists ((t j + - t i) / c - (t i + - t i) / c). split.
    - apply V. exists (fun x => (t x + - t i) / c). split; auto.
    - rewrite Z.add_opp_diag_r, Z.div_0_l by lia. pose proof (Z.mul_div_le (t j + - t i) c C). lia. }
  assert (H3 : forall v, In_ext v iv' -> exists q, In_ext q iv /\ v <= c * q).
  { intros v Hv. apply V' in Hv. destruct Hv as (t & A & <-).
    exists ((t j + - t j) / c - (t i + - t j) / c). split.
    - apply V. exists (fun x => (t x + - t j) / c). split; auto.
    - rewrite Z.add_opp_diag_r, Z.div_0_l by lia. pose proof (Z.mul_div_le (t i + - t j) c C). lia. }
  assert (L : lower iv' = finer c (lower iv)).
  { apply scaled_low; auto. intros v Hv. destruct (H2 v Hv) as (q & (Q & _) & L).
    destruct Q as [Q|Q]; auto. right. assert (c * lower iv <= c * q) by nia. lia. }
  assert (U : - upper iv' = finer c (- upper iv)).
  { apply (scaled_low c (neg_iv iv) (neg_iv iv')); auto.
    - unfold proper_bounds, neg_iv in *. cbn [lower upper]. lia.
    - unfold proper_bounds, neg_iv in *. cbn [lower upper]. lia.
    - destruct Ex as (v & Hv). exists (- v). apply neg_in. rewrite Z.opp_involutive. auto.
    - intros v Hv. rewrite neg_in in *. apply H1 in Hv. replace (- (c * v)) with (c * - v) by lia. auto.
    - intros v Hv. rewrite neg_in in Hv. destruct (H3 _ Hv) as (q & (_ & Q) & L'). cbn [neg_iv lower].
      destruct Q as [Q|Q]; [left; rewrite Q; auto|]. right. assert (c * q <= c * upper iv) by nia. lia. }
  rewrite finer_opp in U. assert (U' : upper iv' = finer c (upper iv)) by lia.
  destruct iv' as [a b]. cbn [lower upper] in L, U'. subst a b. exact R'.
Qed.
(** So are the dates. *)
Theorem C114_dates : forall c m n S n' S' t, 0 < c -> means m n S -> means (in_ticks c m) n' S' -> fits c m ->
  (S t <-> S' (fun i => c * t i)).
Proof.
  intros c m n S n' S' t C H H' Fi. destruct (ticks_bridge c m n S C H Fi n' S' H') as (-> & B1 & B2). split; auto.
  intros X. apply (B2 _ 0) in X. eapply (means_local m n S); [exact H| |exact X]. intros i Ni. cbv beta.
  rewrite Z.add_0_r, (Z.mul_comm c), Z.div_mul by lia. auto.
Qed.

(** ** Example *)

(** The program of C110 with bounds half as large, whose ticks are doubled: its bounds then leave no
    margin at all. *)
Definition half : Z := 2305843009213693952.
Definition e_half : prog :=
  Merge (Add New (mkK 0 1 false half half)) (Add (Resize New 1) (mkK 1 2 false (- half) (- half))).
Lemma half_spread : spread 3 (fun t => t 1 - t 0 = half /\ t 2 - t 1 = - half).
Proof.
  set (u := fun i => if i =? 1 then half else 0). intros i j Ni Nj. exists (mkI (u j - u i) (u j - u i)).
  assert (E : forall t, t 1 - t 0 = half /\ t 2 - t 1 = - half -> t j - t i = u j - u i).
  { intros t (A & B). destruct (in3 i Ni) as [->|[-> | ->]]; destruct (in3 j Nj) as [->|[-> | ->]];
      cbv [u Z.eqb Pos.eqb]; lia. }
  assert (F : - half <= u j - u i <= half).
  { destruct (in3 i Ni) as [->|[-> | ->]]; destruct (in3 j Nj) as [->|[-> | ->]]; split; discriminate. }
  assert (L : half < oo) by reflexivity. split; [unfold proper_bounds; cbn [lower upper]; lia|].
  intros v. unfold In_ext. cbn [lower upper]. split.
  - intros V. exists u. split; [split; reflexivity|]. lia.
  - intros (t & T & <-). apply E in T. lia.
Qed.
Example C114_ticks_case : exists S S', means e_half 3 S /\ means (in_ticks 2 e_half) 3 S' /\ fits 2 e_half /\
  in_ticks 2 e_half = e_merge /\
  forall p, reports p e_half 0 1 (mkI half half) /\ reports p e_merge 0 1 (mkI far far).
Proof.
  assert (I : in_ticks 2 e_half = e_merge) by (vm_compute; reflexivity).
  destruct e_merge_means as (S' & H' & _).
  set (S1 := fun t : Z -> Z => True /\ sat (mkK 0 1 false half half) t).
  set (S2 := fun t : Z -> Z => (exists t', True /\ forall i, 0 <= i < 1 -> t i = t' i) /\ sat (mkK 1 2 false (- half) (- half)) t).
  assert (Q : forall t, S1 t /\ S2 t <-> t 1 - t 0 = half /\ t 2 - t 1 = - half).
  { intros t. unfold S1, S2. rewrite !sat_eq by discriminate. split; [tauto|]. intros (A & B). split; [tauto|]. split; auto. exists t. auto. }
  exists (fun t => S1 t /\ S2 t), S'. split.
  - apply (m_merge (Add New (mkK 0 1 false half half)) (Add (Resize New 1) (mkK 1 2 false (- half) (- half))) 2 3 S1 S2).
    + apply (m_more New 0 (fun _ => True) (mkK 0 1 false half half)); [constructor|unfold half; goodk|cbn; lia..].
    + apply (m_more (Resize New 1) 1 (fun t => exists t', True /\ forall i, 0 <= i < 1 -> t i = t' i) (mkK 1 2 false (- half) (- half)));
        [apply (m_resize New 0 (fun _ => True)); [constructor|lia]|unfold half; goodk|cbn; lia..].
    + exists (fun i => if i =? 1 then half else 0). apply Q. split; reflexivity.
    + eapply spread_ext; [|exact half_spread]. intros t. symmetry. apply Q.
  - rewrite I. split; auto. split; [repeat split; right; reflexivity|]. split; auto. intros p.
    split; [exists (mkG 3 [0; - half; 0; half; 0; half; 0; - half; 0])|exists g_m];
      (split; destruct p; vm_compute; reflexivity).
Qed.
