(** [global_propagation] when the exact bounds are time values: proofs without any margin.  The
    sums that are not needed may saturate. *)
From Verif Require Import Machine TimeValue Spec Tac TimeValueProofs Interval Relns SpecSets
  Graph MaxPlus GraphProofs GraphOps GraphFits.

(** ** The closure over the unbounded integers

    [- oo] stands for no bound.  It is odd: the sums of even numbers are never confused with it. *)

Definition evens (L : mat) : Prop := forall i j, L i j <> - oo -> Z.Even (L i j).
Definition join (a b : Z) : Z := if a =? - oo then b else if b =? - oo then a else Z.max a b.
Definition turn (L : mat) (k : Z) : mat := fun a b => join (L a b) (esum (L a k) (L k b)).

Lemma even_oo x : Z.Even x -> x <> - oo.
Proof. intros (q & ->). unfold oo. lia. Qed.
Lemma even_add x y : Z.Even x -> Z.Even y -> Z.Even (x + y).
Proof. intros (a & ->) (b & ->). exists (a + b). lia. Qed.
Lemma turn_ent n L k : evens L -> fwstep n k L (turn L k).
Proof.
  intros Ev i j c Ni Nj. unfold turn, join, ent, esum.
  pose proof (Ev i k) as E1. pose proof (Ev k j) as E2.
  destruct (L i k =? - oo) eqn:T1; [|destruct (L k j =? - oo) eqn:T2]; cbn [orb].
  - replace (- oo =? - oo) with true by lia. split; [|intros [X|(a & b & (X & _) & _)]; [|lia]];
      destruct (L i j =? - oo) eqn:T; auto; lia.
  - replace (- oo =? - oo) with true by lia. split; [|intros [X|(a & b & _ & (X & _) & _)]; [|lia]];
      destruct (L i j =? - oo) eqn:T; auto; lia.
  - assert (S : L i k + L k j <> - oo) by (apply even_oo, even_add; [apply E1|apply E2]; lia).
    replace (L i k + L k j =? - oo) with false by lia. split.
    + destruct (L i j =? - oo) eqn:T; intros (X & Y).
      * right. exists (L i k), (L k j). lia.
      * destruct (Z_le_gt_dec c (L i j)); [left; lia|]. right. exists (L i k), (L k j). lia.
    + destruct (L i j =? - oo) eqn:T; intros [X|(a & b & X & Y & Z)]; try lia.
Qed.
Lemma turn_even L k : evens L -> evens (turn L k).
Proof.
  intros Ev i j. unfold turn, join, esum. pose proof (Ev i k) as E1. pose proof (Ev k j) as E2. pose proof (Ev i j) as E3.
  destruct (L i k =? - oo) eqn:T1; [|destruct (L k j =? - oo) eqn:T2]; cbn [orb].
  - replace (- oo =? - oo) with true by lia. destruct (L i j =? - oo) eqn:T; [congruence|auto].
  - replace (- oo =? - oo) with true by lia. destruct (L i j =? - oo) eqn:T; [congruence|auto].
  - assert (S : Z.Even (L i k + L k j)) by (apply even_add; [apply E1|apply E2]; lia). pose proof (even_oo _ S).
    replace (L i k + L k j =? - oo) with false by lia. destruct (L i j =? - oo) eqn:T; auto.
    intros _. destruct (Z.max_spec (L i j) (L i k + L k j)) as [(_ & ->)|(_ & ->)]; auto. apply E3. lia.
Qed.

Section Closure.
Context (n : Z) (M : mat) (t0 : Z -> Z).
Context (n0 : 0 <= n) (Z0 : zero_diag n M) (S0 : msat n M t0).

Definition twice : mat := fun i j => if M i j =? - oo then - oo else 2 * M i j.

Lemma twice_fin i j : (twice i j <> - oo <-> M i j <> - oo) /\ (M i j <> - oo -> twice i j = 2 * M i j).
Proof.
  unfold twice. destruct (M i j =? - oo) eqn:T; split; try lia; intros; split; try lia; intros _; unfold oo; lia.
Qed.
Lemma twice_even : evens twice.
Proof. intros i j F. destruct (twice_fin i j) as (A & B). exists (M i j). apply B, A, F. Qed.
Lemma twice_msat t : msat n M t -> msat n twice (fun i => 2 * t i).
Proof.
  intros S i j w Ni Nj (F & L). destruct (twice_fin i j) as (A & B). apply A in F. specialize (B F).
  specialize (S i j (M i j) Ni Nj (conj F (Z.le_refl _))). lia.
Qed.
Lemma half_msat t : msat n twice t -> msat n M (fun i => t i / 2).
Proof.
  intros S i j w Ni Nj (F & L). destruct (twice_fin i j) as (A & B). specialize (B F). apply A in F.
  specialize (S i j (twice i j) Ni Nj (conj F (Z.le_refl _))).
  pose proof (Z.div_mod (t i) 2 ltac:(lia)). pose proof (Z.div_mod (t j) 2 ltac:(lia)).
  pose proof (Z.mod_pos_bound (t i) 2 ltac:(lia)). pose proof (Z.mod_pos_bound (t j) 2 ltac:(lia)). lia.
Qed.
Lemma twice_walk i l j w : walk (medge n M) i l j w -> walk (medge n twice) i l j (2 * w).
Proof.
  induction 1 as [i j w (Ni & Nj & F & ->)|i x j l w1 w2 (Ni & Nj & F & ->) W IH].
  - constructor. destruct (twice_fin i j) as (A & B). split; auto. split; auto. split; [apply A; auto|]. rewrite B; auto.
  - replace (2 * (M i x + w2)) with (2 * M i x + 2 * w2) by lia. constructor; auto.
    destruct (twice_fin i x) as (A & B). split; auto. split; auto. split; [apply A; auto|]. rewrite B; auto.
Qed.
Lemma half_walk i l j w : walk (medge n twice) i l j w -> exists u, w = 2 * u /\ walk (medge n M) i l j u.
Proof.
  induction 1 as [i j w (Ni & Nj & F & ->)|i x j l w1 w2 (Ni & Nj & F & ->) W IH].
  - destruct (twice_fin i j) as (A & B). apply A in F. exists (M i j). split; auto. constructor. unfold medge. auto.
  - destruct IH as (u & -> & IH). destruct (twice_fin i x) as (A & B). apply A in F. exists (M i x + u).
    split; [rewrite B by auto; lia|]. constructor; auto. unfold medge. auto.
Qed.

Lemma twice_diag k L : fwinv n twice k L -> zero_diag n L.
Proof.
  intros I i Ni. assert (X : ent L i i 0).
  { apply I; auto. exists [], 0. split; [|split; [constructor|lia]]. constructor.
    destruct (twice_fin i i) as (A & B). rewrite (Z0 i Ni) in *. unfold medge.
    assert (F : 0 <> - oo) by discriminate. split; auto. split; auto. split; [apply A; auto|]. rewrite B by auto. auto. }
  destruct X as (F & X). destruct (Z_le_gt_dec (L i i) 0); [lia|]. exfalso.
  apply (fw_positive n twice k L i (L i i) (fun i => 2 * t0 i) I Ni); [split; auto; lia|lia|apply twice_msat, S0].
Qed.
Lemma twice_turns : forall m, (m <= Z.to_nat n)%nat -> exists L, fwinv n twice (Z.of_nat m) L /\ evens L.
Proof.
  induction m as [|m IH]; intros H.
  - exists twice. split; [apply fwinv_0|apply twice_even].
  - destruct IH as (L & I & Ev); [lia|]. exists (turn L (Z.of_nat m)). split; [|apply turn_even; auto].
    replace (Z.of_nat (S m)) with (Z.of_nat m + 1) by lia.
    assert (Nm : node n (Z.of_nat m)) by (unfold node; lia).
    apply fwinv_step with (L := L); auto; [eapply twice_diag; eauto|]. apply turn_ent; auto.
Qed.

(** The exact bounds, when they are time values *)
Lemma exact_closure :
  (forall i j, node n i -> node n j -> exists lo, - oo <= lo < oo /\
     forall v, (lo = - oo \/ lo <= v) <-> exists t, msat n M t /\ t j - t i <= v) ->
  exists E, closed n E /\ low n E /\ (forall t, msat n E t <-> msat n M t) /\
    (forall i l j w, walk (medge n M) i l j w -> ent E i j w) /\
    (forall i j, node n i -> node n j -> E i j <> - oo -> exists l, walk (medge n M) i l j (E i j)).
Proof.
  intros Rp. destruct (twice_turns (Z.to_nat n) ltac:(lia)) as (L & I & Ev). rewrite Z2Nat.id in I by auto.
  pose proof (twice_diag n L I) as ZL.
  assert (T : tight n (medge n twice) L).
  { apply (fw_tight n twice); auto.
    - intros i j w (Ni & Nj & F & ->). split; auto. split; auto. split; auto. lia.
    - intros i j c Ni Nj (F & X). exists [], (twice i j). split; auto. constructor. left. unfold medge. auto. }
  pose proof T as (Cl & _).
  assert (O : 0 < oo) by reflexivity.
  assert (MS : forall t, msat n L t <-> msat n twice t).
  { intros t. rewrite (tight_msat n _ L t T). split.
    - intros H i j w Ni Nj (F & X). specialize (H i j (twice i j)). unfold medge in H. specialize (H ltac:(auto)). lia.
    - intros H i j w (Ni & Nj & F & ->). apply H; auto. split; auto. lia. }
  set (E := fun i j => if L i j =? - oo then - oo else L i j / 2).
  assert (Lf : forall i j, node n i -> node n j -> L i j <> - oo -> L i j = 2 * E i j /\ - oo < E i j < oo).
  { intros i j Ni Nj F. destruct (Ev i j F) as (e & He).
    assert (Ee : E i j = e). { unfold E. replace (L i j =? - oo) with false by lia. rewrite He. rewrite Z.mul_comm. apply Z.div_mul. lia. }
    rewrite Ee. split; auto. destruct (Rp i j Ni Nj) as (lo & B & H).
    assert (Min : exists t, msat n M t /\ t j - t i <= e).
    { destruct (closed_minimal n L i j (L i j) Cl Ni Nj) as (t & S & D).
      - intros w (_ & X). auto.
      - intros w X. assert (Y : ent L i j (L i j)) by (split; auto; lia).
        pose proof (proj2 Cl i j i _ _ Ni Nj Ni Y X) as W. apply (ent_diag n) in W; auto. lia.
      - exists (fun x => t x / 2). split; [apply half_msat, MS, S|].
        replace (t j) with (t i + e * 2) by lia. rewrite Z.div_add by lia. lia. }
    assert (Low : forall t, msat n M t -> e <= t j - t i).
    { intros t S. apply twice_msat, MS in S. specialize (S i j (L i j) Ni Nj ltac:(split; auto; lia)). cbv beta in S. lia. }
    apply H in Min. assert (N : ~ (lo = - oo \/ lo <= e - 1)).
    { rewrite H. intros (t & S & D). specialize (Low t S). lia. }
    lia. }
  assert (Ln : forall i j, L i j = - oo -> E i j = - oo).
  { intros i j F. unfold E. replace (L i j =? - oo) with true by lia. auto. }
  assert (EF : forall i j, node n i -> node n j -> E i j <> - oo -> L i j <> - oo).
  { intros i j Ni Nj F e. apply F, Ln, e. }
  assert (LW : forall i l j w, walk (medge n M) i l j w -> ent E i j w).
  { intros i l j w W. pose proof W as W0. apply (walk_nodes _ n (medge_node n M)) in W0. destruct W0 as (Ni & Nj & Fl).
    apply twice_walk in W. assert (X : ent L i j (2 * w)).
    { apply I; auto. exists l, (2 * w). split; auto. split; [|lia]. eapply Forall_impl; [|exact Fl]. intros a (_ & ?). auto. }
    destruct X as (F & X). destruct (Lf i j Ni Nj F) as (Y & B). split; lia. }
  assert (WL : forall i j, node n i -> node n j -> E i j <> - oo -> exists l, walk (medge n M) i l j (E i j)).
  { intros i j Ni Nj F. apply EF in F; auto. destruct (Lf i j Ni Nj F) as (Y & B).
    assert (X : ent L i j (L i j)) by (split; auto; lia). apply I in X; auto. destruct X as (l & w & W & Fl & Le).
    assert (Le2 : ent L i j w). { apply I; auto. exists l, w. split; auto. split; auto. lia. }
    destruct Le2 as (_ & Le2). assert (w = 2 * E i j) by lia. subst w.
    apply half_walk in W. destruct W as (u & Hu & W). exists l. replace (E i j) with u by lia. auto. }
  exists E. split; [split|split; [|split; [|split; auto]]].
  - intros i Ni. assert (F : L i i <> - oo) by (rewrite (ZL i Ni); lia). destruct (Lf i i Ni Ni F) as (Y & B).
    rewrite (ZL i Ni) in Y. lia.
  - intros i k j a b Ni Nk Nj (A1 & A2) (B1 & B2). destruct (WL i k Ni Nk A1) as (l1 & W1).
    destruct (WL k j Nk Nj B1) as (l2 & W2). assert (W : walk (medge n M) i (l1 ++ k :: l2) j (E i k + E k j)) by (apply walk_app; auto).
    apply LW in W. eapply ent_mono; [exact W|lia].
  - intros i j Ni Nj. destruct (Z.eq_dec (L i j) (- oo)) as [e|e]; [rewrite (Ln i j e); lia|].
    destruct (Lf i j Ni Nj e). lia.
  - intros t. split.
    + intros S i j w Ni Nj (F & X). apply S; auto.
      assert (W : walk (medge n M) i [] j (M i j)) by (constructor; unfold medge; auto).
      apply LW in W. eapply ent_mono; eauto.
    + intros S i j w Ni Nj (F & X). destruct (WL i j Ni Nj F) as (l & W).
      assert (E i j <= t j - t i); [|lia]. eapply walk_msat; [|exact W].
      intros a b c (Na & Nb & Fc & ->). apply S; auto. split; auto. lia.
Qed.

(** ** The turns, with sums that saturate *)

Definition sturn (L : mat) (k : Z) : mat := fun a b => Z.max (L a b) (asum (L a k) (L k b)).
Record sinv (E : mat) (k : Z) (L : mat) : Prop := {
  s_diag : zero_diag n L;
  s_low : forall i j, node n i -> node n j -> - oo <= L i j;
  s_le : forall i j, node n i -> node n j -> L i j <> - oo -> E i j <> - oo /\ L i j <= E i j;
  s_best : forall i l j, walk (medge n M) i l j (E i j) -> E i j <> - oo -> Forall (fun x => x < k) l -> L i j = E i j }.

Context (E : mat) (Cl : closed n E) (Lw : low n E).
Context (LW : forall i l j w, walk (medge n M) i l j w -> ent E i j w).


Lemma sinv_start : (forall i j, node n i -> node n j -> - oo <= M i j) -> sinv E 0 M.
Proof.
  intros V. split; auto.
  - intros i j Ni Nj F. assert (W : walk (medge n M) i [] j (M i j)) by (constructor; unfold medge; auto).
    apply LW in W. auto.
  - intros i l j W F Fl. destruct l as [|x l].
    + inversion W as [? ? ? (_ & _ & _ & X)|]; subst. auto.
    + exfalso. inversion Fl as [|? ? X]; subst. apply (walk_nodes _ n (medge_node n M)) in W.
      destruct W as (_ & _ & W). inversion W as [|? ? (Y & _)]; subst. lia.
Qed.

Lemma sinv_sum k L : sinv E k L -> forall i x j, node n i -> node n x -> node n j ->
  L i x <> - oo -> L x j <> - oo -> E i j <> - oo /\ L i x + L x j <= E i j /\ E i j < oo.
Proof.
  intros I i x j Ni Nx Nj F1 F2. destruct (s_le _ _ _ I i x Ni Nx F1) as (A1 & A2).
  destruct (s_le _ _ _ I x j Nx Nj F2) as (B1 & B2).
  destruct (proj2 Cl i x j (E i x) (E x j) Ni Nx Nj) as (C1 & C2); [split; auto; lia|split; auto; lia|].
  pose proof (Lw i j Ni Nj). lia.
Qed.

Lemma sinv_step k L : node n k -> sinv E k L -> sinv E (k + 1) (sturn L k).
Proof.
  intros Nk I. pose proof (sinv_sum k L I) as Sm. pose proof I as [Dg Lo Le Be]. assert (O : 0 < oo) by reflexivity.
  assert (Up : forall i j, node n i -> node n j -> sturn L k i j <> - oo -> E i j <> - oo /\ sturn L k i j <= E i j).
  { intros i j Ni Nj. unfold sturn, asum. specialize (Le i j Ni Nj). specialize (Sm i k j Ni Nk Nj).
    specialize (Lo i j Ni Nj). pose proof (Lw i j Ni Nj).
    destruct (L i k =? - oo) eqn:T1; [|destruct (L k j =? - oo) eqn:T2]; cbn [orb]; try (intros; lia). }
  split.
  - intros i Ni. pose proof (Up i i Ni Ni) as U. rewrite (proj1 Cl i Ni) in U. unfold sturn in *. rewrite (Dg i Ni) in *. lia.
  - intros i j Ni Nj. specialize (Lo i j Ni Nj). unfold sturn. lia.
  - auto.
  - intros i l j W F Fl.
    assert (G : forall l i j, walk (medge n M) i l j (E i j) -> E i j <> - oo -> Forall (fun x => x < k + 1) l ->
      L i j = E i j \/ (L i k = E i k /\ L k j = E k j /\ E i k + E k j = E i j /\ E i k <> - oo /\ E k j <> - oo)).
    { clear i l j W F Fl. intros l. remember (length l) as m eqn:Em. revert l Em.
      induction m as [m IH] using lt_wf_ind. intros l Em i j W F Fl.
      destruct (in_dec Z.eq_dec k l) as [K|K].
      - right. apply in_split in K. destruct K as (l1 & l2 & ->). rewrite app_length in Em. cbn [length] in Em.
        pose proof W as W0. apply (walk_nodes _ n (medge_node n M)) in W0. destruct W0 as (Ni & Nj & _).
        apply walk_split in W. destruct W as (w1 & w2 & W1 & W2 & Ew).
        apply Forall_app in Fl. destruct Fl as (F1 & F2). inversion F2 as [|? ? _ F3]; subst.
        destruct (LW _ _ _ _ W1) as (X1 & Y1). destruct (LW _ _ _ _ W2) as (X2 & Y2).
        destruct (proj2 Cl i k j (E i k) (E k j) Ni Nk Nj) as (_ & Tr); [split; auto; lia|split; auto; lia|].
        assert (w1 = E i k) by lia. assert (w2 = E k j) by lia. subst w1 w2.
        split; [|split; [|split; [lia|auto]]].
        + destruct (IH (length l1) ltac:(lia) l1 eq_refl i k W1 X1 F1) as [?|(? & _)]; auto.
        + destruct (IH (length l2) ltac:(lia) l2 eq_refl k j W2 X2 F3) as [?|(_ & ? & _)]; auto.
      - left. apply (Be i l j); auto. rewrite Forall_forall in Fl |- *. intros x Ix. specialize (Fl x Ix).
        assert (x <> k) by (intros ->; auto). lia. }
    pose proof W as W0. apply (walk_nodes _ n (medge_node n M)) in W0. destruct W0 as (Ni & Nj & _).
    specialize (Up i j Ni Nj). pose proof (Lw i j Ni Nj) as B.
    assert (Ge : E i j <= sturn L k i j).
    { destruct (G l i j W F Fl) as [e|(e1 & e2 & e3 & e4 & e5)]; unfold sturn.
      - lia.
      - unfold asum. rewrite e1, e2. replace (E i k =? - oo) with false by lia. replace (E k j =? - oo) with false by lia.
        cbn [orb]. lia. }
    lia.
Qed.

Lemma sinv_end L : sinv E n L ->
  (forall i j, node n i -> node n j -> E i j <> - oo -> exists l, walk (medge n M) i l j (E i j)) ->
  forall i j, node n i -> node n j -> L i j = E i j.
Proof.
  intros I WL i j Ni Nj. destruct (Z.eq_dec (E i j) (- oo)) as [e|e].
  - destruct (Z.eq_dec (L i j) (- oo)) as [f|f]; [congruence|]. destruct (s_le _ _ _ I i j Ni Nj f). contradiction.
  - destruct (WL i j Ni Nj e) as (l & W). apply (s_best _ _ _ I i l j W e).
    apply (walk_nodes _ n (medge_node n M)) in W. destruct W as (_ & _ & W). eapply Forall_impl; [|exact W].
    intros a (_ & ?). auto.
Qed.
End Closure.

(** ** The loops of [global_propagation] *)

(** The sums of the turn [k] fit. *)
Definition sums (n : Z) (D : mat) (k : Z) : Prop :=
  forall a b, node n a -> node n b -> D a k <> - oo -> D k b <> - oo -> D a k + D k b < oo.

Lemma asum_zero x : - oo <= x -> asum 0 x = x /\ asum x 0 = x.
Proof.
  intros H. assert (O : 0 < oo) by reflexivity. unfold asum. replace (0 =? - oo) with false by lia.
  rewrite orb_false_r. cbn [orb]. destruct (x =? - oo) eqn:T; lia.
Qed.

Lemma gp_row_sat : forall p g k i,
  mem_ok g -> node (g_size g) k -> node (g_size g) i -> cell g k k = 0 ->
  low (g_size g) (cell g) -> sums (g_size g) (cell g) k ->
  exists g', g_gp_row p g k i = Ret g' /\ same_shape g g' /\
    (forall a b, node (g_size g) a -> node (g_size g) b ->
       cell g' a b = if a =? i then sturn (cell g) k a b else cell g a b).
Proof.
  intros p g k i M Nk Ni Dk B Sm. unfold g_gp_row.
  set (n := g_size g) in *. assert (n0 : 0 <= n) by (unfold node in *; lia).
  set (D := cell g) in *.
  assert (Ak : forall b, node n b -> sturn D k k b = D k b).
  { intros b Nb. unfold sturn. rewrite Dk. pose proof (B k b Nk Nb). rewrite (proj1 (asum_zero (D k b) ltac:(lia))). lia. }
  assert (Bk : forall a, node n a -> sturn D k a k = D a k).
  { intros a Na. unfold sturn. rewrite Dk. pose proof (B a k Na Nk). rewrite (proj2 (asum_zero (D a k) ltac:(lia))). lia. }
  edestruct (ofold_range graph (fun g j =>
           a <- g_lower p g i k ;; b <- g_lower p g k j ;; val <- tv_add a b ;;
           g_raise p g i j val)
      (fun j g1 => same_shape g g1 /\ forall a b, node n a -> node n b ->
         cell g1 a b = if (a =? i) && (b <? j) then sturn D k a b else D a b)
      0 n g n0) as (g1 & E1 & S1 & I1).
  { split; auto. intros a b Na Nb. unfold node in *.
    replace (b <? 0) with false by lia. rewrite andb_false_r. auto. }
  { intros j g1 Hj (S1 & I1).
    assert (M1 : mem_ok g1) by (eapply same_shape_mem; eauto).
    assert (Z1 : g_size g1 = n) by apply S1.
    assert (Nj : node n j) by (unfold node; lia).
    rewrite !g_lower_ok by (rewrite ?Z1; auto). cbn [bind].
    assert (R1 : cell g1 i k = D i k).
    { rewrite I1 by auto. rewrite Bk by auto. destruct (_ && _); auto. }
    assert (R2 : cell g1 k j = D k j).
    { rewrite I1 by auto. rewrite Ak by auto. destruct (_ && _); auto. }
    rewrite R1, R2, tv_add_asum by (try apply B; try apply Sm; auto). cbn [bind].
    destruct (g_raise_ok p g1 i j (asum (D i k) (D k j))) as (g2 & E2 & S2 & I2);
      rewrite ?Z1; auto.
    exists g2. split; auto. split; [eapply same_shape_trans; eauto|].
    intros a b Na Nb. rewrite I2 by (unfold node in *; lia). rewrite !I1 by auto.
    replace (j <? j) with false by lia. rewrite andb_false_r.
    destruct (a =? i) eqn:Ta; destruct (b =? j) eqn:Tb; cbn [andb];
      try replace (b <? j + 1) with (b <? j) by lia; auto.
    replace (b <? j + 1) with true by lia. unfold sturn.
    f_equal; [|f_equal]; f_equal; lia. }
  exists g1. split; auto. split; auto. intros a b Na Nb. rewrite I1 by auto.
  unfold node in *. replace (b <? n) with true by lia. rewrite andb_true_r. auto.
Qed.

Lemma gp_rows_sat : forall p g k,
  mem_ok g -> node (g_size g) k -> cell g k k = 0 ->
  low (g_size g) (cell g) -> sums (g_size g) (cell g) k ->
  (forall x, node (g_size g) x -> sturn (cell g) k x x <= 0) ->
  forall m a g1, a = g_size g - Z.of_nat m -> 0 <= a ->
  same_shape g g1 ->
  (forall x y, node (g_size g) x -> node (g_size g) y ->
     cell g1 x y = if x <? a then sturn (cell g) k x y else cell g x y) ->
  exists g', g_gp_rows p g1 k (zrange a (g_size g)) = Ret (g', true) /\ same_shape g g' /\
    (forall x y, node (g_size g) x -> node (g_size g) y -> cell g' x y = sturn (cell g) k x y).
Proof.
  intros p g k M Nk Dk B Sm Dg. set (n := g_size g) in *. set (D := cell g) in *.
  assert (Ak : forall b, node n b -> sturn D k k b = D k b).
  { intros b Nb. unfold sturn. rewrite Dk. pose proof (B k b Nk Nb). rewrite (proj1 (asum_zero (D k b) ltac:(lia))). lia. }
  assert (Bk : forall a, node n a -> sturn D k a k = D a k).
  { intros a Na. unfold sturn. rewrite Dk. pose proof (B a k Na Nk). rewrite (proj2 (asum_zero (D a k) ltac:(lia))). lia. }
  assert (Bs : low n (sturn D k)).
  { intros i j Ni Nj. unfold sturn, asum. pose proof (B i j Ni Nj). specialize (Sm i j Ni Nj). assert (O : 0 < oo) by reflexivity.
    destruct (D i k =? - oo) eqn:T1; [|destruct (D k j =? - oo) eqn:T2]; cbn [orb]; lia. }
  induction m as [|m IH]; intros a g1 Ha a0 S1 I1.
  - rewrite zrange_nil by lia. exists g1. split; auto. split; auto.
    intros x y Nx Ny. rewrite I1 by auto. unfold node in *. replace (x <? a) with true by lia. auto.
  - rewrite zrange_cons by lia. cbn [g_gp_rows].
    assert (Z1 : g_size g1 = n) by apply S1.
    assert (M1 : mem_ok g1) by (eapply same_shape_mem; eauto).
    assert (Na : node n a) by (unfold node; lia).
    assert (Rk : forall b, node n b -> cell g1 k b = D k b).
    { intros b Nb. rewrite I1 by auto. rewrite Ak by auto. destruct (k <? a); auto. }
    assert (Ck : forall b, node n b -> cell g1 b k = D b k).
    { intros b Nb. rewrite I1 by auto. rewrite Bk by auto. destruct (b <? a); auto. }
    assert (Ra : forall b, node n b -> cell g1 a b = D a b).
    { intros b Nb. rewrite I1 by auto. replace (a <? a) with false by lia. auto. }
    destruct (gp_row_sat p g1 k a) as (g2 & E2 & S2 & I2); rewrite ?Z1; auto.
    { rewrite Rk by auto. auto. }
    { intros x y Nx Ny. rewrite I1 by auto. destruct (x <? a); [apply Bs|apply B]; auto. }
    { intros x y Nx Ny. rewrite Ck, Rk by auto. apply Sm; auto. }
    rewrite Z1 in I2. rewrite E2. cbn [bind].
    assert (S12 : same_shape g g2) by (eapply same_shape_trans; eauto).
    assert (Z2 : g_size g2 = n) by apply S12.
    assert (M2 : mem_ok g2) by (eapply same_shape_mem; eauto).
    assert (I3 : forall x y, node n x -> node n y -> cell g2 x y = if x =? a then sturn D k x y else cell g1 x y).
    { intros x y Nx Ny. rewrite I2 by auto. destruct (x =? a) eqn:T; auto. assert (x = a) by lia. subst x.
      unfold sturn. rewrite !Ra, Rk by auto. auto. }
    rewrite g_lower_ok by (rewrite ?Z2; auto). cbn [bind].
    rewrite I3 by auto. rewrite Z.eqb_refl. unfold is_strictly_positive.
    specialize (Dg a Na). replace (0 <? sturn D k a a) with false by lia.
    destruct (IH (a + 1) g2) as (g' & E' & R'); auto; try lia.
    { intros x y Nx Ny. rewrite I3 by auto. rewrite I1 by auto.
      destruct (x =? a) eqn:T2.
      - replace (x <? a + 1) with true by lia. auto.
      - replace (x <? a + 1) with (x <? a) by lia. auto. }
    exists g'. auto.
Qed.

Lemma sinv_ext n M E k L L' : sinv n M E k L -> (forall i j, node n i -> node n j -> L' i j = L i j) -> sinv n M E k L'.
Proof.
  intros [A B C D] H. split.
  - intros i Ni. rewrite H; auto.
  - intros i j Ni Nj. rewrite H; auto.
  - intros i j Ni Nj. rewrite H; auto.
  - intros i l j W F Fl. pose proof W as W0. apply (walk_nodes _ n (medge_node n M)) in W0. destruct W0 as (Ni & Nj & _).
    rewrite H; auto. apply (D i l j); auto.
Qed.

Lemma gp_turns_sat : forall p g E, mem_ok g -> closed (g_size g) E -> low (g_size g) E ->
  (forall i l j w, walk (medge (g_size g) (cell g)) i l j w -> ent E i j w) ->
  forall m k g1, k = g_size g - Z.of_nat m -> 0 <= k -> same_shape g g1 ->
  sinv (g_size g) (cell g) E k (cell g1) ->
  exists g', g_gp_turns p g1 (zrange k (g_size g)) = Ret (g', Propagated) /\ same_shape g g' /\
    sinv (g_size g) (cell g) E (g_size g) (cell g').
Proof.
  intros p g E Mg Cl Lw LW. set (n := g_size g) in *. set (M := cell g) in *.
  induction m as [|m IH]; intros k g1 Hk k0 S1 I1.
  - rewrite zrange_nil by lia. exists g1. split; auto. split; auto. replace n with k at 2 by lia. auto.
  - rewrite zrange_cons by lia. cbn [g_gp_turns].
    assert (Sz : g_size g1 = n) by apply S1.
    assert (M1 : mem_ok g1) by (eapply same_shape_mem; eauto).
    assert (Nk : node n k) by (unfold node; lia). rewrite Sz.
    pose proof (sinv_sum n M E Cl Lw LW k (cell g1) I1) as Sm.
    pose proof (sinv_step n M E Cl Lw LW k (cell g1) Nk I1) as I2.
    assert (O : 0 < oo) by reflexivity.
    destruct (gp_rows_sat p g1 k) with (m := Z.to_nat n) (a := 0) (g1 := g1) as (g2 & E2 & S2 & C2); rewrite ?Sz; auto; try lia.
    { apply (s_diag _ _ _ _ _ I1); auto. }
    { intros i j Ni Nj. pose proof (s_low _ _ _ _ _ I1 i j Ni Nj). pose proof (s_le _ _ _ _ _ I1 i j Ni Nj) as Q.
      pose proof (Lw i j Ni Nj). destruct (Z.eq_dec (cell g1 i j) (- oo)); lia. }
    { intros i j Ni Nj F1 F2. specialize (Sm i k j Ni Nk Nj F1 F2). lia. }
    { intros x Nx. rewrite (s_diag _ _ _ _ _ I2 x Nx). lia. }
    { intros x y Nx Ny. unfold node in *. replace (x <? 0) with false by lia. auto. }
    rewrite Sz in *. rewrite E2. cbn [bind]. apply IH; auto; try lia.
    + eapply same_shape_trans; eauto.
    + eapply sinv_ext; eauto.
Qed.

(** When there is a solution and the exact bounds are time values, [global_propagation] gives
    them. *)
Theorem global_sat : forall p g t0, mem_ok g -> (forall i, node (g_size g) i -> 0 <= cell g i i) ->
  (forall i j, node (g_size g) i -> node (g_size g) j -> - oo <= cell g i j) ->
  msat (g_size g) (cell g) t0 ->
  (forall i j, node (g_size g) i -> node (g_size g) j -> exists lo, - oo <= lo < oo /\
     forall v, (lo = - oo \/ lo <= v) <-> exists t, msat (g_size g) (cell g) t /\ t j - t i <= v) ->
  exists g', g_global p g = Ret (g', Propagated) /\ same_shape g g' /\
    closed (g_size g) (cell g') /\ low (g_size g) (cell g') /\
    forall t, msat (g_size g) (cell g') t <-> msat (g_size g) (cell g) t.
Proof.
  intros p g t0 Mg Dg V S0 Rp. set (n := g_size g) in *. set (M := cell g) in *.
  assert (n0 : 0 <= n) by apply Mg. assert (O : 0 < oo) by reflexivity.
  assert (Z0 : zero_diag n M).
  { intros i Ni. specialize (Dg i Ni). assert (M i i <= t0 i - t0 i); [|lia]. apply S0; auto. split; lia. }
  destruct (exact_closure n M t0 n0 Z0 S0 Rp) as (E & Cl & Lw & Ms & LW & WL).
  destruct (gp_turns_sat p g E Mg Cl Lw LW (Z.to_nat n) 0 g) as (g' & Eq & Sh & I); auto; try lia.
  { apply sinv_start; auto. }
  pose proof (sinv_end n M E (cell g') I WL) as C. fold n in Eq. exists g'. split; [exact Eq|]. split; auto.
  assert (H : forall i j c, node n i -> node n j -> (ent (cell g') i j c <-> ent E i j c)).
  { intros i j c Ni Nj. unfold ent. rewrite C by auto. tauto. }
  split; [split|split].
  - intros i Ni. rewrite C by auto. apply Cl; auto.
  - intros i k j a b Ni Nk Nj X Y. apply H; auto. apply (proj2 Cl i k j); auto; apply H; auto.
  - intros i j Ni Nj. rewrite C by auto. apply Lw; auto.
  - intros t. rewrite <- Ms. split; intros S i j w Ni Nj X; apply (S i j w); auto; apply H; auto.
Qed.
