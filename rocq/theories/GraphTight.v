(** The public operations on propagated graphs with bounded constraints.  Proof helpers. *)
From Verif Require Import Machine TimeValue Interval Spec SpecSets Tac TimeValueProofs Graph
  MaxPlus FwBound GraphProofs GraphOps GraphGrow GraphSafe GraphMem GraphHist.

(** ** Closed matrices are determined by their solutions *)

Lemma closed_sem : forall n D i j c, closed n D -> node n i -> node n j ->
  (forall t, msat n D t -> c <= t j - t i) -> ent D i j c.
Proof.
  intros n D i j c C Ni Nj H. pose proof C as (Z0 & T).
  destruct (Z.eq_dec (D i j) (- oo)) as [e|e].
  - exfalso. set (v := if D j i =? - oo then c - 1 else Z.min (c - 1) (- D j i)).
    destruct (closed_minimal n D i j v C Ni Nj) as (t & S & E).
    + intros w (X & _). congruence.
    + intros w (X & L). unfold v. destruct (D j i =? - oo) eqn:Q; lia.
    + specialize (H t S). unfold v in E. destruct (D j i =? - oo); lia.
  - split; auto. destruct (closed_minimal n D i j (D i j) C Ni Nj) as (t & S & E).
    + intros w (_ & L). auto.
    + intros w X. assert (Y : ent D i j (D i j)) by (split; auto; lia).
      pose proof (T i j i _ _ Ni Nj Ni Y X) as W. apply (ent_diag n) in W; auto. lia.
    + specialize (H t S). lia.
Qed.

Lemma closed_unique : forall n D D', closed n D -> closed n D' ->
  (forall t, msat n D t <-> msat n D' t) ->
  forall i j c, node n i -> node n j -> (ent D i j c <-> ent D' i j c).
Proof.
  intros n D D' C C' H i j c Ni Nj. split; intros X; apply (closed_sem n); auto; intros t S.
  - apply H in S. apply (S i j c Ni Nj X).
  - apply H in S. apply (S i j c Ni Nj X).
Qed.

Lemma closed_implied : forall n D k, closed n D -> node n (k_from k) -> node n (k_to k) ->
  (forall t, msat n D t -> ksat k t) -> implied_by D k.
Proof.
  intros n D k C Nf Nt H. unfold implied_by. split.
  - destruct (Z.eq_dec (k_lo k) (- oo)); [auto|right]. apply (closed_sem n); auto.
    intros t S. destruct (H t S) as ([X|X] & _); simpl in X; auto. contradiction.
  - destruct (Z.eq_dec (k_up k) oo); [auto|right]. apply (closed_sem n); auto.
    intros t S. destruct (H t S) as (_ & [X|X]); simpl in X; [contradiction|lia].
Qed.

(** ** Bounded edges *)

Definition ebnd (B : Z) (E : Z -> Z -> Z -> Prop) : Prop := forall i j w, E i j w -> - B <= w <= B.

Lemma tight_all_bnd : forall n E D B, tight n E D -> 0 <= B -> ebnd B E ->
  all_bnd n ((n - 1) * B) D.
Proof.
  intros n E D B T B0 HB i j Ni Nj. destruct (Z.eq_dec (D i j) (- oo)) as [e|e]; [left; auto|].
  right. apply (tight_bound n E D B T B0 HB); auto.
Qed.

Lemma kedge_bnd : forall B k, kbnd B k -> ebnd B (kedge k).
Proof.
  intros B k (H1 & H2) i j w [(_ & _ & -> & X)|(_ & _ & -> & X)]; unfold bnd in *; lia.
Qed.
Lemma kunion_bnd : forall B E k, ebnd B E -> kbnd B k -> ebnd B (kunion E k).
Proof. intros B E k HE HK i j w [X|X]; [apply (HE _ _ _ X)|apply (kedge_bnd B k HK _ _ _ X)]. Qed.
Lemma kedges_bnd : forall B ks, Forall (kbnd B) ks -> ebnd B (kedges ks).
Proof.
  intros B ks F i j w (k & I & X). rewrite Forall_forall in F. apply (kedge_bnd B k (F k I) _ _ _ X).
Qed.

(** ** [propagate] *)

Lemma propagate_tight : forall p g k E B,
  mem_ok g -> tight (g_size g) E (cell g) -> 0 <= B -> ebnd B E -> kbnd B k ->
  4 * g_size g * B < oo -> k_empty k = false -> wf_iv (mkI (k_lo k) (k_up k)) ->
  node (g_size g) (k_from k) -> node (g_size g) (k_to k) ->
  exists g' r, g_propagate p g k = Ret (g', r) /\
    ((r = Unchanged /\ g' = g /\ implied_by (cell g) k) \/
     (r = Recovered /\ g' = g /\ contradicts (cell g) k) \/
     (r = Propagated /\ same_shape g g' /\ ~ implied_by (cell g) k)) /\
    (r <> Recovered ->
     tight (g_size g) (kunion E k) (cell g') /\
     (forall t, msat (g_size g) (cell g') t <-> msat (g_size g) (cell g) t /\ ksat k t)).
Proof.
  intros p g k E B M T B0 HE HK L Ek W Nf Nt. set (n := g_size g) in *.
  assert (n1 : 1 <= n) by (unfold node in Nf; lia).
  pose proof (tight_all_bnd n E (cell g) B T B0 HE) as BD. pose proof T as ((Z0 & _) & _).
  destruct (propagate_gen p g k (n * B) (n * B)) as (g' & r & E' & H); auto.
  - nia. - lia.
  - intros i j Ni Nj. apply bnd_mono with (C := (n - 1) * B); [nia|auto].
  - destruct HK. split; apply bnd_mono with (C := B); auto; nia.
  - intros F Cons D' EP. fold n in EP |- *.
    pose proof (edge_tight _ _ _ _ _ _ _ _ EP Nf Nt F Cons T) as TA.
    intros i j Ni Nj. apply bnd_mono with (C := (n - 1) * B); [nia|].
    eapply tight_all_bnd; eauto. intros a b w [X|(-> & -> & ->)].
    + apply (HE _ _ _ X).
    + destruct HK as (X & _). unfold bnd in X. lia.
  - exists g', r. split; auto. destruct H as [(-> & -> & I)|[(-> & -> & I)|(-> & S & I & _ & [PM PT] & _)]].
    + split; auto. intros _. pose proof (implied_propagated n (cell g) k Nf Nt I) as [PM PT]. split; auto.
    + split; auto. congruence.
    + split; auto.
Qed.

(** ** [extend] *)

Lemma overlay_bnd : forall n D (K : Z -> Z -> Z -> Prop) M C, overlay n D K M -> 0 <= C ->
  (forall i j, node n i -> node n j -> bnd C (D i j)) -> ebnd C K ->
  (forall i j, node n i -> node n j -> valid (M i j)) -> all_bnd n C M.
Proof.
  intros n D K M C O C0 HD HK V i j Ni Nj.
  destruct (Z.eq_dec (M i j) (- oo)) as [e|e]; [left; auto|]. right.
  assert (X : ent M i j (M i j)) by (split; auto; lia). pose proof X as X0.
  apply O in X0; auto. destruct X0 as [(Y & L)|(w & Y & L)].
  - specialize (HD i j Ni Nj). unfold bnd in HD.
    assert (Z1 : ent M i j (D i j)) by (apply O; auto; left; split; auto; lia).
    destruct Z1. lia.
  - specialize (HK _ _ _ Y). assert (Z1 : ent M i j w) by (apply O; auto; right; exists w; split; auto; lia).
    destruct Z1. lia.
Qed.

Definition eunion (E : Z -> Z -> Z -> Prop) (ks : list kons) (i j w : Z) : Prop :=
  E i j w \/ kedges ks i j w.

Lemma extend_tight : forall p g ks hint E B,
  mem_ok g -> clean g -> tight (g_size g) E (cell g) -> 0 <= B -> ebnd B E ->
  Forall kvalid ks -> Forall (kbnd B) ks ->
  4 * (ksize (g_size g) ks + 1) * B < oo ->
  hint <> Some 0 -> hint <> Some 1 ->
  exists g' r, g_extend p g hint ks = Ret (g', r) /\
    ((r = Propagated /\ g_size g' = ksize (g_size g) ks /\ mem_ok g' /\ clean g' /\
      tight (g_size g') (eunion E ks) (cell g') /\
      forall t, msat (g_size g') (cell g') t <->
        msat (g_size g) (cell g) t /\ Forall (fun k => ksat k t) ks) \/
     (r = Fatal /\ g_size g' = 0 /\
      forall t, ~ (msat (g_size g) (cell g) t /\ Forall (fun k => ksat k t) ks))).
Proof.
  intros p g ks hint E B M Cl T B0 HE Kv Kb L H0 H1.
  assert (S0 : 0 <= g_size g <= 65535) by apply M.
  assert (V : vcells (g_size g) (cell g)).
  { intros i j Ni Nj. pose proof (tight_all_bnd _ _ _ _ T B0 HE i j Ni Nj) as X.
    pose proof (proj1 (ksize_ge ks (g_size g))).
    assert ((g_size g - 1) * B < oo) by nia.
    unfold bnd in X. unfold valid. nia. }
  destruct (inserted_ok p ks g M Cl V Kv) as (g1 & E1 & M1 & C1 & S1 & V1 & O1 & MS).
  assert (Eg : g_extend p g hint ks = g_global p g1).
  { unfold g_extend. destruct hint as [[|[h|h|]|h]|]; try congruence; rewrite E1; auto. }
  rewrite Eg. set (m := g_size g1) in *. rewrite <- S1 in L.
  assert (Lm : g_size g <= m) by (rewrite S1; apply ksize_ge).
  set (X := extm (g_size g) (cell g)) in *.
  assert (TX : tight m E X).
  { eapply extends_tight; eauto. apply extm_extends. }
  assert (KN : forall i j w, kedges ks i j w -> node m i /\ node m j).
  { apply (kedges_nodes ks (g_size g)); auto. lia. }
  pose proof (kedges_bnd B ks Kb) as KB.
  destruct (global_gen p g1 ((m + 1) * B)) as (g' & r & Eq & PL & Post); auto.
  - nia. - lia.
  - fold m. apply (overlay_bnd m X (kedges ks)); auto; [nia| |].
    + intros i j Ni Nj. apply bnd_mono with (C := (m - 1) * B); [nia|].
      apply (tight_all_bnd m E); auto.
    + intros i j w Y. specialize (KB _ _ _ Y). destruct (KN _ _ _ Y). unfold node in *. nia.
  - fold m. intros k L' I Z0 i j Ni Nj.
    destruct (Z.eq_dec (L' i j) (- oo)) as [e|e]; [left; auto|]. right.
    apply (fw_overlay_bound m E X (kedges ks) (cell g1) TX KN O1 k L' I Z0 B B0 HE KB); auto.
  - fold m. intros i Ni. assert (Y : ent (cell g1) i i 0).
    { apply O1; auto. left. destruct TX as ((Z0 & _) & _). apply (ent_diag m); auto. lia. }
    destruct Y. auto.
  - exists g', r. split; auto. fold m in Post.
    destruct Post as [(-> & S & I & Z0)|(-> & S & N)]; [left|right].
    + split; auto. assert (Sz : g_size g' = m) by apply S. rewrite Sz.
      split; [auto|]. split; [eapply same_shape_mem; eauto|].
      split; [apply (clean_shape g1); auto|].
      destruct (overlay_semi m E X (kedges ks) (cell g1) TX O1 KN) as (Y1 & Y2).
      assert (TT : tight m (eunion E ks) (cell g')).
      { apply (fw_tight m (cell g1)); auto. }
      split; auto. intros t. rewrite (tight_msat _ _ _ t TT).
      rewrite <- (kedges_sat ks t), (tight_msat _ _ _ t T).
      unfold eunion. split.
      * intros H. split; intros i j w Y; apply H; auto.
      * intros (Ha & Hb) i j w [Y|Y]; auto.
    + split; auto. split; auto. intros t H. apply (N t). apply MS. auto.
Qed.

(** ** [merge] *)

Lemma zip_max_spec : forall a b k,
  nth_error (fst (zip_max a b)) k =
  match nth_error a k with
  | None => None
  | Some x => Some (match nth_error b k with None => x | Some y => Z.max x y end)
  end.
Proof.
  induction a as [|x a IH]; intros [|y b] k; simpl.
  - destruct k; auto.
  - destruct k; auto.
  - destruct k; simpl; auto. destruct (nth_error a k); auto.
  - specialize (IH b). destruct (zip_max a b) as (m & c). simpl in IH.
    destruct (x <? y) eqn:T; destruct k; simpl; auto; f_equal; lia.
Qed.
Lemma zip_max_unchanged : forall a b, snd (zip_max a b) = false -> fst (zip_max a b) = a.
Proof.
  induction a as [|x a IH]; intros [|y b] H; simpl in *; auto.
  specialize (IH b). destruct (zip_max a b) as (m & c). simpl in IH.
  destruct (x <? y) eqn:T; simpl in *; [discriminate|]. f_equal. auto.
Qed.
Lemma zip_max_changed : forall a b, snd (zip_max a b) = true -> fst (zip_max a b) <> a.
Proof.
  induction a as [|x a IH]; intros [|y b] H; simpl in *; try discriminate.
  specialize (IH b). destruct (zip_max a b) as (m & c). simpl in IH.
  destruct (x <? y) eqn:T; simpl in *.
  - intros [= e1 e2]. lia.
  - intros [= e1]. apply IH; auto.
Qed.

Lemma merge_cells : forall a b i j, mem_ok a -> mem_ok b -> clean b ->
  g_size b <= g_size a -> node (g_size a) i -> node (g_size a) j ->
  let M := cell (mkG (g_size a) (fst (zip_max (g_data a) (g_data b)))) in
  (node (g_size b) i /\ node (g_size b) j -> M i j = Z.max (cell a i j) (cell b i j)) /\
  (~ (node (g_size b) i /\ node (g_size b) j) ->
   valid (cell a i j) -> (i = j -> 0 <= cell a i j) -> M i j = cell a i j).
Proof.
  intros a b i j Ma Mb Cb L Ni Nj M.
  pose proof (cell_nth a i j Ma Ni Nj) as Ca.
  pose proof (zip_max_spec (g_data a) (g_data b) (Z.to_nat (cidx i j))) as Z.
  rewrite Ca in Z. split.
  - intros (Ni' & Nj'). rewrite (cell_nth b i j Mb Ni' Nj') in Z.
    unfold M, cell. simpl. apply (nth_nth_error _ _ _ _ Z).
  - intros N Va Dg.
    assert (Lm : g_size b <= Z.max i j) by (unfold node in *; lia).
    destruct (Cb i j) as (C1 & C2); auto; try apply Ni; try apply Nj.
    unfold M, cell at 1. simpl. rewrite (nth_nth_error _ _ _ _ Z).
    destruct (nth_error (g_data b) (Z.to_nat (cidx i j))) eqn:Q; auto.
    apply (nth_nth_error _ _ (- oo)) in Q. fold (cell b i j) in Q. rewrite <- Q.
    unfold valid in Va. destruct (Z.eq_dec i j) as [e|e].
    + specialize (Dg e). lia.
    + rewrite (C1 e). lia.
Qed.

(** Merging two propagated graphs *)
Definition munion (E F : Z -> Z -> Z -> Prop) (i j w : Z) : Prop := E i j w \/ F i j w.

(** The matrix from which [merge] starts *)
Lemma merge_base : forall a b E F B, mem_ok a -> clean a -> tight (g_size a) E (cell a) ->
  mem_ok b -> clean b -> tight (g_size b) F (cell b) -> 0 <= B -> ebnd B E -> ebnd B F ->
  g_size b <= g_size a -> g_size a * B < oo ->
  let n := g_size a in let a1 := mkG n (fst (zip_max (g_data a) (g_data b))) in
  overlay n (cell a) (medge (g_size b) (cell b)) (cell a1) /\
  (forall t, msat n (cell a1) t <-> msat n (cell a) t /\ msat (g_size b) (cell b) t) /\
  mem_ok a1 /\ clean a1 /\ vcells n (cell a1) /\
  (forall i j w, munion E F i j w -> node n i /\ node n j /\ ent (cell a1) i j w) /\
  (forall i j c, node n i -> node n j -> ent (cell a1) i j c ->
      exists l w, walk (withdiag n (munion E F)) i l j w /\ c <= w).
Proof.
  intros a b E F B Ma Ca Ta Mb Cb Tb B0 HE HF Lab L n a1.
  subst n. set (n := g_size a) in *. assert (n0 : 0 <= n <= 65535) by apply Ma.
  pose proof Ta as ((Za & TRa) & _). pose proof Tb as ((Zb & TRb) & _).
  pose proof (tight_all_bnd _ _ _ _ Ta B0 HE) as Ba.
  pose proof (tight_all_bnd _ _ _ _ Tb B0 HF) as Bb.
  pose proof (fun i j => merge_cells a b i j Ma Mb Cb Lab) as MC.
  pose proof (zip_max_length (g_data a) (g_data b)) as LZ.
  pose proof (zip_max_unchanged (g_data a) (g_data b)) as ZU.
  pose proof (zip_max_spec (g_data a) (g_data b)) as ZS.
  destruct (zip_max (g_data a) (g_data b)) as (d & c). cbn [fst snd] in *.
  cbv zeta in MC. fold n in MC. subst a1. set (a1 := mkG n d) in *.
  assert (bn : 0 <= g_size b) by apply Mb.
  assert (nB : 0 < n -> (n - 1) * B <= n * B /\ n * B < oo) by nia.
  assert (Va : forall i j, node n i -> node n j -> valid (cell a i j)).
  { intros i j Ni Nj. specialize (Ba i j Ni Nj). unfold bnd in Ba. unfold valid.
    assert (0 < n) by (unfold node in Ni; lia). nia. }
  assert (Vb : forall i j, node (g_size b) i -> node (g_size b) j -> valid (cell b i j)).
  { intros i j Ni Nj. specialize (Bb i j Ni Nj). unfold bnd in Bb. unfold valid.
    assert (0 < g_size b) by (unfold node in Ni; lia).
    assert ((g_size b - 1) * B <= (n - 1) * B) by nia. nia. }
  assert (OV : overlay n (cell a) (medge (g_size b) (cell b)) (cell a1)).
  { intros i j w Ni Nj. destruct (MC i j Ni Nj) as (MC1 & MC2).
    specialize (Va i j Ni Nj). unfold valid in *.
    destruct (Z_lt_le_dec i (g_size b)) as [li|li]; [destruct (Z_lt_le_dec j (g_size b)) as [lj|lj]|].
    - assert (Nb : node (g_size b) i /\ node (g_size b) j) by (unfold node in *; lia).
      specialize (MC1 Nb). destruct Nb as (Nbi & Nbj). specialize (Vb i j Nbi Nbj).
      unfold ent, medge. rewrite MC1. split.
      + intros (X & Lw). destruct (Z_le_gt_dec w (cell a i j)).
        * destruct (Z.eq_dec (cell a i j) (- oo)); [right|left; lia].
          exists (cell b i j). split; [split; [auto|split; [auto|split; [lia|auto]]]|lia].
        * right. exists (cell b i j). split; [split; [auto|split; [auto|split; [lia|auto]]]|lia].
      + intros [X|(v & (_ & _ & X & ->) & Y)]; lia.
    - assert (Nb : ~ (node (g_size b) i /\ node (g_size b) j)) by (unfold node; lia).
      unfold ent, medge.
      rewrite MC2; auto; [|intros ->; rewrite Za; auto; lia].
      split; [auto|]. intros [X|(v & (Y & Y' & _) & _)]; [auto|tauto].
    - assert (Nb : ~ (node (g_size b) i /\ node (g_size b) j)) by (unfold node; lia).
      unfold ent, medge.
      rewrite MC2; auto; [|intros ->; rewrite Za; auto; lia].
      split; [auto|]. intros [X|(v & (Y & Y' & _) & _)]; [auto|tauto]. }
  assert (KN : forall i j w, medge (g_size b) (cell b) i j w -> node n i /\ node n j).
  { intros i j w (X & Y & _). unfold node in *. lia. }
  assert (MS : forall t, msat n (cell a1) t <-> msat n (cell a) t /\ msat (g_size b) (cell b) t).
  { intros t. rewrite (overlay_msat n _ _ _ t OV KN). split; intros (S1 & S2); split; auto.
    - intros i j w Ni Nj (X & Y).
      assert (cell b i j <= t j - t i); [|lia]. apply S2. unfold medge. auto.
    - intros i j w (Ni & Nj & X & ->). apply S2; auto. split; auto. lia. }
  assert (M1 : mem_ok a1). { destruct Ma. split; auto. simpl. rewrite LZ. auto. }
  assert (Y1 : forall i j w, munion E F i j w -> node n i /\ node n j /\ ent (cell a1) i j w).
  { destruct Ta as (_ & Ha & _). destruct Tb as (_ & Hb & _). intros i j w [X|X].
    - destruct (Ha _ _ _ X) as (Ni & Nj & e). split; auto. split; auto. apply OV; auto.
    - destruct (Hb _ _ _ X) as (Ni & Nj & (e & Le)).
      assert (Nn : node n i /\ node n j) by (unfold node in *; lia). destruct Nn.
      split; auto. split; auto. apply OV; auto. right. exists (cell b i j).
      unfold medge. auto. }
  assert (Y2 : forall i j c, node n i -> node n j -> ent (cell a1) i j c ->
    exists l w, walk (withdiag n (munion E F)) i l j w /\ c <= w).
  { destruct Ta as (_ & _ & Ha). destruct Tb as (_ & _ & Hb). intros i j w Ni Nj X.
    apply OV in X; auto. destruct X as [X|(v & (Nbi & Nbj & X & ->) & Y)].
    - destruct (Ha _ _ _ Ni Nj X) as (l & u & W & Lu). exists l, u. split; auto.
      eapply walk_mono; [|exact W]. apply withdiag_mono. intros; left; auto.
    - destruct (Hb i j (cell b i j) Nbi Nbj) as (l & u & W & Lu); [split; auto; lia|].
      exists l, u. split; [|lia]. eapply walk_mono; [|exact W].
      intros x y z [Q|(Q1 & Q2 & Q3)]; [left; right; auto|right].
      unfold node in *. split; [lia|auto]. }
  assert (C1 : clean a1).
  { intros x y Hx Hy Hm. change (g_size a1) with n in Hm.
    destruct (Ca x y Hx Hy Hm) as (A1 & A2). destruct (Cb x y Hx Hy ltac:(lia)) as (A3 & A4).
    assert (e : cell a1 x y = - oo \/ cell a1 x y = cell a x y \/
                cell a1 x y = Z.max (cell a x y) (cell b x y)).
    { unfold cell. cbn [g_data a1]. unfold a1. cbn [g_data].
      specialize (ZS (Z.to_nat (cidx x y))).
      destruct (nth_error (g_data a) (Z.to_nat (cidx x y))) eqn:Qa.
      - rewrite (nth_nth_error _ _ _ _ ZS), (nth_nth_error _ _ _ _ Qa).
        destruct (nth_error (g_data b) (Z.to_nat (cidx x y))) eqn:Qb; auto.
        rewrite (nth_nth_error _ _ _ _ Qb). auto.
      - left. apply nth_error_None in ZS. rewrite nth_overflow; auto. }
    split.
    - intros Hxy. specialize (A1 Hxy). specialize (A3 Hxy). lia.
    - unfold oo in *. lia. }
  assert (V1 : forall i j, node n i -> node n j -> valid (cell a1 i j)).
  { intros i j Ni Nj. destruct (MC i j Ni Nj) as (MC1 & MC2). specialize (Va i j Ni Nj).
    destruct (Z_lt_le_dec i (g_size b)) as [li|li]; [destruct (Z_lt_le_dec j (g_size b)) as [lj|lj]|].
    - assert (Nb : node (g_size b) i /\ node (g_size b) j) by (unfold node in *; lia).
      rewrite MC1 by auto. destruct Nb as (Nbi & Nbj). specialize (Vb i j Nbi Nbj).
      unfold valid in *. lia.
    - assert (Nb : ~ (node (g_size b) i /\ node (g_size b) j)) by (unfold node; lia).
      rewrite MC2; auto. intros ->. rewrite Za; auto. lia.
    - assert (Nb : ~ (node (g_size b) i /\ node (g_size b) j)) by (unfold node; lia).
      rewrite MC2; auto. intros ->. rewrite Za; auto. lia. }
  split; [exact OV|]. split; [exact MS|]. split; [exact M1|]. split; [exact C1|]. split; [exact V1|]. auto.
Qed.
