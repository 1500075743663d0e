(** The invariant of the histories.  Proof helpers. *)
From Verif Require Import Machine TimeValue Interval Spec SpecSets Tac TimeValueProofs Graph
  MaxPlus FwBound GraphProofs GraphOps GraphGrow GraphSafe GraphMem GraphHist GraphTight SpecGraph
  GraphSound GraphMono.

Lemma mul32_small : forall p a b, 0 <= a <= 65535 -> 0 <= b <= 65537 -> mul32 p a b = Ret (a * b).
Proof. intros p a b A B. mach. assert (0 <= a * b <= 4294967295) by nia. replace (_ && _) with true by lia. auto. Qed.

Lemma timespan_ok : forall p g i j, mem_ok g -> node (g_size g) i -> node (g_size g) j ->
  g_timespan p g i j = Ret (mkI (cell g i j) (- cell g j i)).
Proof.
  intros p g i j M Ni Nj. pose proof (cell_nth g i j M Ni Nj) as C1.
  pose proof (cell_nth g j i M Nj Ni) as C2.
  pose proof (cidx_bound _ _ _ Ni Nj) as B1. pose proof (cidx_bound _ _ _ Nj Ni) as B2.
  destruct M as (S & _). pose proof (sq_u32 (g_size g) S) as SQ.
  unfold g_timespan, cidx in *. unfold node in *. destruct (j <=? i) eqn:T.
  - replace (g_size g <=? i) with false by lia.
    rewrite mul32_small by lia. cbn [bind]. unfold add32 at 1, chk32.
    replace ((0 <=? i * i + j) && _) with true by (unfold u32_max; lia). cbn [bind].
    unfold vget. rewrite C1. cbn [bind].
    unfold add32, chk32. replace ((0 <=? i + 2) && _) with true by (unfold u32_max; lia). cbn [bind].
    rewrite mul32_small by lia. cbn [bind].
    assert (Q : i * (i + 2) - j = if i <=? j then j * j + i else i * (i + 2) - j).
    { destruct (i <=? j) eqn:T2; auto. assert (i = j) by lia. subst. lia. }
    assert (K : nth_error (g_data g) (Z.to_nat (i * (i + 2) - j)) = Some (cell g j i)).
    { rewrite Q. auto. }
    unfold sub32, chk32. replace ((0 <=? i * (i + 2) - j) && _) with true.
    + cbn [bind]. rewrite K. reflexivity.
    + symmetry. rewrite Q. unfold u32_max. destruct (i <=? j); lia.
  - replace (g_size g <=? j) with false by lia. replace (i <=? j) with true in * by lia.
    unfold add32 at 1, chk32. replace ((0 <=? j + 2) && _) with true by (unfold u32_max; lia). cbn [bind].
    rewrite mul32_small by lia. cbn [bind].
    unfold sub32, chk32. replace ((0 <=? j * (j + 2) - i) && _) with true by (unfold u32_max; lia). cbn [bind].
    unfold vget. rewrite C1. cbn [bind]. rewrite mul32_small by lia. cbn [bind].
    unfold add32, chk32. replace ((0 <=? j * j + i) && _) with true by (unfold u32_max; lia). cbn [bind].
    rewrite C2. reflexivity.
Qed.

Lemma sol_msat : forall p g t, mem_ok g -> (solution p g t <-> msat (g_size g) (cell g) t).
Proof.
  intros p g t M. split.
  - intros S i j w Ni Nj (X & L). destruct (S i j Ni Nj) as (iv & E & I & _).
    rewrite timespan_ok in E by auto. injection E as <-. simpl in I. lia.
  - intros S i j Ni Nj. eexists. split; [apply timespan_ok; auto|]. split; simpl.
    + destruct (Z.eq_dec (cell g i j) (- oo)); [auto|right]. apply S; auto. split; auto. lia.
    + destruct (Z.eq_dec (cell g j i) (- oo)) as [->|e]; [auto|right].
      assert (cell g j i <= t i - t j); [|lia]. apply S; auto. split; auto. lia.
Qed.

Lemma same_bounds_cells : forall p g g', mem_ok g -> mem_ok g' -> g_size g = g_size g' ->
  (forall i j, node (g_size g) i -> node (g_size g) j -> cell g i j = cell g' i j) ->
  same_bounds p g g'.
Proof.
  intros p g g' M M' S H. split; auto. intros i j Ni Nj.
  rewrite (timespan_ok p g) by auto. rewrite (timespan_ok p g') by (auto; rewrite <- S; auto).
  rewrite !H by auto. reflexivity.
Qed.

Lemma closed_min : forall p g, mem_ok g -> vcells (g_size g) (cell g) ->
  closed (g_size g) (cell g) -> minimal p g.
Proof.
  intros p g M V C i j Ni Nj. eexists. split; [apply timespan_ok; auto|].
  intros v (L & U). simpl in *.
  destruct (closed_minimal (g_size g) (cell g) i j v C Ni Nj) as (t & S & E).
  - intros w (X & Y). lia.
  - intros w (X & Y). lia.
  - exists t. split; auto. apply sol_msat; auto.
Qed.

(** Minimality with the zero diagonal is closure. *)
Lemma min_closed : forall p g, mem_ok g -> minimal p g ->
  (exists t, solution p g t) -> zero_diag (g_size g) (cell g) -> vcells (g_size g) (cell g) ->
  below_oo (g_size g) (cell g) -> closed (g_size g) (cell g).
Proof.
  intros p g M Mn _ Z0 V F. split; auto. intros i k j a b Ni Nk Nj A B.
  destruct (Mn i j Ni Nj) as (iv & E & H). rewrite timespan_ok in E by auto. injection E as <-.
  assert (G : forall v, In_ext v (mkI (cell g i j) (- cell g j i)) -> a + b <= v).
  { intros v I. destruct (H v I) as (t & S & <-). apply sol_msat in S; auto.
    specialize (S i k a Ni Nk A) as S1. specialize (S k j b Nk Nj B) as S2. lia. }
  pose proof (V i j Ni Nj) as Vij. pose proof (V j i Nj Ni) as Vji. unfold valid in *.
  pose proof (F i j Ni Nj) as Fij. pose proof (F j i Nj Ni) as Fji.
  (* the reported interval is not empty *)
  assert (NE : cell g i j = - oo \/ cell g j i = - oo \/ cell g i j <= - cell g j i).
  { destruct (Z.eq_dec i j) as [<-|Nij].
    - rewrite (Z0 i Ni). lia.
    - destruct (Mn i i Ni Ni) as (iv & E & HH). rewrite timespan_ok in E by auto. injection E as <-.
      destruct (HH 0) as (t & S & _).
      { rewrite (Z0 i Ni). split; simpl; lia. }
      apply sol_msat in S; auto.
      destruct (Z.eq_dec (cell g i j) (- oo)); auto. destruct (Z.eq_dec (cell g j i) (- oo)); auto.
      right. right. specialize (S i j (cell g i j) Ni Nj ltac:(split; auto; lia)) as S1.
      specialize (S j i (cell g j i) Nj Ni ltac:(split; auto; lia)) as S2. lia. }
  destruct (Z.eq_dec (cell g i j) (- oo)) as [e|e].
  - exfalso. set (v := if cell g j i =? - oo then a + b - 1 else Z.min (a + b - 1) (- cell g j i)).
    assert (a + b <= v); [|unfold v in *; destruct (cell g j i =? - oo); lia].
    apply G. split; simpl; [auto|]. unfold v. destruct (cell g j i =? - oo) eqn:T; lia.
  - split; auto. apply G. split; simpl; [right; lia|]. lia.
Qed.

Lemma within_bnd : forall B x, within B x -> 0 <= B -> valid x -> x <> oo -> bnd B x.
Proof. intros B x W B0 V N. unfold within, bnd, valid in *. lia. Qed.

Lemma good_valid : forall N B k, N <= 65535 -> good N B k -> kvalid k.
Proof.
  intros N B k LN (_ & W & F & T & _). unfold wf_iv in W. simpl in W. unfold kvalid, valid. lia.
Qed.
Lemma good_bnd : forall N B k, 0 <= B -> good N B k -> kbnd B k.
Proof.
  intros N B k B0 (_ & W & _ & _ & L & U). unfold wf_iv in W. simpl in W.
  unfold kbnd, within, bnd in *. lia.
Qed.
Lemma legal_kvalid : forall k, legal k <-> kvalid k.
Proof. reflexivity. Qed.
Lemma stored_mem : forall g, stored g <-> mem_ok g.
Proof. reflexivity. Qed.

Record inv (N B : Z) (ks : list kons) (g : graph) : Prop := {
  i_mem : mem_ok g;
  i_size : g_size g <= N;
  i_clean : clean g;
  i_good : Forall (good N B) ks;
  i_inside : Forall (inside g) ks;
  i_tight : tight (g_size g) (kedges ks) (cell g) }.

Lemma room_lin : forall N B n, room N B -> 0 <= n <= N -> 0 <= B /\ 4 * (n + 1) * B < oo.
Proof. intros N B n (B0 & L & R) Hn. split; auto. nia. Qed.

Lemma kedges_cons : forall k ks i j w, kunion (kedges ks) k i j w <-> kedges (k :: ks) i j w.
Proof.
  intros k ks i j w. unfold kunion, kedges. split.
  - intros [(k' & I & X)|X]; [exists k'|exists k]; simpl; auto.
  - intros (k' & [<-|I] & X); eauto.
Qed.
Lemma kedges_app : forall ks ks' i j w, kedges (ks ++ ks') i j w <-> kedges ks i j w \/ kedges ks' i j w.
Proof.
  intros ks ks' i j w. unfold kedges. split.
  - intros (k & I & X). apply in_app_iff in I. destruct I; eauto.
  - intros [(k & I & X)|(k & I & X)]; exists k; split; auto; apply in_app_iff; auto.
Qed.

Lemma inv_ebnd : forall N B ks g, 0 <= B -> inv N B ks g -> ebnd B (kedges ks).
Proof.
  intros N B ks g B0 I. apply kedges_bnd. eapply Forall_impl; [|apply I].
  intros k H. eapply good_bnd; eauto.
Qed.

Lemma tight_empty : forall n D (E : Z -> Z -> Z -> Prop), (forall i, node n i -> D i i = 0) ->
  (forall i j, node n i -> node n j -> i <> j -> D i j = - oo) -> (forall i j w, ~ E i j w) ->
  tight n E D.
Proof.
  intros n D E Z0 Off NE. split; [split|split]; auto.
  - intros i k j a b Ni Nk Nj (A & La) (B & Lb).
    destruct (Z.eq_dec i k) as [<-|e]; [|rewrite Off in A; auto; congruence].
    destruct (Z.eq_dec i j) as [<-|e']; [|rewrite Off in B; auto; congruence].
    rewrite Z0 in * by auto. split; [unfold oo; rewrite Z0; auto; lia|]. rewrite Z0 by auto. lia.
  - intros i j w X. destruct (NE _ _ _ X).
  - intros i j c Ni Nj (X & L). destruct (Z.eq_dec i j) as [<-|e]; [|rewrite Off in X; auto; congruence].
    rewrite Z0 in L by auto. exists [], 0. split; auto. constructor. right. auto.
Qed.

Lemma with_size_inv : forall p N B n, N <= 65535 -> 0 <= n <= N ->
  exists g, g_with_size p n = Ret g /\ g_size g = n /\ inv N B [] g.
Proof.
  intros p N B n LN L. unfold g_with_size.
  destruct (resize_ok p g_default n ltac:(simpl; lia) ltac:(lia)) as (g & E & S & M & C & _ & D & O); simpl in *.
  exists g. split; auto. split; auto. constructor; auto; [lia|].
  apply tight_empty.
  - intros i Ni. apply D. rewrite <- S. auto.
  - intros i j Ni Nj e. rewrite S in *. rewrite O by auto. unfold cell. simpl.
    destruct (Z.to_nat _); auto.
  - intros i j w (k & [] & _).
Qed.

Lemma reset_inv : forall p N B ks g, inv N B ks g ->
  exists g', g_reset p g = Ret g' /\ g_size g' = g_size g /\ inv N B [] g'.
Proof.
  intros p N B ks g I. destruct (reset_ok p g (i_mem _ _ _ _ I)) as (g' & E & S & M & C & D & O).
  exists g'. split; auto. split; auto. constructor; auto; [rewrite S; apply I|]. rewrite S. apply tight_empty; auto.
  - intros i j (? & _) (? & _) e. auto.
  - intros i j w (k & [] & _).
Qed.

Lemma grow_inv : forall p N B ks g m, N <= 65535 -> inv N B ks g -> g_size g <= m <= N ->
  exists g', g_resize p g m = Ret g' /\ g_size g' = m /\ inv N B ks g' /\
    extends (g_size g) (cell g) m (cell g').
Proof.
  intros p N B ks g m LN I L. destruct (grow_ok p g m (i_mem _ _ _ _ I) (i_clean _ _ _ _ I) ltac:(lia))
    as (g' & E & S & M & C & X).
  exists g'. split; auto. split; auto. split; auto. constructor; auto.
  - lia.
  - apply I.
  - eapply Forall_impl; [|apply (i_inside _ _ _ _ I)]. intros k (H1 & H2). split; lia.
  - rewrite S. eapply extends_tight; eauto; [lia|apply I].
Qed.

Lemma propagate_inv : forall p N B ks g k, room N B -> inv N B ks g -> good N B k ->
  inside g k ->
  exists g' r, g_propagate p g k = Ret (g', r) /\ g_size g' = g_size g /\
    ((r = Unchanged /\ g' = g /\ implied_by (cell g) k) \/
     (r = Recovered /\ g' = g /\ contradicts (cell g) k) \/
     (r = Propagated /\ ~ implied_by (cell g) k)) /\
    (r <> Recovered -> inv N B (k :: ks) g' /\
      (forall t, msat (g_size g) (cell g') t <-> msat (g_size g) (cell g) t /\ ksat k t)).
Proof.
  intros p N B ks g k R I G (In1 & In2). pose proof (i_mem _ _ _ _ I) as M.
  assert (S0 : 0 <= g_size g) by apply M. assert (SN : g_size g <= N) by apply I.
  destruct (room_lin _ _ (g_size g) R ltac:(lia)) as (B0 & L).
  pose proof G as (Ek & W & Hf & Ht & _).
  destruct (propagate_tight p g k (kedges ks) B) as (g' & r & E & H1 & H2); auto.
  - apply I. - eapply inv_ebnd; eauto. - eapply good_bnd; eauto. - lia.
  - unfold node; lia. - unfold node; lia.
  - exists g', r. split; auto.
    assert (SS : same_shape g g').
    { destruct H1 as [(_ & -> & _)|[(_ & -> & _)|(_ & X & _)]]; auto. }
    assert (S' : g_size g' = g_size g) by apply SS. split; auto. split; [tauto|].
    intros NR. destruct (H2 NR) as (T & Ms). split; auto. constructor.
    + eapply same_shape_mem; eauto.
    + lia.
    + apply (clean_shape g); auto. apply I.
    + constructor; auto. apply I.
    + constructor; [split; lia|]. eapply Forall_impl; [|apply (i_inside _ _ _ _ I)]. intros k' (X & Y). split; lia.
    + rewrite S'. eapply tight_E; eauto. apply kedges_cons.
Qed.

Lemma extend_inv : forall p N B ks g hint ks', room N B -> inv N B ks g ->
  Forall (good N B) ks' ->
  hint <> Some 0 -> hint <> Some 1 ->
  exists g' r, g_extend p g hint ks' = Ret (g', r) /\
    ((r = Propagated /\ g_size g' = ksize (g_size g) ks' /\ inv N B (ks' ++ ks) g' /\
      (forall t, msat (g_size g') (cell g') t <->
         msat (g_size g) (cell g) t /\ Forall (fun k => ksat k t) ks')) \/
     (r = Fatal /\ g_size g' = 0 /\
      forall t, ~ (msat (g_size g) (cell g) t /\ Forall (fun k => ksat k t) ks'))).
Proof.
  intros p N B ks g hint ks' R I G H0 H1. pose proof (i_mem _ _ _ _ I) as M.
  assert (S0 : 0 <= g_size g) by apply M. pose proof (ksize_ge ks' (g_size g)) as (KG & KI).
  assert (SN : g_size g <= N) by apply I.
  assert (KL : ksize (g_size g) ks' <= N).
  { apply ksize_le; auto. intros k Ik. rewrite Forall_forall in G.
    destruct (G k Ik) as (_ & _ & ? & ? & _). lia. }
  destruct (room_lin N B (ksize (g_size g) ks') R ltac:(lia)) as (B0 & L).
  assert (LN : N <= 65535) by apply R.
  assert (Kv : Forall kvalid ks') by (eapply Forall_impl; [|exact G]; intros; eapply good_valid; eauto).
  assert (Kb : Forall (kbnd B) ks') by (eapply Forall_impl; [|exact G]; intros; eapply good_bnd; eauto).
  destruct (extend_tight p g ks' hint (kedges ks) B) as (g' & r & E & H); auto.
  - apply I. - apply I. - eapply inv_ebnd; eauto.
  - exists g', r. split; auto. destruct H as [(-> & S & M' & C' & T & Ms)|H]; [left|right]; auto.
    split; auto. split; auto. split; auto. constructor; auto.
    + lia.
    + apply Forall_app. split; auto. apply I.
    + apply Forall_app. split.
      * apply Forall_forall. intros k Ik. unfold inside. rewrite S. apply KI; auto.
      * eapply Forall_impl; [|apply (i_inside _ _ _ _ I)]. intros k (X & Y). split; lia.
    + eapply tight_E; eauto. intros i j w. rewrite kedges_app. unfold eunion. tauto.
Qed.

Lemma merge_inv : forall p N B ks g ks' h, room N B -> inv N B ks g -> inv N B ks' h ->
  exists g' r, g_merge p g h = Ret (g', r) /\
    ((accepted r /\ g_size g' = Z.max (g_size g) (g_size h) /\ inv N B (ks ++ ks') g' /\
      (forall t, msat (g_size g') (cell g') t <->
         msat (g_size g) (cell g) t /\ msat (g_size h) (cell h) t) /\
      (r = Unchanged -> g' = g)) \/
     (r = Fatal /\ g_size g' = 0 /\
      forall t, ~ (msat (g_size g) (cell g) t /\ msat (g_size h) (cell h) t))).
Proof.
  intros p N B ks g ks' h R I J.
  assert (SN : g_size g <= N) by apply I. assert (SN' : g_size h <= N) by apply J.
  assert (S0 : 0 <= g_size g) by apply I. assert (S1 : 0 <= g_size h) by apply J.
  destruct (merge_lin p g h ks ks' B) as (g' & r & E & H); auto;
    try apply I; try apply J; try apply R.
  - eapply Forall_impl; [|apply (i_good _ _ _ _ I)]. intros k. apply good_valid. apply R.
  - eapply Forall_impl; [|apply (i_good _ _ _ _ I)]. intros k. apply good_bnd. apply R.
  - eapply Forall_impl; [|apply (i_good _ _ _ _ J)]. intros k. apply good_valid. apply R.
  - eapply Forall_impl; [|apply (i_good _ _ _ _ J)]. intros k. apply good_bnd. apply R.
  - apply (room_lin N B); auto. lia.
  - exists g', r. split; auto. destruct H as [(N1 & N2 & S & M' & C' & T & Ms & U)|H]; [left|right]; auto.
    split. { destruct r; unfold accepted; auto; congruence. }
    split; auto. rewrite S. split; auto. constructor; auto.
    + lia.
    + apply Forall_app. split; [apply I|apply J].
    + apply Forall_app. split.
      * eapply Forall_impl; [|apply (i_inside _ _ _ _ I)]. intros k (X & Y). split; lia.
      * eapply Forall_impl; [|apply (i_inside _ _ _ _ J)]. intros k (X & Y). split; lia.
    + rewrite S. eapply tight_E; eauto. intros i j w. rewrite kedges_app. unfold munion. tauto.
Qed.

(** [extend] with any honest hint *)
Lemma extend_any : forall p N B ks g hint ks', room N B -> inv N B ks g ->
  Forall (good N B) ks' -> honest hint ks' -> (hint = Some 1 -> Forall (inside g) ks') ->
  exists g' r, g_extend p g hint ks' = Ret (g', r) /\
    ((accepted r /\ g_size g' = ksize (g_size g) ks' /\ inv N B (ks' ++ ks) g' /\
      (forall t, msat (g_size g') (cell g') t <->
         msat (g_size g) (cell g) t /\ Forall (fun k => ksat k t) ks')) \/
     (hint = Some 1 /\ r = Recovered /\ g' = g /\
      forall t, ~ (msat (g_size g) (cell g) t /\ Forall (fun k => ksat k t) ks')) \/
     (r = Fatal /\ g_size g' = 0 /\
      forall t, ~ (msat (g_size g) (cell g) t /\ Forall (fun k => ksat k t) ks'))).
Proof.
  intros p N B ks g hint ks' R I G Hn Hi.
  assert (E0 : ks' = [] -> accepted Unchanged /\ g_size g = ksize (g_size g) ks' /\
    inv N B (ks' ++ ks) g /\ forall t, msat (g_size g) (cell g) t <->
      msat (g_size g) (cell g) t /\ Forall (fun k => ksat k t) ks').
  { intros ->. split; [left; auto|]. split; auto. split; auto. intros t. split; [|tauto]. auto. }
  destruct (option_map (fun h => (h =? 0, h =? 1)) hint) as [(b0, b1)|] eqn:Q.
  2:{ destruct hint; [discriminate|].
      destruct (extend_inv p N B ks g None ks' R I G) as (g' & r & E & H); try discriminate.
      exists g', r. split; auto. destruct H as [(-> & H)|H]; [left|right; right; auto].
      split; [right; auto|auto]. }
  destruct hint as [h|]; [|discriminate]. simpl in Q. injection Q as Q0 Q1.
  destruct b0.
  { assert (h = 0) by lia. subst h. simpl in Hn. destruct ks'; [|simpl in Hn; lia].
    exists g, Unchanged. split; auto. }
  destruct b1.
  { assert (h = 1) by lia. subst h. simpl in Hn. destruct ks' as [|k [|]]; [..|simpl in Hn; lia].
    - exists g, Unchanged. split; auto.
    - specialize (Hi eq_refl). inversion Hi as [|? ? In _]. inversion G as [|? ? Gk _]. subst.
      destruct (propagate_inv p N B ks g k R I Gk In) as (g' & r & E & S & C & H).
      exists g', r. split; [exact E|].
      assert (KS : ksize (g_size g) [k] = g_size g).
      { unfold ksize. simpl. destruct In. lia. }
      destruct C as [(-> & _)|[(-> & -> & C)|(-> & _)]].
      + left. split; [left; auto|]. rewrite KS. split; auto.
        destruct H as (H1 & H2); [discriminate|]. split; [exact H1|]. intros t. rewrite S, H2.
        split; intros (X & Y); split; auto. inversion Y; auto.
      + right. left. split; auto. split; auto. split; auto. intros t (X & Y). inversion Y; subst.
        destruct Gk as (_ & _ & ? & ? & _). destruct In.
        apply (contradicts_sound (g_size g) (cell g) k t); auto; unfold node; lia.
      + left. split; [right; auto|]. rewrite KS. split; auto.
        destruct H as (H1 & H2); [discriminate|]. split; [exact H1|]. intros t. rewrite S, H2.
        split; intros (X & Y); split; auto. inversion Y; auto. }
  destruct (extend_inv p N B ks g (Some h) ks' R I G) as (g' & r & E & H).
  { intros e. injection e as ->. lia. } { intros e. injection e as ->. lia. }
  exists g', r. split; auto. destruct H as [(-> & H)|H]; [left|right; right; auto].
  split; [right; auto|auto].
Qed.

(** [shrink_to_fit] *)
Lemma unconstrained_edge : forall N B ks g i, inv N B ks g -> node (g_size g) i ->
  ~ constrained g i -> forall j, 0 <= j < i -> cell g i j = - oo /\ cell g j i = - oo.
Proof.
  intros N B ks g i I Ni C j L. split.
  - destruct (Z.eq_dec (cell g i j) (- oo)); auto. destruct C. exists j. auto.
  - destruct (Z.eq_dec (cell g j i) (- oo)); auto. destruct C. exists j. auto.
Qed.

(** The unconstrained last instants may be forgotten. *)
Lemma shrink_extends : forall N B ks g m, inv N B ks g -> 0 <= m <= g_size g ->
  (forall i, m <= i < g_size g -> ~ constrained g i) ->
  extends m (cell g) (g_size g) (cell g).
Proof.
  intros N B ks g m I L C a b Na Nb. pose proof (i_tight _ _ _ _ I) as ((Z0 & _) & _).
  destruct ((a <? m) && (b <? m)) eqn:T; auto. destruct (a =? b) eqn:T2.
  - assert (a = b) by lia. subst. auto.
  - destruct (Z_lt_le_dec a b) as [l|l].
    + apply (unconstrained_edge N B ks g b I Nb); [apply C|]; unfold node in *; lia.
    + apply (unconstrained_edge N B ks g a I Na); [apply C|]; unfold node in *; lia.
Qed.

Lemma tight_shrink : forall n m (E : Z -> Z -> Z -> Prop) D, 0 <= m <= n ->
  extends m D n D -> (forall i j w, E i j w -> node m i /\ node m j) ->
  tight n E D -> tight m E D.
Proof.
  intros n m E D L X HE ((Z0 & T) & H1 & H2).
  assert (N1 : forall i, node m i -> node n i) by (unfold node; intros; lia).
  split; [split|split].
  - intros i Ni. auto.
  - intros i k j a b Ni Nk Nj. apply T; auto.
  - intros i j w e. destruct (HE _ _ _ e). destruct (H1 _ _ _ e) as (_ & _ & ?). auto.
  - intros i j c Ni Nj A. destruct (H2 i j c (N1 _ Ni) (N1 _ Nj) A) as (l & w & W & Lw).
    exists l, w. split; auto.
    assert (Q : forall i l j w, walk (withdiag n E) i l j w -> node m i -> walk (withdiag m E) i l j w /\ node m j).
    { clear - HE L. intros i l j w W. induction W as [i j w e|i k l j w1 w2 e W IH]; intros Ni.
      - destruct e as [e|(_ & <- & ->)].
        + destruct (HE _ _ _ e). split; auto. constructor. left. auto.
        + split; auto. constructor. right. auto.
      - destruct e as [e|(_ & <- & ->)].
        + destruct (HE _ _ _ e) as (_ & Nk). destruct (IH Nk) as (IH1 & IH2). split; auto.
          econstructor; [left; eauto|auto].
        + destruct (IH Ni) as (IH1 & IH2). split; auto. econstructor; [right; eauto|auto]. }
    apply Q; auto.
Qed.

Lemma shrink_inv : forall p N B ks g, inv N B ks g ->
  exists g', g_shrink_to_fit p g = Ret g' /\ 0 <= g_size g' <= g_size g /\ g_data g' = g_data g /\
    (forall i, g_size g' <= i < g_size g -> ~ constrained g i) /\
    (g_size g' = 0 \/ constrained g (g_size g' - 1)) /\ mem_ok g' /\ clean g' /\
    (Forall (inside g') ks -> inv N B ks g').
Proof.
  intros p N B ks g I. destruct (shrink_ok p g (i_mem _ _ _ _ I)) as (m & E & L & C & F).
  exists (mkG m (g_data g)). split; auto. simpl. split; auto. split; auto. split; auto. split; auto.
  pose proof (i_tight _ _ _ _ I) as ((Z0 & _) & _).
  assert (M' : mem_ok (mkG m (g_data g))).
  { destruct (i_mem _ _ _ _ I) as (M1 & M2). split; simpl; [lia|]. nia. }
  assert (C' : clean (mkG m (g_data g))).
  { apply clean_shrink; auto; [|apply I]. intros i Hi. split; [apply C; auto|].
    rewrite Z0; [lia|]. unfold node. lia. }
  split; auto. split; auto. intros In. constructor; simpl; auto.
  - pose proof (i_size _ _ _ _ I). lia.
  - apply I.
  - change (cell (mkG m (g_data g))) with (cell g).
    apply (tight_shrink (g_size g)); auto; [eapply shrink_extends; eauto| |apply I].
    intros i j w (k & Ik & Ek). rewrite Forall_forall in In. destruct (In k Ik) as (I1 & I2).
    simpl in *. pose proof (i_good _ _ _ _ I) as G. rewrite Forall_forall in G.
    destruct (G k Ik) as (_ & _ & ? & ? & _).
    destruct Ek as [(-> & -> & _)|(-> & -> & _)]; unfold node; lia.
Qed.

(** ** A first constraint between two instants *)

Definition lone (n : Z) (D : mat) (f : Z) : Prop :=
  forall i, node n i -> i <> f -> D i f = - oo /\ D f i = - oo.
Lemma fresh_lone : forall n ks D f, tight n (kedges ks) D -> fresh ks f -> node n f -> lone n D f.
Proof.
  intros n ks D f T F Nf i Ni Nif.
  destruct (closed_consistent n D) as (t & S); [apply T|].
  assert (SH : forall d, msat n D (upd t f d)).
  { intros d. apply (tight_msat n (kedges ks) D _ T), kedges_sat.
    pose proof (proj1 (kedges_sat ks t) (proj1 (tight_msat n (kedges ks) D t T) S)) as S'.
    unfold fresh in F. rewrite Forall_forall in *. intros k Ik. specialize (S' k Ik). specialize (F k Ik).
    unfold ksat, upd in *. replace (k_to k =? f) with false by lia.
    replace (k_from k =? f) with false by lia. auto. }
  split.
  - destruct (Z.eq_dec (D i f) (- oo)) as [|e]; auto. exfalso.
    specialize (SH (D i f + t i - 1) i f (D i f) Ni Nf (conj e (Z.le_refl _))). unfold upd in SH.
    rewrite Z.eqb_refl in SH. replace (i =? f) with false in SH by lia. lia.
  - destruct (Z.eq_dec (D f i) (- oo)) as [|e]; auto. exfalso.
    specialize (SH (t i - D f i + 1) f i (D f i) Nf Ni (conj e (Z.le_refl _))). unfold upd in SH.
    rewrite Z.eqb_refl in SH. replace (i =? f) with false in SH by lia. lia.
Qed.

Lemma attach_tight : forall n E D f u lo up D', tight n E D -> node n f -> node n u ->
  f <> u -> lone n D f -> lone n D u -> lo <= up ->
  (forall a b, node n a -> node n b ->
     D' a b = if (a =? u) && (b =? f) then - up
              else if (a =? f) && (b =? u) then lo else D a b) ->
  exists E', tight n E' D' /\ forall i j w, E' i j w <->
    E i j w \/ (i = f /\ j = u /\ w = lo /\ lo <> - oo) \/ (i = u /\ j = f /\ w = - up /\ - up <> - oo).
Proof.
  intros n E D f u lo up D' T Nf Nu Nfu Lf Lu Hlu HD.
  assert (Zd : zero_diag n D) by apply T.
  (* the new lower bound *)
  set (D1 := fun a b => if (a =? f) && (b =? u) then lo else D a b).
  assert (CF : forall i a, node n i -> ent D i f a -> i = f /\ a <= 0).
  { intros i a Ni (X & Y). destruct (Z.eq_dec i f) as [->|e].
    - rewrite Zd in Y by auto. auto.
    - destruct (Lf i Ni e). congruence. }
  assert (RU : forall j b, node n j -> ent D u j b -> j = u /\ b <= 0).
  { intros j b Nj (X & Y). destruct (Z.eq_dec j u) as [->|e].
    - rewrite Zd in Y by auto. auto.
    - destruct (Lu j Nj e). congruence. }
  destruct (Lu f Nf Nfu) as (Dfu & Duf).
  assert (T1 : exists E1, tight n E1 D1 /\ forall i j w, E1 i j w <->
    E i j w \/ (i = f /\ j = u /\ w = lo /\ lo <> - oo)).
  { destruct (Z.eq_dec lo (- oo)) as [e|e].
    - exists E. split; [|intros; tauto].
      apply (tight_ext n E D); auto; [tauto| |].
      + intros i j c Ni Nj. unfold ent, D1. destruct ((i =? f) && (j =? u)) eqn:X; [|tauto].
        assert (i = f /\ j = u) as (-> & ->) by lia. rewrite Dfu, e. tauto.
      + intros i Ni. unfold D1. replace ((i =? f) && (i =? u)) with false by lia. auto.
    - exists (plus_edge E f u lo). split.
      + apply (added_tight n E D); auto.
        { intros x (X & _). congruence. }
        intros i j c Ni Nj. unfold ent, D1. destruct ((i =? f) && (j =? u)) eqn:X.
        * assert (i = f /\ j = u) as (-> & ->) by lia. split.
          -- intros (_ & H). right. exists 0, 0. rewrite !Zd by auto. unfold oo. lia.
          -- intros [(H & _)|(a & b & A & B & H)]; [congruence|].
             destruct (CF _ _ Nf A), (RU _ _ Nu B). split; auto. lia.
        * split; auto. intros [H|(a & b & A & B & H)]; auto.
          destruct (CF _ _ Ni A), (RU _ _ Nj B). lia.
      + intros i j w. unfold plus_edge. tauto. }
  destruct T1 as (E1 & T1 & HE1). assert (Zd1 : zero_diag n D1) by apply T1.
  assert (CU : forall i a, node n i -> ent D1 i u a -> (i = u /\ a <= 0) \/ (i = f /\ a <= lo)).
  { intros i a Ni (X & Y). unfold D1 in X, Y. destruct ((i =? f) && (u =? u)) eqn:B; [lia|].
    destruct (Z.eq_dec i u) as [->|e]; [rewrite Zd in Y by auto; auto|].
    destruct (Lu i Ni e). congruence. }
  assert (RF : forall j b, node n j -> ent D1 f j b -> (j = f /\ b <= 0) \/ (j = u /\ b <= lo)).
  { intros j a Nj (X & Y). unfold D1 in X, Y. destruct ((f =? f) && (j =? u)) eqn:B; [lia|].
    destruct (Z.eq_dec j f) as [->|e]; [rewrite Zd in Y by auto; auto|].
    destruct (Lf j Nj e). congruence. }
  assert (D1uf : D1 u f = - oo).
  { unfold D1. replace ((u =? f) && _) with false by lia. auto. }
  assert (HD1 : forall a b, node n a -> node n b -> D' a b = if (a =? u) && (b =? f) then - up else D1 a b).
  { intros a b Na Nb. rewrite HD by auto. auto. }
  destruct (Z.eq_dec (- up) (- oo)) as [e|e].
  - exists E1. split; [|intros; rewrite HE1; tauto].
    apply (tight_ext n E1 D1); auto; [tauto| |].
    + intros i j c Ni Nj. unfold ent. rewrite HD1 by auto. destruct ((i =? u) && (j =? f)) eqn:X; [|tauto].
      assert (i = u /\ j = f) as (-> & ->) by lia. rewrite D1uf, e. tauto.
    + intros i Ni. rewrite HD1 by auto. replace ((i =? u) && (i =? f)) with false by lia. auto.
  - exists (plus_edge E1 u f (- up)). split.
    + apply (added_tight n E1 D1); auto.
      { intros x X. destruct (RF u x Nu X); lia. }
      intros i j c Ni Nj. unfold ent at 1. rewrite HD1 by auto. destruct ((i =? u) && (j =? f)) eqn:X.
      * assert (i = u /\ j = f) as (-> & ->) by lia. split.
        -- intros (_ & H). right. exists 0, 0. unfold ent. rewrite !Zd1 by auto. unfold oo. lia.
        -- intros [(H & _)|(a & b & A & B & H)]; [congruence|].
           destruct (CU _ _ Nu A), (RF _ _ Nf B); split; auto; lia.
      * split; [unfold ent; auto|]. intros [H|(a & b & A & B & H)]; auto.
        pose proof A as (A1 & A2). pose proof B as (B1 & B2).
        destruct (CU _ _ Ni A) as [(-> & L1)|(-> & L1)], (RF _ _ Nj B) as [(-> & L2)|(-> & L2)]; try lia;
        rewrite Zd1 by auto; unfold oo; lia.
    + intros i j w. unfold plus_edge. rewrite HE1. tauto.
Qed.

Lemma attach_inv : forall p N B ks g k, 0 <= B -> N <= 65535 -> inv N B ks g -> good N B k ->
  ~ inside g k -> k_from k <> k_to k -> fresh ks (k_from k) -> fresh ks (k_to k) ->
  exists g', g_propagate p g k = Ret (g', Propagated) /\
    g_size g' = Z.max (k_from k) (k_to k) + 1 /\ inv N B (k :: ks) g'.
Proof.
  intros p N B ks g k HB HN I G NI Nft Ff Fu. pose proof (good_valid N B k HN G) as Kv.
  pose proof G as (Em & W & Hf & Hu & _). pose proof Kv as (_ & _ & Vl & Vu).
  destruct I as [M Sz C Gs Is T].
  destruct (propagate_new p g k M C Kv Em) as (g' & E & S' & M' & C' & g1 & E1 & X1 & H).
  { unfold inside in NI. lia. }
  set (m := Z.max (k_from k) (k_to k) + 1) in *.
  exists g'. split; auto. split; auto.
  assert (L : g_size g <= m) by (unfold inside in NI; unfold m; lia).
  assert (Nf : node m (k_from k)) by (unfold node, m; lia).
  assert (Nu : node m (k_to k)) by (unfold node, m; lia).
  pose proof (extends_tight _ _ _ _ _ X1 L T) as T1.
  destruct (attach_tight m (kedges ks) (cell g1) (k_from k) (k_to k) (k_lo k) (k_up k) (cell g'))
    as (E' & T2 & HE); auto; try apply W.
  { eapply fresh_lone; eauto. }
  { eapply fresh_lone; eauto. }
  constructor; auto.
  - unfold m in *. lia.
  - constructor; [unfold inside; rewrite S'; unfold node, m in *; lia|].
    apply Forall_forall. intros k' Ik. rewrite Forall_forall in Is. specialize (Is k' Ik).
    unfold inside in *. rewrite S'. lia.
  - rewrite S'. eapply tight_ext; [| | |exact T2]; [|tauto|auto].
    intros i j w. rewrite HE, <- kedges_cons. unfold kunion, kedge.
    assert (- k_up k <> - oo <-> k_up k <> oo) by lia. tauto.
Qed.

(** ** Removing instants *)

Lemma cut_inv : forall p N B ks g m g' ks', inv N B ks g -> 0 <= m <= g_size g -> N <= 65535 ->
  g_resize p g m = Ret g' -> reported p g' ks' -> Forall (good N B) ks' -> inv N B ks' g'.
Proof.
  intros p N B ks g m g' ks' I Hm LN E (Rk & Ra) G.
  assert (M : mem_ok g) by apply I. assert (SN : g_size g <= N) by apply I. pose proof M as ((S0 & S1) & _).
  destruct (resize_ok p g m S0 ltac:(lia)) as (g2 & E2 & S & M' & Cl2 & _ & _ & C).
  rewrite E in E2. injection E2 as <-.
  assert (C' : forall a b, node m a -> node m b -> cell g' a b = cell g a b).
  { intros a b Na Nb. apply C; auto. unfold node in *. lia. }
  assert (NN : forall a, node m a -> node (g_size g) a) by (unfold node; lia).
  assert (Cl : closed (g_size g) (cell g)) by apply (i_tight _ _ _ _ I).
  assert (Cl' : closed m (cell g')).
  { destruct Cl as (Zd & Tr). split.
    - intros i Ni. rewrite C' by auto. auto.
    - intros i k j a b Ni Nk Nj. unfold ent. rewrite !C' by auto. apply Tr; auto. }
  assert (Fin : forall k, In k ks' -> node m (k_from k) /\ node m (k_to k) /\
    k_lo k = cell g' (k_from k) (k_to k) /\ - k_up k = cell g' (k_to k) (k_from k)).
  { intros k Ik. rewrite Forall_forall in Rk, G. destruct (Rk k Ik) as (_ & (I1 & I2) & T).
    destruct (G k Ik) as (_ & _ & Hf & Ht & _). rewrite S in *.
    assert (Nf : node m (k_from k)) by (unfold node; lia). assert (Nt : node m (k_to k)) by (unfold node; lia).
    rewrite timespan_ok in T by (auto; rewrite S; auto). injection T as T1 T2. split; auto. split; auto. lia. }
  constructor; auto.
  - lia.
  - apply Forall_forall. intros k Ik. rewrite Forall_forall in Rk. apply Rk. auto.
  - rewrite S. split; auto. split.
    + intros i j w (k & Ik & Ek). destruct (Fin k Ik) as (Nf & Nt & L & U).
      destruct Ek as [(-> & -> & -> & H)|(-> & -> & -> & H)]; (split; [auto|]; split; [auto|]); unfold ent; lia.
    + intros i j c Ni Nj En. destruct (Z.eq_dec i j) as [->|Nij].
      * exists [], 0. split; [apply walk_one; right; auto|]. destruct En as (_ & En).
        destruct Cl' as (Zd & _). rewrite Zd in En by auto. lia.
      * assert (K : exists k, In k ks' /\ (k_from k = i /\ k_to k = j \/ k_from k = j /\ k_to k = i)).
        { destruct (Z_lt_le_dec j i) as [L|L].
          - destruct (Ra i j) as [T|(k & Ik & H)]; try (unfold node in *; lia).
            + rewrite timespan_ok in T by (auto; rewrite S; auto). injection T as T1 T2. destruct En; congruence.
            + exists k. split; [exact Ik|lia].
          - destruct (Ra j i) as [T|(k & Ik & H)]; try (unfold node in *; lia).
            + rewrite timespan_ok in T by (auto; rewrite S; auto). injection T as T1 T2. destruct En as (En & _). destruct En. lia.
            + exists k. split; [exact Ik|lia]. }
        destruct K as (k & Ik & H). destruct (Fin k Ik) as (Nf & Nt & L & U). destruct En as (En & Lc).
        exists [], (cell g' i j). split; auto. apply walk_one. left. exists k. split; auto. unfold kedge.
        destruct H as [(<- & <-)|(<- & <-)]; [left|right]; repeat split; auto; lia.
Qed.
Lemma history_inv : forall p N B ks g, room N B -> history p N B ks g -> inv N B ks g.
Proof.
  intros p N B ks g R H. assert (LN : N <= 65535) by apply R.
  induction H as [n g L E|ks g k g' r H IH G In E A|ks g k g' r H IH G In Nft Ff Fu E A|ks g k g' H IH G In E
    |ks g hint ks' g' r H IH G H0 H1 E A|ks g m g' H IH L E|ks g g' H IH E
    |ks g g' H IH E F|ks g m g' ks' H IH L E Rp G|ks g ks' h g' r H IH H' IH' E A].
  - destruct (with_size_inv p N B n LN L) as (g' & E' & _ & I). congruence.
  - destruct (propagate_inv p N B ks g k R IH G In) as (g2 & r2 & E2 & _ & _ & X).
    rewrite E in E2. injection E2 as <- <-. apply X. destruct A; congruence.
  - destruct (attach_inv p N B ks g k) as (g2 & E2 & _ & X); auto; [apply R|]. congruence.
  - destruct (propagate_inv p N B ks g k R IH G In) as (g2 & r2 & E2 & _ & X & _).
    rewrite E in E2. injection E2 as <- <-.
    destruct X as [(Q & _)|[(_ & -> & _)|(Q & _)]]; try discriminate. auto.
  - destruct (extend_any p N B ks g hint ks' R IH G H0 H1) as (g2 & r2 & E2 & X).
    rewrite E in E2. injection E2 as <- <-.
    destruct X as [(_ & _ & X & _)|[(_ & -> & _)|(-> & _)]]; auto; destruct A; discriminate.
  - destruct (grow_inv p N B ks g m LN IH L) as (g2 & E2 & _ & X & _). congruence.
  - destruct (reset_inv p N B ks g IH) as (g2 & E2 & _ & X). congruence.
  - destruct (shrink_inv p N B ks g IH) as (g2 & E2 & _ & _ & _ & _ & _ & _ & X).
    rewrite E in E2. injection E2 as <-. auto.
  - apply (cut_inv p N B ks g m g' ks'); auto.
  - destruct (merge_inv p N B ks g ks' h R IH IH') as (g2 & r2 & E2 & X).
    rewrite E in E2. injection E2 as <- <-. destruct X as [(_ & _ & X & _)|(-> & _)]; auto.
    destruct A; discriminate.
Qed.
