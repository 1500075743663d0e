(** C94: the algebra of [merge]. *)
From Verif Require Import Machine TimeValue Interval Spec SpecSets Tac TimeValueProofs Graph
  MaxPlus FwBound GraphProofs GraphOps GraphGrow GraphSafe GraphMem GraphHist GraphTight SpecGraph
  GraphInv GraphSound GraphCalls GraphIter Prop_Graph Prop_Propagation Prop_GraphIter Prop_Repeat.

(** ** Helpers *)

Lemma merge_cases : forall p N B ks g ks' h, room N B -> inv N B ks g -> inv N B ks' h ->
  exists g' r, g_merge p g h = Ret (g', r) /\
    ((accepted r /\ g_size g' = Z.max (g_size g) (g_size h) /\ inv N B (ks ++ ks') g') \/
     (r = Fatal /\ forall t, ~ (solution p g t /\ solution p h t))).
Proof.
  intros p N B ks g ks' h R I J. destruct (merge_inv p N B ks g ks' h R I J) as (g' & r & E & C).
  exists g', r. split; auto. destruct C as [(A & S & I' & _)|(-> & _ & F)]; [left; auto|right].
  split; auto. intros t (X & Y). apply (F t). split; eapply sol_msat; eauto; [apply I|apply J].
Qed.
Lemma merged_sat : forall p N B ks g ks' h g' t, inv N B ks g -> inv N B ks' h -> inv N B (ks ++ ks') g' ->
  (solution p g' t <-> solution p g t /\ solution p h t).
Proof.
  intros p N B ks g ks' h g' t I J I'. rewrite (inv_sat p N B _ g' t I'), (inv_sat p N B ks g t I),
    (inv_sat p N B ks' h t J). apply Forall_app.
Qed.
Lemma fatal_not : forall r, r = Fatal -> ~ accepted r.
Proof. intros r -> [?|?]; discriminate. Qed.

(** ** Order *)

(** Partial: the limits of [room] and [history]. *)
Theorem C94_comm_partial : forall p N B ks g ks' h, room N B -> history p N B ks g ->
  history p N B ks' h ->
  exists a r b s, g_merge p g h = Ret (a, r) /\ g_merge p h g = Ret (b, s) /\
    ((accepted r /\ accepted s /\ same_bounds p a b) \/ (r = Fatal /\ s = Fatal)).
Proof.
  intros p N B ks g ks' h R H H'. pose proof (history_inv _ _ _ _ _ R H) as I.
  pose proof (history_inv _ _ _ _ _ R H') as J.
  destruct (merge_cases p N B ks g ks' h R I J) as (a & r & E & C).
  destruct (merge_cases p N B ks' h ks g R J I) as (b & s & E' & C').
  exists a, r, b, s. split; auto. split; auto.
  destruct C as [(A & S & Ia)|(A & F)], C' as [(A' & S' & Ib)|(A' & F')]; auto.
  - left. split; auto. split; auto.
    apply (inv_same p N B (ks ++ ks') a N B (ks' ++ ks) b); auto; [lia|].
    intros t. rewrite !Forall_app. tauto.
  - destruct (inv_consistent p N B _ a Ia) as (t & St).
    apply (merged_sat p N B ks g ks' h a t I J Ia) in St. destruct (F' t); tauto.
  - destruct (inv_consistent p N B _ b Ib) as (t & St).
    apply (merged_sat p N B ks' h ks g b t J I Ib) in St. destruct (F t); tauto.
Qed.

(** Partial: the limits of [room] and [history]. *)
Theorem C94_assoc_partial : forall p N B ks1 g ks2 h ks3 k, room N B -> history p N B ks1 g ->
  history p N B ks2 h -> history p N B ks3 k ->
  exists gh r hk s, g_merge p g h = Ret (gh, r) /\ g_merge p h k = Ret (hk, s) /\
    ((accepted r /\ accepted s /\
       exists a u b v, g_merge p gh k = Ret (a, u) /\ g_merge p g hk = Ret (b, v) /\
         ((accepted u /\ accepted v /\ same_bounds p a b) \/ (u = Fatal /\ v = Fatal))) \/
     (accepted r /\ s = Fatal /\ exists a, g_merge p gh k = Ret (a, Fatal)) \/
     (r = Fatal /\ accepted s /\ exists b, g_merge p g hk = Ret (b, Fatal)) \/
     (r = Fatal /\ s = Fatal)).
Proof.
  intros p N B ks1 g ks2 h ks3 k R H1 H2 H3. pose proof (history_inv _ _ _ _ _ R H1) as I1.
  pose proof (history_inv _ _ _ _ _ R H2) as I2. pose proof (history_inv _ _ _ _ _ R H3) as I3.
  destruct (merge_cases p N B ks1 g ks2 h R I1 I2) as (gh & r & E & C).
  destruct (merge_cases p N B ks2 h ks3 k R I2 I3) as (hk & s & E' & C').
  exists gh, r, hk, s. split; auto. split; auto.
  destruct C as [(A & S & Ia)|(A & F)], C' as [(A' & S' & Ib)|(A' & F')].
  - left. split; auto. split; auto.
    destruct (merge_cases p N B _ gh ks3 k R Ia I3) as (a & u & Ea & Ca).
    destruct (merge_cases p N B ks1 g _ hk R I1 Ib) as (b & v & Eb & Cb).
    exists a, u, b, v. split; auto. split; auto.
    destruct Ca as [(Aa & Sa & Ja)|(Aa & Fa)], Cb as [(Ab & Sb & Jb)|(Ab & Fb)]; auto.
    + left. split; auto. split; auto.
      apply (inv_same p N B _ a N B _ b R R Ja Jb); [lia|].
      intros t. rewrite !Forall_app. tauto.
    + destruct (inv_consistent p N B _ a Ja) as (t & St).
      apply (merged_sat p N B _ gh ks3 k a t Ia I3 Ja) in St. destruct St as (St & Sk).
      apply (merged_sat p N B ks1 g ks2 h gh t I1 I2 Ia) in St. destruct (Fb t).
      split; [tauto|]. apply (merged_sat p N B ks2 h ks3 k hk t I2 I3 Ib). tauto.
    + destruct (inv_consistent p N B _ b Jb) as (t & St).
      apply (merged_sat p N B ks1 g _ hk b t I1 Ib Jb) in St. destruct St as (Sg & St).
      apply (merged_sat p N B ks2 h ks3 k hk t I2 I3 Ib) in St. destruct (Fa t).
      split; [|tauto]. apply (merged_sat p N B ks1 g ks2 h gh t I1 I2 Ia). tauto.
  - right. left. split; auto. split; auto.
    destruct (merge_cases p N B _ gh ks3 k R Ia I3) as (a & u & Ea & Ca). exists a.
    destruct Ca as [(Aa & Sa & Ja)|(-> & _)]; auto.
    destruct (inv_consistent p N B _ a Ja) as (t & St).
    apply (merged_sat p N B _ gh ks3 k a t Ia I3 Ja) in St. destruct St as (St & Sk).
    apply (merged_sat p N B ks1 g ks2 h gh t I1 I2 Ia) in St. destruct (F' t). tauto.
  - right. right. left. split; auto. split; auto.
    destruct (merge_cases p N B ks1 g _ hk R I1 Ib) as (b & v & Eb & Cb). exists b.
    destruct Cb as [(Ab & Sb & Jb)|(-> & _)]; auto.
    destruct (inv_consistent p N B _ b Jb) as (t & St).
    apply (merged_sat p N B ks1 g _ hk b t I1 Ib Jb) in St. destruct St as (Sg & St).
    apply (merged_sat p N B ks2 h ks3 k hk t I2 I3 Ib) in St. destruct (F t). tauto.
  - auto.
Qed.

(** Two and three graphs that meet, and two that do not *)
Definition k02 : kons := mkK 0 2 false 13 30.
Definition h2 : graph := mkG 3 [0; - oo; 0; - oo; - 30; - oo; 0; - oo; 13].
Lemma h2_history : forall N B, 3 <= N -> 30 <= B -> history Debug N B [k02] h2.
Proof.
  intros N B HN HB. eapply h_propagate with (ks := []) (r := Propagated).
  - eapply h_new with (n := 3); [lia|reflexivity].
  - unfold good, wf_iv, within, k02; simpl. unfold oo. lia.
  - unfold inside; simpl. lia.
  - vm_compute. reflexivity.
  - right. reflexivity.
Qed.
Lemma room30 : room 3 30.
Proof. unfold room, oo. lia. Qed.
Definition m3 : graph := mkG 3 [0; - 10; 0; 5; - 18; - 8; 0; 7; 13].
Example C94_comm_case : room 3 30 /\ history Debug 3 30 [k12; k01] h3 /\
  history Debug 3 30 [k02] h2 /\ g_merge Debug h3 h2 = Ret (m3, Propagated) /\
  g_merge Debug h2 h3 = Ret (m3, Propagated).
Proof.
  split; [apply room30|]. split; [apply h3_history; lia|]. split; [apply h2_history; lia|].
  split; vm_compute; reflexivity.
Qed.
Example C94_assoc_case : room 3 30 /\ history Debug 3 30 [k01] h3a /\
  history Debug 3 30 [k12; k01] h3 /\ history Debug 3 30 [k02] h2 /\
  exists gh hk, g_merge Debug h3a h3 = Ret (gh, Propagated) /\ g_merge Debug h3 h2 = Ret (hk, Propagated) /\
    g_merge Debug gh h2 = Ret (m3, Propagated) /\ g_merge Debug h3a hk = Ret (m3, Propagated).
Proof.
  split; [apply room30|]. split; [apply h3a_history; lia|]. split; [apply h3_history; lia|].
  split; [apply h2_history; lia|]. eexists _, _. split; [vm_compute; reflexivity|].
  split; [vm_compute; reflexivity|]. split; vm_compute; reflexivity.
Qed.

(** ** When [merge] is [Unchanged] *)

Lemma gp_turns_answer : forall p l g g' r, g_gp_turns p g l = Ret (g', r) -> r = Propagated \/ r = Fatal.
Proof.
  induction l as [|a l IH]; intros g g' r E; cbn in E; [injection E as _ <-; auto|].
  match type of E with bind ?x _ = _ => destruct x as [(g1 & ok)| | |]; cbn [bind] in E; try discriminate end.
  destruct ok; [eauto|]. injection E as _ <-. auto.
Qed.
Lemma zip_unchanged : forall a b, snd (zip_max a b) = false ->
  forall n x y, nth_error a n = Some x -> nth_error b n = Some y -> y <= x.
Proof.
  induction a as [|v a IH]; intros [|w b] H [|n] x y X Y; simpl in *; try discriminate;
    destruct (zip_max a b) as (m & c) eqn:Q; destruct (v <? w) eqn:L; simpl in H; try discriminate.
  - injection X as ->. injection Y as ->. lia.
  - apply (IH b) with (n := n); auto. rewrite Q. auto.
Qed.

(** Exactly when every bound of the argument is already met: any graphs of the public calls,
    bounds of any magnitude. *)
Theorem C94_unchanged : forall p g h g' r, calls p false g -> calls p false h ->
  g_merge p g h = Ret (g', r) ->
  (r = Unchanged <-> g_size h <= g_size g /\ forall i j, 0 <= i < g_size h -> 0 <= j < g_size h ->
     exists a b, g_timespan p g i j = Ret a /\ g_timespan p h i j = Ret b /\
       lower b <= lower a /\ upper a <= upper b) /\
  (r = Unchanged -> g' = g).
Proof.
  intros p g h g' r Cg Ch E. apply calls_exact in Cg. apply calls_exact in Ch.
  pose proof Cg as (Mg & Lg & _). pose proof Ch as (Mh & Lh & _).
  assert (U : (g_size h <= g_size g /\ forall i j, 0 <= i < g_size h -> 0 <= j < g_size h ->
     exists a b, g_timespan p g i j = Ret a /\ g_timespan p h i j = Ret b /\
       lower b <= lower a /\ upper a <= upper b) -> g' = g /\ r = Unchanged).
  { intros (L & H). rewrite merge_below in E; auto; [injection E as <- <-; auto|].
    intros i j Ni Nj. destruct (H i j Ni Nj) as (a & b & Ta & Tb & X & _).
    rewrite timespan_ok in Ta by (auto; unfold node in *; lia). rewrite timespan_ok in Tb by auto.
    injection Ta as <-. injection Tb as <-. auto. }
  split; [split; [|intros X; apply U; auto]|].
  - intros ->. unfold g_merge in E.
    destruct (g_size g <? g_size h) eqn:L.
    + destruct (zip_max (g_data h) (g_data g)) as (d & c). destruct c.
      * apply gp_turns_answer in E as [?|?]; discriminate.
      * discriminate.
    + destruct (zip_max (g_data g) (g_data h)) as (d & c) eqn:Q. destruct c.
      * apply gp_turns_answer in E as [?|?]; discriminate.
      * split; [lia|]. intros i j Ni Nj.
        assert (Z : forall i j, node (g_size h) i -> node (g_size h) j -> cell h i j <= cell g i j).
        { intros a b Na Nb. apply (zip_unchanged (g_data g) (g_data h)) with (n := Z.to_nat (cidx a b)).
          - rewrite Q. auto.
          - apply cell_nth; auto; unfold node in *; lia.
          - apply cell_nth; auto. }
        do 2 eexists. split; [apply timespan_ok; auto; unfold node; lia|].
        split; [apply timespan_ok; auto|]. cbn [lower upper].
        pose proof (Z i j Ni Nj). pose proof (Z j i Nj Ni). lia.
  - intros ->. unfold g_merge in E.
    destruct (g_size g <? g_size h) eqn:L.
    + destruct (zip_max (g_data h) (g_data g)) as (d & c). destruct c.
      * apply gp_turns_answer in E as [?|?]; discriminate.
      * discriminate.
    + destruct (zip_max (g_data g) (g_data h)) as (d & c) eqn:Q. destruct c.
      * apply gp_turns_answer in E as [?|?]; discriminate.
      * rewrite zip_none in Q.
        -- injection Q as <-. injection E as <-. destruct g; auto.
        -- apply zip_unchanged. rewrite Q. auto.
Qed.
(** In the words of the solutions: nothing changes exactly when every solution of the graph is
    one of the argument. *)
(** Partial: the limits of [room] and [history]; [shrink_to_fit] is not used. *)
Theorem C94_implied_partial : forall p N B ks g ks' h, room N B -> history p N B ks g ->
  history p N B ks' h -> calls p false g -> calls p false h ->
  exists g' r, g_merge p g h = Ret (g', r) /\
    (r = Unchanged <-> g_size h <= g_size g /\ forall t, solution p g t -> solution p h t).
Proof.
  intros p N B ks g ks' h R H H' Cg Ch. pose proof (history_inv _ _ _ _ _ R H) as I.
  pose proof (history_inv _ _ _ _ _ R H') as J.
  destruct (merge_cases p N B ks g ks' h R I J) as (g' & r & E & C). exists g', r. split; auto.
  destruct (C94_unchanged p g h g' r Cg Ch E) as (U & Ug). split.
  - intros ->. split; [apply U; auto|]. destruct C as [(A & S & I')|(? & _)]; [|discriminate].
    intros t St. rewrite <- (Ug eq_refl) in St. apply (merged_sat p N B ks g ks' h g' t I J I') in St. tauto.
  - intros (L & X). apply U. split; auto. intros i j Ni Nj.
    pose proof (i_mem _ _ _ _ I) as Mg. pose proof (i_mem _ _ _ _ J) as Mh.
    do 2 eexists. split; [apply timespan_ok; auto; unfold node; lia|].
    split; [apply timespan_ok; auto|]. cbn [lower upper].
    assert (Y : forall a b, node (g_size h) a -> node (g_size h) b -> cell h a b <= cell g a b).
    { intros a b Na Nb.
      destruct (inv_finite _ _ _ _ R J) as (V & _). destruct (inv_finite _ _ _ _ R I) as (Vg & _).
      specialize (V a b Na Nb).
      assert (Na' : node (g_size g) a) by (unfold node in *; lia).
      assert (Nb' : node (g_size g) b) by (unfold node in *; lia).
      specialize (Vg a b Na' Nb').
      destruct (Z.eq_dec (cell h a b) (- oo)) as [->|Nh]; [unfold valid in Vg; lia|].
      assert (T : ent (cell g) a b (cell h a b)).
      { apply (closed_sem (g_size g)); auto; [apply (i_tight _ _ _ _ I)|].
        intros t St. apply (sol_msat p) in St; auto. apply X in St. apply (sol_msat p) in St; auto.
        apply (St a b); auto. unfold ent. unfold valid in V. lia. }
      unfold ent in T. lia. }
    pose proof (Y i j Ni Nj). pose proof (Y j i Nj Ni). lia.
Qed.
Lemma h3_calls : calls Debug false h3.
Proof.
  apply c_extend with (g := h3a) (hint := None) (ks := [k12]) (r := Propagated); [| | |discriminate].
  - apply c_propagate with (g := g_default) (k := k01) (r := Propagated).
    + apply c_new.
    + unfold legal, k01, valid; simpl; unfold oo; lia.
    + vm_compute. reflexivity.
  - constructor; [|constructor]. unfold legal, k12, valid; simpl; unfold oo; lia.
  - vm_compute. reflexivity.
Qed.
Definition k02w : kons := mkK 0 2 false 11 30.
Definition hw : graph := mkG 3 [0; - oo; 0; - oo; - 30; - oo; 0; - oo; 11].
Lemma hw_made : exists g0, g_with_size Debug 3 = Ret g0 /\ g_propagate Debug g0 k02w = Ret (hw, Propagated).
Proof. eexists. split; [vm_compute; reflexivity|]. vm_compute. reflexivity. Qed.
Lemma hw_history : forall N B, 3 <= N -> 30 <= B -> history Debug N B [k02w] hw.
Proof.
  intros N B HN HB. destruct hw_made as (g0 & E0 & E).
  apply h_propagate with (ks := []) (g := g0) (r := Propagated); auto.
  - apply h_new with (n := 3); [lia|auto].
  - unfold good, wf_iv, within, k02w; simpl. unfold oo. lia.
  - unfold g_with_size in E0. vm_compute in E0. injection E0 as <-. unfold inside; simpl. lia.
  - right. reflexivity.
Qed.
Lemma hw_calls : calls Debug false hw.
Proof.
  destruct hw_made as (g0 & E0 & E). apply c_propagate with (g := g0) (k := k02w) (r := Propagated); auto.
  - apply c_resize with (g := g_default) (n := 3); [apply c_new|lia|auto].
  - unfold legal, k02w, valid; simpl; unfold oo; lia.
Qed.
(** The argument bounds less than the graph, and conversely *)
Example C94_unchanged_case : calls Debug false h3 /\ calls Debug false hw /\
  g_merge Debug h3 hw = Ret (h3, Unchanged) /\ g_timespan Debug h3 0 2 = Ret (mkI 12 18) /\
  g_timespan Debug hw 0 2 = Ret (mkI 11 30) /\ g_merge Debug hw h3 = Ret (h3, Propagated).
Proof.
  split; [apply h3_calls|]. split; [apply hw_calls|]. repeat split; vm_compute; reflexivity.
Qed.
Example C94_implied_case : room 3 30 /\ history Debug 3 30 [k12; k01] h3 /\
  history Debug 3 30 [k02w] hw /\ calls Debug false h3 /\ calls Debug false hw /\
  solution Debug h3 (fun i => if i =? 0 then 0 else if i =? 1 then 6 else 13).
Proof.
  split; [apply room30|]. split; [apply h3_history; lia|]. split; [apply hw_history; lia|].
  split; [apply h3_calls|]. split; [apply hw_calls|].
  apply (inv_sat Debug 3 30 [k12; k01]).
  - eapply history_inv; [apply room30|apply h3_history; lia].
  - constructor; [|constructor; [|constructor]]; unfold sat, In_ext; simpl; lia.
Qed.

(** ** Fresh graphs *)

Lemma merge_below_gen : forall p g h, mem_ok g -> exact h -> g_size h <= g_size g ->
  (forall i j, node (g_size h) i -> node (g_size h) j -> cell h i j <= cell g i j) ->
  g_merge p g h = Ret (g, Unchanged).
Proof.
  intros p g h Mg (Mh & Lh & _) L H. unfold g_merge. replace (g_size g <? g_size h) with false by lia.
  rewrite zip_none; [destruct g; auto|].
  intros n x y A B.
  assert (Bn : (n < length (g_data h))%nat) by (apply nth_error_Some; congruence).
  destruct (C36_all_cells_used p (g_size h) (Z.of_nat n)) as (i & j & Ni & Nj & Q); [apply Mh|lia|].
  rewrite (g_idx_ok p (g_size h)) in Q by (auto; apply Mh). injection Q as Q.
  pose proof (cell_nth h i j Mh Ni Nj) as Ch. rewrite Q, Nat2Z.id, B in Ch. injection Ch as ->.
  assert (Ni' : node (g_size g) i) by (unfold node in *; lia).
  assert (Nj' : node (g_size g) j) by (unfold node in *; lia).
  pose proof (cell_nth g i j Mg Ni' Nj') as Cg. rewrite Q, Nat2Z.id, A in Cg. injection Cg as ->. auto.
Qed.

(** A fresh graph adds its instants and no bound: merging it is [resize], from both sides; and nothing
    changes if it has no more instants. *)
(** Partial: the limits of [room] and [history]. *)
Theorem C94_unit_partial : forall p N B ks g n g0, room N B -> history p N B ks g ->
  0 <= n <= N -> g_with_size p n = Ret g0 ->
  exists g1 a r b s, g_resize p g (Z.max (g_size g) n) = Ret g1 /\
    g_merge p g g0 = Ret (a, r) /\ g_merge p g0 g = Ret (b, s) /\
    accepted r /\ accepted s /\ same_bounds p a g1 /\ same_bounds p b g1 /\
    (n <= g_size g -> a = g /\ r = Unchanged).
Proof.
  intros p N B ks g n g0 R H Hn E0. pose proof (history_inv _ _ _ _ _ R H) as I.
  assert (LN : N <= 65535) by apply R. pose proof (i_size _ _ _ _ I) as SN.
  assert (S0 : 0 <= g_size g) by apply I.
  destruct (with_size_inv p N B n LN Hn) as (g0' & E0' & Z0 & J).
  rewrite E0 in E0'. injection E0' as <-.
  destruct (grow_inv p N B ks g (Z.max (g_size g) n) LN I) as (g1 & E1 & S1 & I1 & _); [lia|].
  destruct (merge_cases p N B ks g [] g0 R I J) as (a & r & Ea & Ca).
  destruct (merge_cases p N B [] g0 ks g R J I) as (b & s & Eb & Cb).
  destruct (inv_consistent p N B ks g I) as (t & St).
  assert (S0t : solution p g0 t) by (apply (inv_sat p N B [] g0 t J); constructor).
  exists g1, a, r, b, s. split; auto. split; auto. split; auto.
  destruct Ca as [(A & Sa & Ia)|(_ & F)]; [|destruct (F t); auto].
  destruct Cb as [(A' & Sb & Ib)|(_ & F)]; [|destruct (F t); auto].
  split; auto. split; auto. split; [|split].
  - apply (inv_same p N B _ a N B _ g1 R R Ia I1); [lia|]. intros u. rewrite app_nil_r. tauto.
  - apply (inv_same p N B _ b N B _ g1 R R Ib I1); [lia|]. intros u. tauto.
  - intros L. rewrite merge_below_gen in Ea; [injection Ea as <- <-; auto|apply I| |lia|].
    + apply (calls_exact p). apply c_resize with (g := g_default) (n := n); [apply c_new|lia|auto].
    + intros i j Ni Nj. assert (Ni' : node (g_size g) i) by (unfold node in *; lia).
      assert (Nj' : node (g_size g) j) by (unfold node in *; lia).
      destruct (inv_finite _ _ _ _ R I) as (V & _). specialize (V i j Ni' Nj').
      destruct (Z.eq_dec i j) as [<-|D].
      * assert (X : cell g0 i i = 0) by (apply (i_tight _ _ _ _ J); auto).
        assert (Y : cell g i i = 0) by (apply (i_tight _ _ _ _ I); auto). lia.
      * unfold g_with_size in E0.
        destruct (resize_ok p g_default n) as (g2 & E2 & _ & _ & _ & _ & _ & O); [simpl; lia|lia|].
        rewrite E0 in E2. injection E2 as <-. rewrite O by (rewrite <- ?Z0; auto).
        cut (cell g_default i j = - oo). { intros ->. unfold valid in V. lia. }
        apply nth_overflow. simpl. lia.
Qed.
Example C94_unit_case : room 5 10 /\ history Debug 5 10 [k01] h3a /\
  exists g0 a, g_with_size Debug 3 = Ret g0 /\ g_merge Debug h3a g0 = Ret (a, Propagated) /\
    g_resize Debug h3a 3 = Ret a /\ g_merge Debug h3a g_default = Ret (h3a, Unchanged).
Proof.
  split; [unfold room, oo; lia|]. split; [apply h3a_history; lia|].
  eexists _, _. split; [vm_compute; reflexivity|]. split; [vm_compute; reflexivity|].
  split; vm_compute; reflexivity.
Qed.

(** ** [merge] and [extend] *)

Lemma inv_mono : forall N B B' ks g, inv N B ks g -> B <= B' -> inv N B' ks g.
Proof.
  intros N B B' ks g I L. constructor; try apply I.
  eapply Forall_impl; [|apply (i_good _ _ _ _ I)]. intros k. unfold good, within. intuition lia.
Qed.

(** Merging a graph that has no more instants is to extend with the constraints that its iterator gives:
    the same acceptance and the same bounds. *)
(** Partial: the limits of [room] and [history], with the margin taken for the bounds the iterator gives,
    which are sums of up to [N] given bounds. *)
Theorem C94_extend_partial : forall p N B ks g ks' h, room N ((N + 1) * B) -> 0 <= B -> history p N B ks g ->
  history p N B ks' h -> g_size h <= g_size g ->
  exists l its hint a r b s, g_iter p h = Ret l /\ items p h l = Ret its /\
    citer_hint p h citer_init = Ret (0, Some hint) /\
    g_merge p g h = Ret (a, r) /\ g_extend p g (Some hint) its = Ret (b, s) /\
    (accepted r <-> accepted s) /\ (accepted r -> same_bounds p a b).
Proof.
  intros p N B ks g ks' h RR HB Hg Hh SL.
  assert (R : room N B).
  { destruct RR as (_ & HN & HR). assert (B <= (N + 1) * B) by nia.
    assert (4 * (N + 1) * B <= 4 * (N + 1) * ((N + 1) * B)) by (apply Z.mul_le_mono_nonneg_l; lia).
    unfold room. lia. }
  pose proof (history_inv _ _ _ _ _ R Hg) as I. pose proof (history_inv _ _ _ _ _ R Hh) as J.
  pose proof (i_mem _ _ _ _ J) as M. pose proof M as ((S0 & S1) & _). pose proof (i_size _ _ _ _ J) as SN.
  assert (St : stored h) by (apply stored_mem; auto).
  destruct (C47_exact p h St) as (l & E & Hl & _).
  destruct (C47_items p h l St E) as (its & Ei & Li & Hi).
  destruct (C47_hint p h [] citer_init St) as (hint & rest & Eh & E' & Lh); [constructor|].
  rewrite E in E'. injection E' as E'. simpl in E'. subst rest.
  pose proof R as (_ & HN & _).
  set (B' := (N + 1) * B).
  assert (HB' : B <= B') by (unfold B'; nia).
  assert (R' : room N B') by exact RR.
  pose proof (inv_mono N B B' ks g I HB') as I0.
  pose proof (inv_bnd _ _ _ _ R J) as Bd. pose proof (inv_finite _ _ _ _ R J) as (V & Bo).
  assert (G : Forall (good N B') its).
  { apply Forall_forall. intros k Hk. apply Hi in Hk.
    destruct Hk as (Lk & (Nf & Nt & _) & Ek & Tk). rewrite timespan_ok in Tk by auto.
    injection Tk as T1 T2. split; auto. rewrite <- T1, <- T2.
    pose proof (V _ _ Nf Nt) as V1. pose proof (V _ _ Nt Nf) as V2.
    pose proof (Bo _ _ Nf Nt) as B1. pose proof (Bo _ _ Nt Nf) as B2.
    pose proof (Bd _ _ Nf Nt) as D1. pose proof (Bd _ _ Nt Nf) as D2.
    assert (X : cell h (k_from k) (k_to k) + cell h (k_to k) (k_from k) <= 0 \/
                cell h (k_from k) (k_to k) = - oo \/ cell h (k_to k) (k_from k) = - oo).
    { destruct (inv_consistent p N B ks' h J) as (t & S). rewrite sol_msat in S by auto.
      pose proof (S _ _ (cell h (k_from k) (k_to k)) Nf Nt) as X1.
      pose proof (S _ _ (cell h (k_to k) (k_from k)) Nt Nf) as X2. unfold ent in *. lia. }
    assert ((g_size h - 1) * B <= B') by (apply Z.mul_le_mono_nonneg_r; lia).
    split; [unfold wf_iv, valid in *; simpl; lia|]. split; [lia|]. split; [lia|].
    unfold within, bnd in *. split; lia. }
  assert (Ins : Forall (inside g) its).
  { apply Forall_forall. intros k Hk. apply Hi in Hk.
    destruct Hk as (Lk & (Nf & Nt & _) & _). unfold inside. lia. }
  destruct (extend_any p N B' ks g (Some hint) its R' I0 G) as (b & s & Ee & C).
  { simpl. rewrite Li. auto. } { auto. }
  destruct (merge_cases p N B ks g ks' h R I J) as (a & r & Ea & Ca).
  exists l, its, hint, a, r, b, s. do 5 (split; [auto|]).
  assert (D0 : forall i, node (g_size h) i -> cell h i i = 0) by apply (i_tight _ _ _ _ J).
  assert (X : forall t, solution p h t <-> Forall (fun k => sat k t) its).
  { intros t. rewrite sol_msat by auto. apply (items_sat p); auto. }
  assert (Sg : forall t, msat (g_size g) (cell g) t <-> solution p g t).
  { intros t. rewrite sol_msat by apply I. tauto. }
  assert (Dec : accepted s \/ (~ accepted s /\ forall t, ~ (solution p g t /\ solution p h t))).
  { destruct C as [(A & _)|[(_ & -> & _ & F)|(-> & _ & F)]]; auto; right.
    - split; [intros [?|?]; discriminate|]. intros t (X1 & X2). apply (F t). split; [apply Sg; auto|apply X; auto].
    - split; [intros [?|?]; discriminate|]. intros t (X1 & X2). apply (F t). split; [apply Sg; auto|apply X; auto]. }
  destruct Ca as [(A & Sz & Ia)|(-> & F)].
  - assert (NF : ~ forall t, ~ (solution p g t /\ solution p h t)).
    { intros F. destruct (inv_consistent p N B _ a Ia) as (t & S).
      apply (merged_sat p N B ks g ks' h a t I J Ia) in S. apply (F t S). }
    destruct Dec as [A'|(_ & F)]; [|destruct (NF F)].
    split; [tauto|]. intros _.
    destruct C as [(_ & Sb & Ib & _)|[(_ & -> & _)|(-> & _)]];
      [|destruct A'; discriminate|destruct A'; discriminate].
    apply (inv_same p N B _ a N B' _ b R R' Ia Ib).
    + rewrite Sz, Sb. rewrite Z.max_l by lia. apply Z.le_antisymm; [apply ksize_ge|].
      apply ksize_le; [lia|]. intros k Hk. rewrite Forall_forall in Ins. apply Ins. auto.
    + intros t. rewrite !Forall_app. rewrite <- X. rewrite <- (inv_sat p N B ks' h t J). tauto.
  - split; [|intros [?|?]; discriminate]. split; [intros [?|?]; discriminate|]. intros A'.
    destruct C as [(_ & Sb & Ib & Q)|[(_ & -> & _)|(-> & _)]];
      [|destruct A'; discriminate|destruct A'; discriminate].
    destruct (inv_consistent p N B' _ b Ib) as (t & S). apply sol_msat in S; [|apply Ib].
    apply Q in S. destruct S as (S & S'). destruct (F t). split; [apply Sg; auto|apply X; auto].
Qed.
Example C94_extend_case : room 3 ((3 + 1) * 30) /\ 0 <= 30 /\ history Debug 3 30 [k12; k01] h3 /\
  history Debug 3 30 [k02] h2 /\ g_size h2 <= g_size h3 /\
  g_merge Debug h3 h2 = Ret (m3, Propagated) /\ g_extend Debug h3 (Some 4) [k02] = Ret (m3, Propagated).
Proof.
  split; [unfold room, oo; lia|]. split; [lia|]. split; [apply h3_history; lia|]. split; [apply h2_history; lia|].
  split; [simpl; lia|]. split; vm_compute; reflexivity.
Qed.
