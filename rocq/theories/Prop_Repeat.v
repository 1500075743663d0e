(** C82: repeating an accepted call changes nothing. *)
From Verif Require Import Machine TimeValue Spec Tac TimeValueProofs Interval Iter TimeSet Relns
  Transl SpecSets SetProofs CollectProofs Prop_Interval SetOpsProofs Prop_TimeSet Prop_Transl SchedSets
  Graph MaxPlus GraphProofs GraphOps GraphGrow GraphSafe GraphMem GraphHist SpecGraph GraphInv GraphCalls
  GraphIter Prop_Graph Prop_GraphIter Prop_Propagation Scheduler SpecSched SchedProofs Prop_Scheduler
  Prop_SchedConvex.

(** ** Graphs *)

Lemma holds_unchanged : forall p g k, mem_ok g -> k_empty k = false ->
  node (g_size g) (k_from k) -> node (g_size g) (k_to k) -> holds_in (cell g) k ->
  g_propagate p g k = Ret (g, Unchanged).
Proof.
  intros p g k M Ek Nf Nt (H1 & H2). unfold g_propagate. rewrite Ek. cbv zeta. unfold node in *.
  replace (g_size g <=? Z.max (k_from k) (k_to k)) with false by lia.
  rewrite !g_lower_ok by (unfold node; auto). cbn [bind]. unfold tv_neg.
  replace (k_lo k <=? _) with true by lia. replace (- k_up k <=? _) with true by lia. auto.
Qed.

(** [propagate]: after it was accepted the same constraint is [Unchanged], and after it was refused
    it is refused again.  Any graph, constraints of any magnitude; the only exception is a
    constraint between a new instant and itself. *)
Theorem C82_propagate : forall p g k g' r, calls p false g -> legal k -> k_from k <> k_to k \/ inside g k ->
  g_propagate p g k = Ret (g', r) ->
  g_propagate p g' k = Ret (g', match r with Propagated => Unchanged | _ => r end).
Proof.
  intros p g k g' r C Lk D E. pose proof (calls_exact p g C) as X. pose proof X as (M & Ln & V).
  destruct (k_empty k) eqn:Ek.
  { unfold g_propagate in E |- *. rewrite Ek in *. injection E as <- <-. auto. }
  pose proof Lk as (Lf & Lt & _).
  destruct (Z_lt_le_dec (Z.max (k_from k) (k_to k)) (g_size g)) as [Hin|Hout].
  - assert (Nf : node (g_size g) (k_from k)) by (unfold node; lia).
    assert (Nt : node (g_size g) (k_to k)) by (unfold node; lia).
    pose proof (propagate_safe p g k M V Lk Nf Nt) as S. rewrite E in S. cbn [safe snd fst] in S.
    destruct r; [destruct S as (-> & S)|destruct S as (S & R)|subst g'|destruct S].
    + apply holds_unchanged; auto.
    + destruct (raised_mem _ _ _ R M) as (M' & Z'). apply holds_unchanged; auto; rewrite Z'; auto.
    + auto.
  - destruct (propagate_new p g k M (exact_clean _ X) Lk Ek Hout) as (g2 & E2 & S2 & M2 & _ & g1 & _ & _ & H).
    rewrite E in E2. injection E2 as <- ->.
    assert (Nf : node (Z.max (k_from k) (k_to k) + 1) (k_from k)) by (unfold node; lia).
    assert (Nt : node (Z.max (k_from k) (k_to k) + 1) (k_to k)) by (unfold node; lia).
    apply holds_unchanged; auto; rewrite ?S2; auto.
    destruct D as [D|(D1 & D2)]; [|lia].
    split; rewrite H by auto; rewrite !Z.eqb_refl; cbn [andb]; [|lia].
    replace (k_from k =? k_to k) with false by lia. cbn [andb]. lia.
Qed.
Example C82_propagate_case :
  calls Debug false gq /\ legal (mkK 0 2 false 0 20) /\ inside gq (mkK 0 2 false 0 20) /\
  exists g', g_propagate Debug gq (mkK 0 2 false 0 20) = Ret (g', Propagated) /\ g' <> gq /\
    g_propagate Debug g' (mkK 0 2 false 0 20) = Ret (g', Unchanged).
Proof.
  split; [exact gq_calls|]. split; [unfold legal, valid, oo; simpl; lia|]. split; [unfold inside; simpl; lia|].
  eexists. split; [reflexivity|]. split; [discriminate|reflexivity].
Qed.
(** The exception: 5 <= t0-t0 <= 8, which no date satisfies, is accepted by the empty graph; the same
    call again is accepted too and changes the graph. *)
Theorem C82_loop_refuted : exists k g' g'', legal k /\ k_empty k = false /\
  g_propagate Debug g_default k = Ret (g', Propagated) /\
  g_propagate Debug g' k = Ret (g'', Propagated) /\ g'' <> g'.
Proof.
  exists (mkK 0 0 false 5 8), (mkG 1 [-8]), (mkG 1 [20]).
  split; [unfold legal, valid, oo; simpl; lia|]. repeat split. discriminate.
Qed.

Lemma zip_none : forall a b, (forall n x y, nth_error a n = Some x -> nth_error b n = Some y -> y <= x) ->
  zip_max a b = (a, false).
Proof.
  induction a as [|x a IH]; intros [|y b] H; simpl; auto.
  rewrite IH by (intros n; apply (H (S n))). replace (x <? y) with false; auto.
  specialize (H O x y eq_refl eq_refl). lia.
Qed.
Lemma zip_le : forall a b n x, nth_error a n = Some x -> exists z, nth_error (fst (zip_max a b)) n = Some z /\ x <= z.
Proof.
  induction a as [|x a IH]; intros [|y b] [|n] z E; try discriminate; simpl in *.
  - exists z. split; auto; lia.
  - exists z. split; auto; lia.
  - injection E as <-. destruct (zip_max a b) as (m & c). destruct (x <? y) eqn:T; eexists; (split; [reflexivity|lia]).
  - destruct (IH b n z E) as (v & F & L). destruct (zip_max a b) as (m & c). destruct (x <? y); exists v; auto.
Qed.

(** A graph merged with itself: any graph. *)
Theorem C82_merge_self : forall p g, g_merge p g g = Ret (g, Unchanged).
Proof.
  intros p g. unfold g_merge. rewrite Z.ltb_irrefl. rewrite zip_none.
  - destruct g; auto.
  - intros n x y A B. rewrite A in B. injection B as ->. lia.
Qed.

Lemma merged_above : forall p g h g' r, exact g -> exact h -> g_merge p g h = Ret (g', r) -> accepted r ->
  exact g' /\ g_size g' = Z.max (g_size g) (g_size h) /\
  (forall i j, node (g_size g) i -> node (g_size g) j -> cell g i j <= cell g' i j) /\
  (forall i j, node (g_size h) i -> node (g_size h) j -> cell h i j <= cell g' i j).
Proof.
  intros p g h g' r Xg Xh E A.
  assert (NF : r <> Fatal) by (destruct A as [-> | ->]; discriminate).
  split; [apply (merge_exact p g h g' r); auto|].
  destruct (merged_ok g h Xg Xh) as (X & Sz & _).
  assert (Up : g_size g' = g_size (merged g h) /\
    forall i j, node (g_size (merged g h)) i -> node (g_size (merged g h)) j -> cell (merged g h) i j <= cell g' i j).
  { rewrite merge_unfold in E. destruct (snd _).
    - pose proof (global_safe (fun t => msat (g_size (merged g h)) (cell (merged g h)) t) p (merged g h)) as S.
      rewrite E in S. cbn [safe snd fst] in S. destruct X as (MX & _ & VX).
      destruct (S MX VX ltac:(auto)) as [(_ & R)|(-> & _)]; [|congruence].
      split; [apply R|]. apply R.
    - injection E as <- <-. split; auto. intros. lia. }
  destruct Up as (S' & Up). rewrite S', Sz. split; auto. rewrite Sz in Up.
  pose proof Xg as (Mg & _). pose proof Xh as (Mh & _).
  assert (C : forall i j, node (Z.max (g_size g) (g_size h)) i -> node (Z.max (g_size g) (g_size h)) j ->
    (node (g_size g) i -> node (g_size g) j -> cell g i j <= cell (merged g h) i j) /\
    (node (g_size h) i -> node (g_size h) j -> cell h i j <= cell (merged g h) i j)).
  { intros i j Ni Nj. unfold merged. destruct (g_size g <? g_size h) eqn:T.
    - rewrite zip_cells by (auto; unfold node in *; lia). unfold node.
      destruct ((i <? g_size g) && (j <? g_size g)) eqn:B; split; intros; lia.
    - rewrite zip_cells by (auto; unfold node in *; lia). unfold node.
      destruct ((i <? g_size h) && (j <? g_size h)) eqn:B; split; intros; lia. }
  split; intros i j Ni Nj; (etransitivity; [|apply Up]); try (unfold node in *; lia);
    apply (C i j); auto; unfold node in *; lia.
Qed.
Lemma merge_below : forall p g h, exact g -> exact h -> g_size h <= g_size g ->
  (forall i j, node (g_size h) i -> node (g_size h) j -> cell h i j <= cell g i j) ->
  g_merge p g h = Ret (g, Unchanged).
Proof.
  intros p g h (Mg & Lg & _) (Mh & Lh & _) L H. unfold g_merge. replace (g_size g <? g_size h) with false by lia.
  rewrite zip_none; [destruct g; auto|].
  intros n x y A B.
  assert (Bn : (n < length (g_data h))%nat) by (apply nth_error_Some; congruence).
  destruct (C36_all_cells_used p (g_size h) (Z.of_nat n)) as (i & j & Ni & Nj & Q); [apply Mh|lia|].
  rewrite (g_idx_ok p (g_size h)) in Q by (auto; apply Mh). injection Q as Q.
  pose proof (cell_nth h i j Mh Ni Nj) as Ch. rewrite Q, Nat2Z.id, B in Ch. injection Ch as ->.
  assert (Ni' : node (g_size g) i) by (unfold node in *; lia).
  assert (Nj' : node (g_size g) j) by (unfold node in *; lia).
  pose proof (cell_nth g i j Mg Ni' Nj') as Cg. rewrite Q, Nat2Z.id, A in Cg. injection Cg as ->. auto.
Qed.

(** After an accepted [merge], merging any of both graphs again is [Unchanged]: any graphs, bounds of
    any magnitude. *)
Theorem C82_merge : forall p g h g' r, calls p false g -> calls p false h ->
  g_merge p g h = Ret (g', r) -> accepted r ->
  g_merge p g' h = Ret (g', Unchanged) /\ g_merge p g' g = Ret (g', Unchanged).
Proof.
  intros p g h g' r Cg Ch E A. apply calls_exact in Cg. apply calls_exact in Ch.
  destruct (merged_above p g h g' r Cg Ch E A) as (X & S & Hg & Hh).
  split; apply merge_below; auto; lia.
Qed.

(** [extend]: the same constraints again are accepted and do not change the bounds. *)
(** Partial: the limits of [room] and [history]; the answer is [Propagated], not [Unchanged]. *)
Theorem C82_extend_partial : forall p N B ks g hint l g' r, room N B -> history p N B ks g ->
  Forall (good N B) l -> honest hint l -> (hint = Some 1 -> Forall (inside g) l) ->
  g_extend p g hint l = Ret (g', r) -> accepted r ->
  exists g'' r', g_extend p g' hint l = Ret (g'', r') /\ accepted r' /\
    (g_size g'' = g_size g' -> same_bounds p g' g'').
Proof.
  intros p N B ks g hint l g' r R H F Ho I E A.
  pose proof (h_extend p N B ks g hint l g' r H F Ho I E A) as H'.
  assert (I' : hint = Some 1 -> Forall (inside g') l).
  { intros Hh. specialize (I Hh). subst hint. destruct l as [|k l]; auto.
    cbn in Ho. destruct l; [|cbn [length] in Ho; lia]. cbn in E. constructor; auto.
    inversion I as [|? ? (I1 & I2) _]; subst. inversion F as [|? ? G _]; subst.
    pose proof (history_inv _ _ _ _ _ R H) as Iv.
    pose proof (propagate_safe p g k (i_mem _ _ _ _ Iv)) as S.
    destruct (inv_finite _ _ _ _ R Iv) as (V & _).
    destruct G as (G1 & G2 & G3 & G4 & G5 & G6). destruct R as (R1 & R2 & _).
    unfold wf_iv in G2. cbn [lower upper] in G2.
    specialize (S V ltac:(unfold kvalid, valid; repeat split; lia) ltac:(unfold node; lia) ltac:(unfold node; lia)).
    rewrite E in S. cbn [safe snd fst] in S.
    destruct r; [destruct S as (-> & _); split; auto|destruct S as (_ & S)|subst g'; split; auto|destruct S].
    destruct (ra_shape _ _ _ S) as (Z' & _). split; rewrite Z'; auto. }
  destruct (C44_extend_partial p N B (l ++ ks) g' hint l R H' F Ho I') as (g2 & r2 & E2 & Q & _).
  exists g2, r2. split; auto.
  assert (A2 : accepted r2).
  { apply Q. destruct (C40_solutions_partial p N B (l ++ ks) g' (fun _ => 0) R H') as (_ & _ & t & T).
    exists t. split; auto. apply (C40_solutions_partial p N B (l ++ ks) g' t R H') in T.
    apply Forall_app in T. apply T. }
  split; auto. intros Z. apply (C43_sets_partial p N B (l ++ ks) g' (l ++ l ++ ks) g2); auto.
  - eapply h_extend; eauto.
  - intros k. rewrite !in_app_iff. tauto.
Qed.
Example C82_extend_case : exists g' r', g_extend Debug h3 None [mkK 0 2 false 13 15] = Ret (g', r') /\ accepted r' /\
  g_extend Debug g' None [mkK 0 2 false 13 15] = Ret (g', Propagated) /\
  g_merge Debug h3 g' = Ret (g', Propagated) /\ g_merge Debug g' h3 = Ret (g', Unchanged).
Proof. eexists. eexists. split; [reflexivity|]. split; [right; reflexivity|]. repeat split. Qed.

(** ** Schedulers *)

(** The pieces are between [a] and [b]. *)
Definition inbox (a b : Z) (l : tset) : Prop := forall k, In k l -> a <= lower k /\ upper k <= b.
(** Every piece of [l'] is inside a piece of [l]. *)
Definition inpieces (l' l : tset) : Prop :=
  forall k, In k l' -> exists m, In m l /\ lower m <= lower k /\ upper k <= upper m.

Lemma inpieces_refl l : inpieces l l.
Proof. intros k H. exists k. split; auto. lia. Qed.
Lemma inpieces_trans a b c : inpieces a b -> inpieces b c -> inpieces a c.
Proof.
  intros H K k Hk. destruct (H k Hk) as (m & Hm & H1 & H2). destruct (K m Hm) as (n & Hn & K1 & K2).
  exists n. split; auto. lia.
Qed.
Lemma inpieces_box a b l' l : inpieces l' l -> inbox a b l -> inbox a b l'.
Proof. intros H B k Hk. destruct (H k Hk) as (m & Hm & H1 & H2). specialize (B m Hm). lia. Qed.
Lemma box_contains c l : valid_cx c -> inbox (cx_lower c) (cx_upper c) l -> w_contains (WCx c) l = true.
Proof.
  intros V B. cbn [w_contains]. unfold cx_contains. cbn [w_lower w_upper].
  assert (valid (cx_lower c) /\ valid (cx_upper c)) as [Vl Vu] by (clear - V; destruct c; iv; tests; lia).
  assert (L : cx_lower c <= set_lower l).
  { destruct l as [|i r]; cbn [set_lower]; [unfold valid, oo, INF, i64_max in *; lia|]. apply (B i). left. auto. }
  assert (U : set_upper l <= cx_upper c).
  { unfold set_upper. destruct (last_opt l) as [i|] eqn:E; [|unfold valid, oo, INF, i64_max in *; lia].
    apply (B i). apply last_opt_Some in E. rewrite E. apply in_or_app. right. left. auto. }
  lia.
Qed.

Lemma contains_box B c l : near_from B l -> valid_cx c -> w_contains (WCx c) l = true -> inbox (cx_lower c) (cx_upper c) l.
Proof.
  intros N _ C k Hk. cbn [w_contains] in C. unfold cx_contains in C. cbn [w_lower w_upper] in C.
  assert (Lo : set_lower l <= lower k).
  { destruct l as [|i r]; [destruct Hk|]. cbn [set_lower]. destruct N as (_ & W & N).
    destruct Hk as [<-|Hk]; [lia|]. destruct (near_from_In _ _ _ N Hk). unfold near in W. lia. }
  assert (Up : upper k <= set_upper l).
  { unfold set_upper. destruct (last_opt l) as [i|] eqn:E; [|apply last_opt_None in E; subst; destruct Hk].
    apply last_opt_Some in E. rewrite E in N, Hk. destruct (near_app_inv _ _ _ N) as (_ & q & _ & N2 & U).
    apply in_app_or in Hk as [Hk|[<-|[]]]; [|lia]. apply U in Hk. destruct N2 as (L2 & W2 & _). unfold near in W2. lia. }
  lia.
Qed.

Lemma after_box B l t : near_from B l -> - oo < t ->
  forall k, In k (fst (set_truncate_after l t)) -> upper k <= t.
Proof.
  intros C Lt. unfold set_truncate_after.
  pose proof (rposition_spec (fun i => lower i <=? t) l) as P.
  destruct (rposition (fun i => lower i <=? t) l) as [n|].
  - destruct P as (a & i & b & -> & <- & Hi & Fb).
    destruct (near_app_inv _ _ _ C) as (Ca & c & Lc & Cb & U). destruct Cb as (Lci & W & Cb').
    assert (T : upper (fst (iv_truncate_after i t)) <= t).
    { unfold iv_truncate_after. destruct (upper i <=? t) eqn:E1; [cbn; lia|].
      destruct (t <? lower i) eqn:E2; [lia|]. cbn. lia. }
    assert (Q : forall k, In k (a ++ [fst (iv_truncate_after i t)]) -> upper k <= t).
    { intros k H. apply in_app_or in H as [H|[<-|[]]]; auto. apply U in H. lia. }
    rewrite app_length. cbn [length].
    destruct (Nat.eqb (length a + 1) (length a + S (length b))) eqn:E.
    + assert (b = []) by (destruct b; auto; apply Nat.eqb_eq in E; cbn in E; lia). subst b.
      rewrite update_at_app. cbn [fst snd]. auto.
    + rewrite firstn_app_len, update_at_app. cbn [fst snd]. auto.
  - destruct l; cbn; tauto.
Qed.
Lemma before_box B l t u : near_from B l -> (forall k, In k l -> upper k <= u) ->
  inbox t u (fst (set_truncate_before l t)).
Proof.
  intros C Hu. unfold set_truncate_before.
  pose proof (position_spec (fun i => t <=? upper i) l) as P.
  destruct (position (fun i => t <=? upper i) l) as [n|].
  - destruct P as (a & i & b & -> & <- & Hi & Fa).
    destruct (near_app_inv _ _ _ C) as (Ca & c & Lc & Cb & U). destruct Cb as (Lci & W & Cb').
    assert (T : t <= lower (fst (iv_truncate_before i t)) /\ upper (fst (iv_truncate_before i t)) = upper i).
    { unfold iv_truncate_before. destruct (t <=? lower i) eqn:E1; [cbn; lia|].
      destruct (upper i <? t) eqn:E2; [lia|]. cbn. lia. }
    assert (Q : inbox t u (fst (iv_truncate_before i t) :: b)).
    { intros k [<-|H].
      - specialize (Hu i ltac:(apply in_or_app; right; left; auto)). lia.
      - specialize (Hu k ltac:(apply in_or_app; right; right; auto)).
        destruct (near_from_In _ _ _ Cb' H). lia. }
    destruct a as [|k a].
    + cbn [length app]. destruct (iv_truncate_before i t) as [i' s]; cbn [fst snd] in *. auto.
    + cbn [length]. change (S (length a)) with (length (k :: a)). rewrite skipn_app_len.
      cbn [update_at fst snd]. auto.
  - destruct l; cbn; intros k [].
Qed.
Lemma and_box s c : nset s -> window_ok (WCx c) -> inbox (cx_lower c) (cx_upper c) (set_and_assign s c).
Proof.
  intros N (V & H). unfold set_and_assign.
  assert (valid (cx_lower c) /\ valid (cx_upper c)) as [Vl Vu] by (clear - V; destruct c; iv; tests; lia).
  destruct H as [(Hl & Hu)|(El & Eu)].
  - eapply before_box; [eapply n_truncate_after; eauto|]. eapply after_box; eauto.
  - rewrite El, Eu, n_truncate_empty by auto. intros k [].
Qed.

Lemma after_pieces B l t : near_from B l -> inpieces (fst (set_truncate_after l t)) l.
Proof.
  intros C. unfold set_truncate_after.
  pose proof (rposition_spec (fun i => lower i <=? t) l) as P.
  destruct (rposition (fun i => lower i <=? t) l) as [n|]; [|destruct l; cbn; intros k []].
  destruct P as (a & i & b & -> & <- & Hi & Fb).
  assert (Q : inpieces (a ++ [fst (iv_truncate_after i t)]) (a ++ i :: b)).
  { intros k H. apply in_app_or in H as [H|[<-|[]]].
    - exists k. split; [apply in_or_app; auto|lia].
    - exists i. split; [apply in_or_app; right; left; auto|]. unfold iv_truncate_after.
      destruct (upper i <=? t) eqn:E1; [cbn; lia|]. destruct (t <? lower i) eqn:E2; [lia|]. cbn. lia. }
  rewrite app_length. cbn [length].
  destruct (Nat.eqb (length a + 1) (length a + S (length b))) eqn:E.
  - assert (b = []) by (destruct b; auto; apply Nat.eqb_eq in E; cbn in E; lia). subst b.
    rewrite update_at_app. cbn [fst snd]. auto.
  - rewrite firstn_app_len, update_at_app. cbn [fst snd]. auto.
Qed.
Lemma before_pieces l t : inpieces (fst (set_truncate_before l t)) l.
Proof.
  unfold set_truncate_before.
  pose proof (position_spec (fun i => t <=? upper i) l) as P.
  destruct (position (fun i => t <=? upper i) l) as [n|]; [|destruct l; cbn; intros k []].
  destruct P as (a & i & b & -> & <- & Hi & Fa).
  assert (Q : inpieces (fst (iv_truncate_before i t) :: b) (a ++ i :: b)).
  { intros k [<-|H].
    - exists i. split; [apply in_or_app; right; left; auto|]. unfold iv_truncate_before.
      destruct (t <=? lower i) eqn:E1; [cbn; lia|]. destruct (upper i <? t) eqn:E2; [lia|]. cbn. lia.
    - exists k. split; [apply in_or_app; right; right; auto|lia]. }
  destruct a as [|k a].
  - cbn [length app] in *. destruct (iv_truncate_before i t) as [i' s]; cbn [fst snd] in *. auto.
  - cbn [length]. change (S (length a)) with (length (k :: a)). rewrite skipn_app_len.
    cbn [update_at fst snd]. auto.
Qed.
Lemma and_pieces s c : nset s -> inpieces (set_and_assign s c) s.
Proof.
  intros N. unfold set_and_assign. eapply inpieces_trans; [apply before_pieces|]. eapply after_pieces; eauto.
Qed.

Lemma step_pieces p g i j l l' : mem_ok g -> prop g -> nslots g l -> node (g_size g) i -> node (g_size g) j ->
  sc_step p g i l (i, j) = Ret l' -> nslots g l' /\ forall m, 0 <= m -> inpieces (sl l' m) (sl l m).
Proof.
  intros M P NS Ni Nj E.
  destruct (step_ok p g i j l M P NS Ni Nj) as [(_ & E')|(l2 & E' & N' & O & _)]; [congruence|].
  rewrite E in E'. injection E' as <-. split; auto. intros m Hm.
  destruct (Z.eq_dec m j) as [->|Nm]; [|rewrite O by auto; apply inpieces_refl].
  destruct NS as (Ln & N). revert E. unfold sc_step. cbn [fst snd].
  rewrite k_graph_ok by auto. cbn [bind]. rewrite !slot_get_ok by (unfold node in *; lia). cbn [bind].
  unfold k_span. cbn [k_lo k_up]. fold (spn g i j). fold (sl l i) (sl l j).
  destruct (n_add_span p (sl l i) (spn g i j) low) as [(_ & -> & _)|(tr & -> & C & D)];
    [apply N; auto|apply P; auto|discriminate|].
  cbn [bind]. pose proof (nset_canonical _ C) as Nt.
  rewrite (n_inter_list_caps (sl l j) tr low low) by (auto; apply N; auto). cbn [bind].
  assert (Nr : nset (all_caps (sl l j) tr)) by (eapply n_all_caps_near; [apply N|apply Nt]; auto).
  rewrite (n_from_iter low) by auto. cbn [bind].
  destruct (slot_set_ok l j (all_caps (sl l j) tr)) as (l2 & -> & Ll & Ej & Eo); [unfold node in *; lia|].
  intros E. injection E as <-. unfold sl at 1. rewrite Ej. intros k Hk. apply all_caps_In in Hk.
  destruct Hk as (a & b & Ha & _ & _ & ->). exists a. split; auto. unfold cap. cbn [lower upper]. lia.
Qed.
Lemma propagate_pieces p g i l l' : mem_ok g -> prop g -> node (g_size g) i -> nslots g l ->
  sc_propagate p g l i = Ret l' -> forall m, 0 <= m -> inpieces (sl l' m) (sl l m).
Proof.
  intros M P Ni N. unfold sc_propagate. destruct (debug_assert _ _) as [[]| | |]; cbn [bind]; try discriminate.
  destruct (from_ok p g i M) as (js & -> & Hj & _); [auto|]. cbn [bind].
  assert (H : forall a, In a (map (fun b => (i, b)) (0 :: js)) -> fst a = i /\ node (g_size g) (snd a)).
  { intros q Ha. apply in_map_iff in Ha as (b & <- & Hb). cbn [fst snd]. split; auto.
    destruct Hb as [<-|Hb]; [unfold node in *; lia|]. apply Hj in Hb. unfold node. lia. }
  revert l N. revert H. generalize (map (fun b => (i, b)) (0 :: js)).
  intros ks. induction ks as [|(a & j) ks IH]; intros H l N E m Hm.
  - injection E as <-. apply inpieces_refl.
  - destruct (H (a, j) (or_introl eq_refl)) as (Ea & Nj). cbn [fst snd] in Ea, Nj. subst a. cbn [ofold] in E.
    destruct (sc_step p g i l (i, j)) as [l1| | |] eqn:E1; cbn [bind] in E; try discriminate.
    destruct (step_pieces p g i j l l1 M P N Ni Nj E1) as (N1 & S1).
    eapply inpieces_trans; [|apply S1; auto]. apply IH; auto. intros b Hb. apply H. right. auto.
Qed.

(** One [retain] with an interval: the slot of the instant is inside the interval afterwards, and no
    slot gets a piece outside of its former ones. *)
Lemma retain_box p g s i c s' r : mem_ok g -> prop g -> sinv g s -> 0 <= i -> window_ok (WCx c) ->
  sc_retain p s i (WCx c) = Ret (s', r) -> accepted r ->
  sinv g s' /\ i < g_size g /\ w_contains (WCx c) (sl (sc_slots s') i) = true /\
  forall m, 0 <= m -> inpieces (sl (sc_slots s') m) (sl (sc_slots s) m).
Proof.
  intros M P I Hi W E A. destruct (retain_inv p g s i _ s' r M P I Hi W E) as (L & I' & _).
  split; auto. split; auto. revert E. pose proof I as (Eg & Ln & N). unfold sc_retain, assert_.
  replace (i <? Z.of_nat (length (sc_slots s))) with true by lia. cbn [bind].
  rewrite slot_get_ok by lia. cbn [bind]. fold (sl (sc_slots s) i).
  destruct (w_contains (WCx c) (sl (sc_slots s) i)) eqn:C.
  { intros E. injection E as <- <-. split; auto. intros. apply inpieces_refl. }
  destruct (negb _). { intros E. injection E as <- <-. destruct A; discriminate. }
  cbn [slot_and bind].
  assert (Ni : nset (sl (sc_slots s) i)) by (apply N; lia).
  destruct (slot_and_ok (sl (sc_slots s) i) (WCx c) Ni W) as (ri & Er & Nr & _).
  cbn [slot_and] in Er. injection Er as Er. rewrite Er.
  destruct (slot_set_ok (sc_slots s) i ri) as (l1 & -> & L1 & E1 & O1); [lia|]. cbn [bind]. rewrite Eg.
  assert (N1 : nslots g l1).
  { split; [lia|]. intros m Hm. unfold sl. destruct (Z.eq_dec m i) as [->|Nm]; [rewrite E1; auto|].
    rewrite O1 by lia. apply N; auto. }
  destruct (sc_propagate p g l1 i) as [l2| | |] eqn:E2; cbn [bind]; try discriminate.
  intros E. injection E as <- _. cbn [sc_slots].
  assert (Q : forall m, 0 <= m -> inpieces (sl l2 m) (sl l1 m)) by (eapply propagate_pieces; eauto; unfold node; lia).
  split.
  - apply box_contains; [apply W|]. eapply inpieces_box; [apply Q; auto|]. unfold sl at 1. rewrite E1, <- Er. apply and_box; auto.
  - intros m Hm. eapply inpieces_trans; [apply Q; auto|]. destruct (Z.eq_dec m i) as [->|Nm].
    + unfold sl at 1. rewrite E1, <- Er. apply and_pieces; auto.
    + unfold sl. rewrite O1 by auto. apply inpieces_refl.
Qed.
Lemma contains_unchanged p g s i w : sinv g s -> 0 <= i < g_size g -> w_contains w (sl (sc_slots s) i) = true ->
  sc_retain p s i w = Ret (s, Unchanged).
Proof.
  intros (Eg & Ln & N) Hi C. unfold sc_retain, assert_.
  replace (i <? Z.of_nat (length (sc_slots s))) with true by lia. cbn [bind].
  rewrite slot_get_ok by lia. cbn [bind]. fold (sl (sc_slots s) i). now rewrite C.
Qed.

(** [retain] with an interval (or a range): any session, any magnitudes. *)
Theorem C82_retain : forall p g s i c s' r, stored g -> proper p g -> session p g s -> 0 <= i ->
  window_ok (WCx c) -> sc_retain p s i (WCx c) = Ret (s', r) ->
  sc_retain p s' i (WCx c) = Ret (s', match r with Propagated => Unchanged | _ => r end).
Proof.
  intros p g s i c s' r St Pr Se Hi W E. pose proof (proj1 (stored_mem g) St) as M.
  pose proof (proj1 (proper_prop p g M) Pr) as P. pose proof (session_sinv p g s M P Se) as I.
  destruct (retain_inv p g s i _ s' r M P I Hi W E) as (L & _ & H).
  destruct H as [(-> & -> & _)|[(-> & -> & _)|(-> & _)]]; auto.
  destruct (retain_box p g s i c s' _ M P I Hi W E) as (I' & _ & C & _); [right; auto|].
  eapply contains_unchanged; eauto.
Qed.
Example C82_retain_case : forall p, stored gA /\ session p gA cA1 /\
  exists s', sc_retain p cA1 2 (WCx (CRangeIncl 0 20)) = Ret (s', Propagated) /\ s' <> cA1 /\
    sc_retain p s' 2 (WCx (CRangeIncl 0 20)) = Ret (s', Unchanged).
Proof.
  intros p. split; [unfold stored; simpl; lia|]. split; [apply (convex_session_session p gA 1000); [unfold oo; lia|apply cA_session]|].
  eexists. split; [destruct p; vm_compute; reflexivity|]. split; [discriminate|]. destruct p; vm_compute; reflexivity.
Qed.
(** With a set of dates the answer may be [Propagated] for ever, though nothing changes: the slot has
    got a piece without any date, which is not in the set. *)
Theorem C82_retain_refuted : exists g l, (forall p, history p 3 200 ksA g) /\ window_ok (WSet l) /\
  exists s s', session Release g s /\ sc_retain Release s 1 (WSet l) = Ret (s', Propagated) /\
    sc_retain Release s' 1 (WSet l) = Ret (s', Propagated).
Proof.
  exists gA, [mkI 0 105; mkI 110 120]. split; [apply histA|].
  split. { apply cut_canonical. unfold canonical; cbn; unfold wf_iv, oo; cbn; lia. }
  exists (mkS gA [[mkI 58 197]; [mkI 106 200]; [mkI 106 260]]),
    (mkS gA [[mkI 58 117]; [mkI 106 105; mkI 110 120]; [mkI 106 180]]).
  split; [|split; vm_compute; reflexivity].
  apply s_retain with (s := sc_new gA) (i := 1) (w := WSet [mkI 106 200]) (r := Propagated);
    [apply s_new|lia| |vm_compute; reflexivity].
  apply cut_canonical. unfold canonical; cbn; unfold wf_iv, oo; cbn; lia.
Qed.

Definition step_all (p : profile) (w : window) : sched * presult -> nat -> outcome (sched * presult) :=
  fun '(s, res) n => r <- sc_retain p s (Z.of_nat n) w ;; let '(s1, x) := r in
    match x with Unchanged => Ret (s1, res) | Propagated => Ret (s1, Propagated) | Recovered | Fatal => Panic end.
Lemma all_box p g c : mem_ok g -> prop g -> window_ok (WCx c) -> forall n a s res s' r, sinv g s ->
  Z.of_nat (a + n) <= g_size g ->
  (forall m, 0 <= m < Z.of_nat a -> inbox (cx_lower c) (cx_upper c) (sl (sc_slots s) m)) ->
  ofold (step_all p (WCx c)) (s, res) (seq a n) = Ret (s', r) ->
  sinv g s' /\ forall m, 0 <= m < Z.of_nat (a + n) -> inbox (cx_lower c) (cx_upper c) (sl (sc_slots s') m).
Proof.
  intros M P W. induction n as [|n IH]; intros a s res s' r I L Hb E.
  - cbn in E. injection E as <- <-. rewrite Nat.add_0_r. auto.
  - cbn [seq ofold] in E. unfold step_all at 1 in E.
    destruct (sc_retain p s (Z.of_nat a) (WCx c)) as [[s1 x]| | |] eqn:E1; cbn [bind] in E; try discriminate.
    assert (A : accepted x) by (destruct x; cbn [bind] in E; try discriminate; unfold accepted; auto).
    destruct (retain_box p g s (Z.of_nat a) c s1 x M P I ltac:(lia) W E1 A) as (I1 & L1 & C1 & S1).
    assert (B1 : forall m, 0 <= m < Z.of_nat (S a) -> inbox (cx_lower c) (cx_upper c) (sl (sc_slots s1) m)).
    { intros m Hm. destruct (Z.eq_dec m (Z.of_nat a)) as [->|Nm].
      - apply contains_box with (B := low); [apply I1; lia|apply W|auto].
      - eapply inpieces_box; [apply S1; lia|]. apply Hb. lia. }
    replace (a + S n)%nat with (S a + n)%nat in * by lia.
    destruct A as [-> | ->]; cbn [bind] in E; eapply (IH (S a) s1); eauto.
Qed.
Lemma all_unchanged p g w : forall n a s, sinv g s -> Z.of_nat (a + n) <= g_size g ->
  (forall m, 0 <= m < g_size g -> w_contains w (sl (sc_slots s) m) = true) ->
  ofold (step_all p w) (s, Unchanged) (seq a n) = Ret (s, Unchanged).
Proof.
  induction n as [|n IH]; intros a s I L H; auto. cbn [seq ofold]. unfold step_all at 1.
  rewrite (contains_unchanged p g) by (auto; try apply H; lia). cbn [bind]. apply IH; auto. lia.
Qed.
Lemma all_again p g s c s' r : mem_ok g -> prop g -> sinv g s -> window_ok (WCx c) ->
  sc_retain_all p s (WCx c) = Ret (s', r) ->
  sinv g s' /\ sc_retain_all p s' (WCx c) = Ret (s', Unchanged).
Proof.
  intros M P I W E. pose proof I as (_ & Ln & _).
  destruct (all_box p g c M P W (length (sc_slots s)) 0 s Unchanged s' r I) as (I' & B);
    [simpl; lia|intros; simpl in *; lia|exact E|].
  split; auto. pose proof I' as (_ & Ln' & _).
  apply (all_unchanged p g (WCx c) (length (sc_slots s')) 0 s' I'); [simpl; lia|].
  intros m Hm. apply box_contains; [apply W|]. apply B. simpl. lia.
Qed.
Lemma slot_dates g s tw : sinv g s -> (forall i, 0 <= i < g_size g -> exists x, possible s i x) ->
  In tw (sc_slots s) -> exists i x, 0 <= i < g_size g /\ possible s i x /\ set_lower tw <= x <= set_upper tw.
Proof.
  intros I H It. pose proof I as (_ & Ln & N). apply (In_nth _ _ []) in It as (n & Hn & <-).
  assert (Hi : 0 <= Z.of_nat n < g_size g) by (unfold tset in *; lia).
  destruct (H _ Hi) as (x & Hx). exists (Z.of_nat n), x. split; auto. split; auto.
  apply (pos_possible g s) in Hx; auto. specialize (N _ Hi). unfold pos, sl in *. rewrite Nat2Z.id in *.
  eapply n_upper; eauto.
Qed.

(** [set_deadline] and [set_startline]: any session, any dates.  The hypothesis on the dates is needed,
    since an instant without date makes them refuse. *)
Theorem C82_deadline : forall p g s d s' r, stored g -> proper p g -> session p g s -> finite d ->
  sc_set_deadline p s d = Ret (s', r) -> accepted r ->
  (forall i, 0 <= i < g_size g -> exists x, possible s' i x) -> sc_set_deadline p s' d = Ret (s', Unchanged).
Proof.
  intros p g s d s' r St Pr Se F E A H. pose proof (proj1 (stored_mem g) St) as M.
  pose proof (proj1 (proper_prop p g M) Pr) as P. pose proof (session_sinv p g s M P Se) as I.
  destruct (deadline_ok p g s d M P I F) as [E'|(s2 & r2 & E' & I2 & D)]; [congruence|].
  rewrite E in E'. injection E' as <- <-.
  destruct D as [(-> & _)|(_ & _ & D & _)]; [destruct A; discriminate|].
  unfold sc_set_deadline in E |- *. destruct (existsb _ (sc_slots s)); [injection E as _ <-; destruct A; discriminate|].
  destruct (all_again p g s _ s' r M P I (deadline_window d F) E) as (_ & ->).
  destruct (existsb _ (sc_slots s')) eqn:X; auto. exfalso. apply existsb_exists in X as (tw & It & X).
  destruct (slot_dates g s' tw I2 H It) as (i & x & Hi & Hx & B). apply D in Hx; auto. lia.
Qed.
Theorem C82_startline : forall p g s d s' r, stored g -> proper p g -> session p g s -> finite d ->
  sc_set_startline p s d = Ret (s', r) -> accepted r ->
  (forall i, 0 <= i < g_size g -> exists x, possible s' i x) -> sc_set_startline p s' d = Ret (s', Unchanged).
Proof.
  intros p g s d s' r St Pr Se F E A H. pose proof (proj1 (stored_mem g) St) as M.
  pose proof (proj1 (proper_prop p g M) Pr) as P. pose proof (session_sinv p g s M P Se) as I.
  destruct (startline_ok p g s d M P I F) as [E'|(s2 & r2 & E' & I2 & D)]; [congruence|].
  rewrite E in E'. injection E' as <- <-.
  destruct D as [(-> & _)|(_ & _ & D & _)]; [destruct A; discriminate|].
  unfold sc_set_startline in E |- *. destruct (existsb _ (sc_slots s)); [injection E as _ <-; destruct A; discriminate|].
  destruct (all_again p g s _ s' r M P I (startline_window d F) E) as (_ & ->).
  destruct (existsb _ (sc_slots s')) eqn:X; auto. exfalso. apply existsb_exists in X as (tw & It & X).
  destruct (slot_dates g s' tw I2 H It) as (i & x & Hi & Hx & B). apply D in Hx; auto. lia.
Qed.
Example C82_deadline_case : forall p, session p gA cA1 /\
  sc_set_deadline p cA1 20 = Ret (cA2, Propagated) /\ sc_set_deadline p cA2 20 = Ret (cA2, Unchanged).
Proof.
  intros p. split; [apply (convex_session_session p gA 1000); [unfold oo; lia|apply cA_session]|].
  split; destruct p; vm_compute; reflexivity.
Qed.

Print Assumptions C82_propagate.
Print Assumptions C82_loop_refuted.
Print Assumptions C82_merge_self.
Print Assumptions C82_merge.
Print Assumptions C82_extend_partial.
Print Assumptions C82_retain.
Print Assumptions C82_retain_refuted.
Print Assumptions C82_deadline.
Print Assumptions C82_startline.
