(** C47, C48: iterating over the constraints of a graph. *)
From Coq Require Import Sorted.
From Verif Require Import Machine TimeValue Interval Spec SpecSets Tac TimeValueProofs Graph
  MaxPlus FwBound GraphProofs GraphOps GraphGrow GraphSafe GraphHist GraphTight SpecGraph GraphInv GraphCalls GraphIter Prop_Graph Prop_Propagation.

(** ** Vocabulary *)

(** Increasing pairs, first component first *)
Definition pair_lt (a b : Z * Z) : Prop := fst a < fst b \/ (fst a = fst b /\ snd a < snd b).
(** The graph says something about (i,j). *)
Definition relevant (p : profile) (g : graph) (i j : Z) : Prop :=
  0 <= i < g_size g /\ 0 <= j < g_size g /\ g_timespan p g i j <> Ret (mkI (- oo) oo).
(** The state [s] is reached from [s0] after the items [l]. *)
Inductive reached (next : Z * Z -> outcome (option (Z * Z) * (Z * Z))) (s0 : Z * Z)
  : list (Z * Z) -> Z * Z -> Prop :=
| r_init : reached next s0 [] s0
| r_next l s a s' : reached next s0 l s -> next s = Ret (Some a, s') ->
    reached next s0 (l ++ [a]) s'.
(** The constraints as given to [extend] *)
Definition items (p : profile) (g : graph) (l : list (Z * Z)) : outcome (list kons) :=
  omapM (fun '(i, j) => k_of_graph p g i j) l.

(** ** C47 *)

Theorem C47_exact : forall p g, stored g -> exists l, g_iter p g = Ret l /\
  (forall i j, In (i, j) l <-> i < j /\ relevant p g i j) /\ StronglySorted pair_lt l.
Proof.
  intros p g M. apply stored_mem in M. destruct (iter_ok p g M) as (l & E & H & S & _).
  exists l. split; auto. split; auto. intros i j. rewrite H. unfold relevant. split.
  - intros (H1 & H2 & H3). split; [lia|]. split; [lia|]. split; [lia|].
    apply rel_timespan; auto; unfold node; lia.
  - intros (H1 & H2 & H3 & H4). split; [lia|]. split; [lia|].
    apply (rel_timespan p); auto.
Qed.

(** each pair once *)
Lemma sorted_nodup : forall l, StronglySorted pair_lt l -> NoDup l.
Proof.
  induction 1 as [|a l S IH F]; constructor; auto. intros I. rewrite Forall_forall in F.
  specialize (F _ I). unfold pair_lt in F. lia.
Qed.
Corollary C47_once : forall p g l, stored g -> g_iter p g = Ret l -> NoDup l.
Proof.
  intros p g l M E. destruct (C47_exact p g M) as (l' & E' & _ & S).
  rewrite E in E'. injection E' as <-. now apply sorted_nodup.
Qed.

(** The items carry the intervals of [timespan]. *)
Lemma k_graph_ok : forall p g i j, mem_ok g -> node (g_size g) i -> node (g_size g) j ->
  k_of_graph p g i j = Ret (mkK i j false (cell g i j) (- cell g j i)).
Proof. intros p g i j M Ni Nj. unfold k_of_graph. rewrite !g_lower_ok by auto. reflexivity. Qed.
Theorem C47_items : forall p g l, stored g -> g_iter p g = Ret l ->
  exists ks, items p g l = Ret ks /\ length ks = length l /\ forall k, In k ks <->
    k_from k < k_to k /\ relevant p g (k_from k) (k_to k) /\ k_empty k = false /\
    g_timespan p g (k_from k) (k_to k) = Ret (mkI (k_lo k) (k_up k)).
Proof.
  intros p g l M E. destruct (C47_exact p g M) as (l' & E' & H & _).
  rewrite E in E'. injection E' as <-. apply stored_mem in M.
  set (f := fun '(i, j) => mkK i j false (cell g i j) (- cell g j i)).
  assert (X : items p g l = Ret (map f l)).
  { assert (Y : forall i j, In (i, j) l -> node (g_size g) i /\ node (g_size g) j).
    { intros i j I. apply H in I. destruct I as (_ & A & B & _). auto. }
    clear H E. unfold items. induction l as [|(i & j) r IH]; auto. simpl.
    destruct (Y i j) as (A & B); [simpl; auto|]. rewrite k_graph_ok by auto. cbn [bind].
    rewrite IH; [auto|]. intros; apply Y; simpl; auto. }
  exists (map f l). split; auto. split; [apply map_length|]. intros k. rewrite in_map_iff. split.
  - intros ((i & j) & <- & I). apply H in I. cbn [f k_from k_to k_empty k_lo k_up].
    destruct I as (L & R). split; auto. split; auto. split; auto.
    apply timespan_ok; auto; apply R.
  - destruct k as [i j e lo up]. cbn [k_from k_to k_empty k_lo k_up]. intros (L & R & -> & T).
    exists (i, j). split; [|apply H; auto]. unfold f.
    rewrite timespan_ok in T by (auto; apply R). injection T as <- <-. reflexivity.
Qed.

Example C47_case : stored h3 /\ g_iter Debug h3 = Ret [(0, 1); (0, 2); (1, 2)] /\
  g_iter Debug (mkG 3 [0; - oo; 0; - oo; - oo; - oo; 0; 5; - oo]) = Ret [(1, 2)].
Proof. split; [unfold stored; simpl; lia|]. split; vm_compute; reflexivity. Qed.

(** *** The states of the iterator *)

Lemma reached_state : forall p g, mem_ok g -> forall l s, reached (citer_next p g) citer_init l s ->
  cstate g s /\ (0 < g_size g -> 0 <= fst s <= snd s /\ snd s < g_size g) /\
  (g_size g = 0 -> s = (0, 0)) /\
  forall c d, In (c, d) l <-> 0 <= c < d /\ d < g_size g /\ ~ lexlt s (c, d) /\ rel g c d.
Proof.
  intros p g M l s R. pose proof M as ((S0 & S1) & _).
  induction R as [|l s a s' R IH E].
  - unfold citer_init. split; [unfold cstate; simpl; destruct (Z.eq_dec (g_size g) 0); [tauto|right; left; lia]|].
    split; [simpl; lia|]. split; auto. intros c d. unfold lexlt. simpl. split; [tauto|]. intros; lia.
  - destruct IH as (C & P & Z0 & H). destruct (next_ok p g s M C) as (r & E' & N & C').
    rewrite E in E'. injection E' as <-. destruct a as (a & b). cbn [next_of] in N.
    destruct N as (-> & Ab & Bb & L & Ra & Q). split; auto.
    split; [simpl; lia|]. split; [lia|]. intros c d. rewrite in_app_iff. simpl. rewrite H. split.
    + intros [(X1 & X2 & X3 & X4)|[X|[]]].
      * split; auto. split; auto. split; auto. unfold lexlt in *. simpl in *. lia.
      * injection X as <- <-. split; auto. split; auto. split; auto. unfold lexlt. simpl. lia.
    + intros (X1 & X2 & X3 & X4).
      assert (Y : lexlt s (c, d) \/ ~ lexlt s (c, d)) by (unfold lexlt; simpl; lia).
      destruct Y as [Y|Y]; [|auto]. right. left.
      assert (W : (a, b) = (c, d) \/ lexlt (c, d) (a, b)).
      { destruct (Z.eq_dec a c) as [->|]; [destruct (Z.eq_dec b d) as [->|]; auto|];
          right; unfold lexlt in *; simpl in *; lia. }
      destruct W; auto. destruct (Q c d); auto.
Qed.
Lemma collect_more : forall next m fuel s l, collect_pairs next fuel s = Ret l ->
  collect_pairs next (m + fuel) s = Ret l.
Proof.
  intros next m. induction fuel as [|f IH]; intros s l E; [discriminate|].
  replace (m + S f)%nat with (S (m + f)) by lia. simpl in *.
  destruct (next s) as [[[a|] s1]| | |]; simpl in *; try discriminate; auto.
  destruct (collect_pairs next f s1) as [l1| | |] eqn:E1; simpl in *; try discriminate.
  rewrite (IH _ _ E1). auto.
Qed.
Lemma reached_collect : forall next s0 l s, reached next s0 l s -> forall fuel rest,
  collect_pairs next fuel s = Ret rest -> collect_pairs next (length l + fuel) s0 = Ret (l ++ rest).
Proof.
  intros next s0 l s R. induction R as [|l s a s' R IH E]; intros fuel rest C; auto.
  rewrite app_length. replace (length l + length [a] + fuel)%nat with (length l + S fuel)%nat by (simpl; lia).
  rewrite <- app_assoc. simpl. apply IH. simpl. rewrite E. simpl. rewrite C. auto.
Qed.
Lemma collect_det : forall next s f f' l l', collect_pairs next f s = Ret l ->
  collect_pairs next f' s = Ret l' -> l = l'.
Proof.
  intros next s f f' l l' E E'. apply (collect_more _ f') in E. apply (collect_more _ f) in E'.
  replace (f' + f)%nat with (f + f')%nat in E by lia. congruence.
Qed.

(** Once it has returned [None], the iterator has given all its items and returns [None]
    for ever. *)
Theorem C47_fused : forall p g l s s', stored g -> reached (citer_next p g) citer_init l s ->
  citer_next p g s = Ret (None, s') -> g_iter p g = Ret l /\ citer_next p g s' = Ret (None, s').
Proof.
  intros p g l s s' M R E. apply stored_mem in M.
  destruct (reached_state p g M l s R) as (C & _ & Z0 & _).
  destruct (next_ok p g s M C) as (r & E' & N & _). rewrite E in E'. injection E' as <-.
  cbn [next_of] in N. destruct N as (-> & _). split.
  - destruct (iter_ok p g M) as (l' & I & _). rewrite I. f_equal.
    assert (K : collect_pairs (citer_next p g) (length l + 1) citer_init = Ret (l ++ [])).
    { apply reached_collect with (s := s); auto. simpl. rewrite E. auto. }
    rewrite app_nil_r in K. unfold g_iter in I. eapply collect_det; eauto.
  - unfold citer_next. rewrite Z.eqb_refl. auto.
Qed.

Lemma hint_ok : forall p g i j, 0 <= g_size g <= 65535 -> 0 <= i -> 0 <= j ->
  (i < g_size g /\ j < g_size g) \/ (i = 0 /\ j = 0) ->
  exists h, citer_hint p g (i, j) = Ret (0, Some h) /\
    2 * h = g_size g * (g_size g - 1) - i * (i - 1) + 2 - 2 * j.
Proof.
  intros p g i j S Hi Hj H. unfold citer_hint. set (n := g_size g) in *.
  assert (M : forall a, 0 <= a <= 65535 -> mul32 p a a = Ret (a * a) /\ sub32 p (a * a) a = Ret (a * a - a)
     /\ exists q, a * a - a = 2 * q /\ 0 <= q).
  { intros a Ha. assert (0 <= a * a <= 65535 * 65535) by nia. assert (a = 0 \/ a <= a * a) by nia. split.
    - mach. replace (_ && _) with true by lia. auto.
    - split; [mach; replace (_ && _) with true by lia; auto|].
      destruct (Z.Even_or_Odd a) as [(q & ->)|(q & ->)].
      + exists (q * (2 * q - 1)). split; [ring|]. destruct (Z.eq_dec q 0) as [->|]; [lia|].
        apply Z.mul_nonneg_nonneg; lia.
      + exists (q * (2 * q + 1)). split; [ring|]. apply Z.mul_nonneg_nonneg; lia. }
  destruct (M n) as (M1 & M2 & qn & M3 & M4); [lia|]. destruct (M i) as (M1' & M2' & qi & M3' & M4'); [lia|].
  rewrite M1. cbn [bind]. rewrite M2. cbn [bind]. rewrite M1'. cbn [bind]. rewrite M2'. cbn [bind].
  rewrite M3, M3'. replace (2 * qn / 2) with qn by lia. replace (2 * qi / 2) with qi by lia.
  assert (D : j <= qn - qi + 1).
  { destruct H as [H|H]; [|destruct H as (-> & ->); nia].
    assert ((n - 1 - i) * (n + i - 2) >= 0 \/ n + i - 2 < 0) by nia.
    assert (n * n - n - (i * i - i) >= 2 * (n - 1)) by nia. lia. }
  assert (qn <= 65535 * 65535) by nia.
  assert (qi <= qn) by (destruct H as [H|H]; nia).
  mach. replace (_ && _) with true by lia. cbn [bind]. replace (_ && _) with true by lia. cbn [bind].
  replace (_ && _) with true by lia. cbn [bind]. eexists. split; [reflexivity|]. lia.
Qed.

(** Until then, [size_hint] gives an upper bound of the number of remaining items. *)
Theorem C47_hint : forall p g l s, stored g -> reached (citer_next p g) citer_init l s ->
  exists h rest, citer_hint p g s = Ret (0, Some h) /\ g_iter p g = Ret (l ++ rest) /\
    Z.of_nat (length rest) <= h.
Proof.
  intros p g l s M R. apply stored_mem in M. pose proof M as ((S0 & S1) & _).
  destruct (reached_state p g M l s R) as (C & P & Z0 & _).
  destruct (collect_ok p g M (citer_fuel g) s C) as (rest & E & _ & _ & L).
  - unfold citer_fuel. lia.
  - unfold citer_fuel. destruct (Z.eq_dec (g_size g) 0) as [e|e].
    + rewrite (Z0 e), e. simpl. lia.
    + destruct s as (i & j). simpl in *. nia.
  - destruct s as (i & j). cbn [fst snd] in *.
    destruct (hint_ok p g i j) as (h & Eh & Hh); auto; try lia.
    { destruct (Z.eq_dec (g_size g) 0) as [e|e]; [injection (Z0 e); lia|lia]. }
    { destruct (Z.eq_dec (g_size g) 0) as [e|e]; [injection (Z0 e); lia|lia]. }
    { destruct (Z.eq_dec (g_size g) 0) as [e|e]; [injection (Z0 e); lia|lia]. }
    exists h, rest. split; auto. split.
    + destruct (iter_ok p g M) as (l' & I & _). rewrite I. f_equal. unfold g_iter in I.
      eapply collect_det; [apply I|]. eapply reached_collect; eauto.
    + unfold left_pairs in L. cbn [fst snd] in L.
      destruct (Z.eq_dec (g_size g) 0) as [e|e].
      * injection (Z0 e). intros -> ->. rewrite e in *. lia.
      * assert (i * (g_size g - 1 - i) >= 0) by (apply Z.le_ge, Z.mul_nonneg_nonneg; lia). lia.
Qed.
Example C47_hint_case : reached (citer_next Debug h3) citer_init [(0, 1)] (0, 1) /\
  citer_hint Debug h3 (0, 1) = Ret (0, Some 3).
Proof.
  split; [|vm_compute; reflexivity].
  apply (r_next _ _ [] (0, 0)); [apply r_init|vm_compute; reflexivity].
Qed.
(** After [None], [size_hint] computes [1 - n]: debug builds panic, release builds wrap. *)
Theorem C47_hint_refuted : exists g l s s', stored g /\ reached (citer_next Debug g) citer_init l s /\
  citer_next Debug g s = Ret (None, s') /\ citer_hint Debug g s' = Panic /\
  exists h, citer_hint Release g s' = Ret (0, Some h) /\ 2 ^ 31 <= h.
Proof.
  exists h3a, [(0, 1)], (0, 1), (2, 2).
  split; [unfold stored; simpl; lia|]. split.
  { apply (r_next _ _ [] (0, 0)); [apply r_init|vm_compute; reflexivity]. }
  split; [vm_compute; reflexivity|]. split; [vm_compute; reflexivity|].
  eexists. split; [vm_compute; reflexivity|]. lia.
Qed.

(** *** Rebuilding the graph *)

Lemma items_sat : forall p g its t, mem_ok g -> (forall i, node (g_size g) i -> cell g i i = 0) ->
  (forall k, In k its <-> k_from k < k_to k /\ relevant p g (k_from k) (k_to k) /\ k_empty k = false /\
    g_timespan p g (k_from k) (k_to k) = Ret (mkI (k_lo k) (k_up k))) ->
  (msat (g_size g) (cell g) t <-> Forall (fun k => sat k t) its).
Proof.
  intros p g its t M D0 H. rewrite Forall_forall. split.
  - intros S k Hk. apply H in Hk. destruct Hk as (_ & R & _ & T).
    destruct (proj2 (sol_msat p g t M) S (k_from k) (k_to k)) as (iv & T' & X); try apply R.
    rewrite T in T'. injection T' as <-. auto.
  - intros S. assert (X : forall i j, node (g_size g) i -> node (g_size g) j -> i < j ->
      (cell g i j = - oo \/ cell g i j <= t j - t i) /\ (cell g j i = - oo \/ cell g j i <= t i - t j)).
    { intros i j Ni Nj L.
      assert (Y : rel g i j \/ cell g i j = - oo /\ cell g j i = - oo) by (unfold rel; lia).
      destruct Y as [Y|Y]; [|lia].
      specialize (S (mkK i j false (cell g i j) (- cell g j i))).
      unfold sat, In_ext in S. simpl in S.
      destruct S as (S1 & S2); [|split; lia].
      apply H. simpl. split; auto. rewrite timespan_ok by auto. split; auto. split; auto. split; auto.
      rewrite <- rel_timespan; auto. }
    intros i j w Ni Nj (E1 & E2). destruct (Z.lt_trichotomy i j) as [L|[->|L]].
    + destruct (X i j); auto; lia.
    + rewrite D0 in E2 by auto. lia.
    + destruct (X j i); auto; lia.
Qed.

(** A closed matrix is left as it is. *)
Lemma global_closed : forall p g C, mem_ok g -> closed (g_size g) (cell g) -> 0 <= C -> 4 * C < oo ->
  all_bnd (g_size g) C (cell g) ->
  exists g', g_global p g = Ret (g', Propagated) /\ g_size g' = g_size g /\ mem_ok g' /\
    forall i j, node (g_size g) i -> node (g_size g) j -> cell g' i j = cell g i j.
Proof.
  intros p g C M Cl C0 CL Bd. pose proof Cl as (Z0 & Tr). set (n := g_size g) in *.
  assert (MN : forall i j w, medge n (cell g) i j w -> node n i /\ node n j /\ ent (cell g) i j w).
  { intros i j w (Ni & Nj & X & ->). split; auto. split; auto. split; auto. lia. }
  assert (Eq : forall k L i j, fwinv n (cell g) k L -> node n i -> node n j ->
    forall c, ent L i j c <-> ent (cell g) i j c).
  { intros k L i j I Ni Nj c. rewrite (I i j c Ni Nj). split.
    - intros (l & w & W & _ & Lw). pose proof (walk_ent _ n _ Tr MN _ _ _ _ W) as X.
      eapply ent_mono; eauto.
    - intros (X & Y). exists [], (cell g i j). split; [constructor; unfold medge; auto|]. split; auto. }
  destruct (global_gen p g C M C0 CL Bd) as (g' & r & E & _ & Post).
  - intros k L I ZL i j Ni Nj. fold n in I, Ni, Nj. destruct (Z.eq_dec (L i j) (- oo)) as [e|e]; [left; auto|right].
    assert (X : ent (cell g) i j (L i j)) by (apply (Eq k L i j I Ni Nj); split; auto; lia).
    assert (Y : ent L i j (cell g i j)) by (apply (Eq k L i j I Ni Nj); split; [apply X|lia]).
    pose proof (Bd i j Ni Nj) as Z. unfold bnd, ent in *. lia.
  - intros i Ni. rewrite (Z0 i Ni). lia.
  - fold n in Post. destruct Post as [(-> & S & I & ZL)|(-> & _ & F)].
    + exists g'. split; auto. split; [apply S|]. split; [eapply same_shape_mem; eauto|].
      intros i j Ni Nj. pose proof (Eq n (cell g') i j I Ni Nj) as Q.
      pose proof (Bd i j Ni Nj) as Z. unfold bnd, ent in *.
      destruct (Z.eq_dec (cell g i j) (- oo)) as [e|e].
      * destruct (Z.eq_dec (cell g' i j) (- oo)) as [e'|e']; [lia|].
        destruct (proj1 (Q (cell g' i j))); [split; auto; lia|]. lia.
      * pose proof (proj2 (Q (cell g i j)) ltac:(split; auto; lia)) as (A1 & A2).
        pose proof (proj1 (Q (cell g' i j)) ltac:(split; auto; lia)) as (A3 & A4). lia.
    + destruct (closed_consistent n (cell g) Cl) as (t & T). destruct (F t T).
Qed.

(** Full statement: for bounds of any magnitude. *)
Theorem C47_rebuild_partial : forall p N B ks g, room N B -> history p N B ks g ->
  exists l its h g0 g' r, g_iter p g = Ret l /\ items p g l = Ret its /\
    citer_hint p g citer_init = Ret (0, Some h) /\ g_with_size p (g_size g) = Ret g0 /\
    g_extend p g0 (Some h) its = Ret (g', r) /\ accepted r /\ same_bounds p g g'.
Proof.
  intros p N B ks g R H.
  pose proof (history_inv _ _ _ _ _ R H) as I. pose proof (i_mem _ _ _ _ I) as M.
  pose proof M as ((S0 & S1) & _). pose proof (i_size _ _ _ _ I) as SN.
  assert (St : stored g) by (apply stored_mem; auto).
  destruct (C47_exact p g St) as (l & E & Hl & _).
  destruct (C47_items p g l St E) as (its & Ei & Li & Hi).
  destruct (hint_ok p g 0 0) as (h & Eh & Hh); auto; try lia.
  pose proof R as (HB & HN & HR).
  destruct (with_size_inv p N B (g_size g)) as (g0 & E0 & Z0 & I0); auto; try lia.
  pose proof (inv_bnd _ _ _ _ R I) as Bd. pose proof (inv_finite _ _ _ _ R I) as (V & Bo).
  pose proof (i_tight _ _ _ _ I) as (Cl & _). pose proof Cl as (D0 & _).
  assert (Kv : Forall kvalid its).
  { apply Forall_forall. intros k Hk. apply Hi in Hk.
    destruct Hk as (Lk & (Nf & Nt & _) & Ek & Tk). rewrite timespan_ok in Tk by auto.
    injection Tk as T1 T2. pose proof (V _ _ Nf Nt) as V1. pose proof (V _ _ Nt Nf) as V2.
    unfold kvalid. rewrite <- T1, <- T2. unfold valid in *. repeat split; lia. }
  exists l, its, h, g0.
  destruct (Z_le_gt_dec (g_size g) 1) as [L1|L1].
  - assert (its = []) as ->.
    { destruct its as [|k its]; auto. exfalso. destruct (proj1 (Hi k)) as (Lk & (Nf & Nt & _) & _); [simpl; auto|].
      lia. }
    exists g0, Unchanged. split; auto. split; auto. split; auto. split; auto.
    split; [assert (h = 1) as -> by nia; reflexivity|]. split; [left; auto|].
    apply same_bounds_cells; [auto|apply I0|auto|].
    intros i j Ni Nj. assert (i = j) as -> by (unfold node in *; lia). rewrite D0 by auto.
    symmetry. apply (i_tight _ _ _ _ I0). rewrite Z0. auto.
  - rewrite extend_slow by (split; intros X; injection X as ->; nia).
    destruct (inserted_ok p its g0) as (g1 & E1 & M1 & C1 & Sz & V1 & O1 & _); auto; try apply I0.
    { eapply inv_finite; eauto. }
    assert (Sg : g_size g1 = g_size g).
    { rewrite Sz, Z0. apply Z.le_antisymm; [|apply ksize_ge].
      apply ksize_le; [lia|]. intros k Hk. apply Hi in Hk. destruct Hk as (_ & (Nf & Nt & _) & _). lia. }
    rewrite E1. cbn [bind].
    assert (Ke : forall i j, node (g_size g) i -> node (g_size g) j -> i <> j -> cell g i j <> - oo ->
      kedges its i j (cell g i j)).
    { intros i j Ni Nj Nij Nc. destruct (Z_lt_le_dec i j) as [L|L].
      - exists (mkK i j false (cell g i j) (- cell g j i)). split; [|left; simpl; auto].
        apply Hi. simpl. split; auto. unfold relevant. rewrite <- (rel_timespan p) by auto. rewrite timespan_ok by auto.
        split; [split; [exact Ni|split; [exact Nj|left; auto]]|]. auto.
      - exists (mkK j i false (cell g j i) (- cell g i j)). split; [|right; simpl; repeat split; auto; lia].
        apply Hi. simpl. split; [lia|]. unfold relevant. rewrite <- (rel_timespan p) by auto. rewrite timespan_ok by auto.
        split; [split; [exact Nj|split; [exact Ni|right; auto]]|]. auto. }
    assert (Eq : forall i j, node (g_size g) i -> node (g_size g) j -> cell g1 i j = cell g i j).
    { intros i j Ni Nj. pose proof (O1 i j) as Q. rewrite Sg in Q. specialize (fun c => Q c Ni Nj).
      pose proof (V1 i j) as V1'. rewrite Sg in V1'. specialize (V1' Ni Nj).
      apply ent_eq; [|unfold valid in V1'; lia|specialize (V i j Ni Nj); unfold valid in V; lia].
      intros w. rewrite Q. clear Q. split.
      - intros [X|(v & (k & Ik & Ke') & Lv)].
        + unfold ent, extm in X. rewrite Z0 in X. unfold node in Ni, Nj.
          replace ((i <? g_size g) && (j <? g_size g)) with true in X by lia.
          destruct (Z.eq_dec i j) as [->|Nij].
          * unfold ent in *. rewrite D0 by auto. assert (cell g0 j j = 0) as Y.
            { apply (i_tight _ _ _ _ I0). rewrite Z0. auto. } rewrite Y in X. exact X.
          * exfalso. set (c := cell g0 i j) in *.
            assert (Ms : msat (g_size g0) (cell g0) (fun x => if x =? j then c - 1 else 0)).
            { apply (tight_msat _ (kedges [])); [apply I0|]. intros a b v (k & [] & _). }
            specialize (Ms i j c). rewrite Z0 in Ms. cbv beta in Ms. rewrite Z.eqb_refl in Ms.
            replace (i =? j) with false in Ms by lia. destruct X as (X & _).
            assert (c <= c - 1 - 0); [|lia]. apply Ms; auto. split; auto. lia.
        + apply Hi in Ik. destruct Ik as (Lk & (Nf & Nt & _) & Ek & Tk). rewrite timespan_ok in Tk by auto.
          injection Tk as T1 T2. unfold ent. destruct Ke' as [(-> & -> & -> & Nw)|(-> & -> & -> & Nw)]; lia.
      - intros X. destruct (Z.eq_dec i j) as [->|Nij].
        + left. unfold ent in *. rewrite D0 in X by auto. unfold extm. rewrite Z0. unfold node in Ni.
          replace ((j <? g_size g) && (j <? g_size g)) with true by lia.
          assert (cell g0 j j = 0) as Y. { apply (i_tight _ _ _ _ I0). rewrite Z0. auto. }
          rewrite Y. auto.
        + right. exists (cell g i j). destruct X as (X & Y). split; auto. }
    assert (N1 : 0 <= (g_size g - 1) * B /\ 4 * ((g_size g - 1) * B) < oo) by nia.
    destruct (global_closed p g1 ((g_size g - 1) * B)) as (g' & E' & S' & M' & C'); auto; try lia.
    { rewrite Sg. destruct Cl as (Zd & Tr). split.
      - intros i Ni. rewrite Eq by auto. auto.
      - intros i k j a b Ni Nk Nj A1 A2. unfold ent in *. rewrite !Eq in * by auto.
        apply (Tr i k j a b); auto. }
    { rewrite Sg. intros i j Ni Nj. rewrite Eq by auto. apply Bd; auto. }
    exists g', Propagated. rewrite E'. split; auto. split; auto. split; auto. split; auto. split; auto.
    split; [right; auto|]. apply same_bounds_cells; auto; [lia|].
    intros i j Ni Nj. rewrite C' by (rewrite Sg; auto). rewrite Eq by auto. auto.
Qed.
Example C47_rebuild_case : history Debug 3 10 [k12; k01] h3 /\ room 3 10 /\
  exists g0, g_with_size Debug 3 = Ret g0 /\ g_extend Debug g0 (Some 4)
    [mkK 0 1 false 5 10; mkK 0 2 false 12 18; mkK 1 2 false 7 8] = Ret (h3, Propagated).
Proof.
  split; [apply h3_history; lia|]. split; [unfold room, oo; lia|].
  exists (mkG 3 [0; - oo; 0; - oo; - oo; - oo; 0; - oo; - oo]). split; vm_compute; reflexivity.
Qed.

(** ** C48 *)

(** Exact for the pairs (i,j), [j <> 0].
    Full statement: [forall j, In (i, j) l <-> j <> i /\ relevant p g i j]: it fails for
    [j = 0], always given (first). *)
Theorem C48_from_partial : forall p g i, stored g -> 0 <= i < g_size g ->
  exists l, g_constraints_from p g i = Ret l /\ StronglySorted pair_lt l /\
    (forall a b, In (a, b) l -> a = i) /\
    forall j, j <> 0 -> (In (i, j) l <-> j <> i /\ relevant p g i j).
Proof.
  intros p g i M Hi. apply stored_mem in M. destruct (from_ok p g i M Hi) as (js & E & H & S).
  eexists. split; [apply E|]. split.
  { clear E H. induction S as [|a r S IH F]; simpl; constructor; auto.
    apply Forall_forall. intros (c & d) I. apply in_map_iff in I as (b & X & I). injection X as <- <-.
    rewrite Forall_forall in F. specialize (F _ I). unfold pair_lt. simpl. lia. }
  split; [intros a b I; apply in_map_iff in I as (c & X & _); congruence|].
  intros j Nj. rewrite in_map_iff. split.
  - intros (b & X & [<-|I]); injection X as X; [lia|]. subst b. apply H in I.
    destruct I as (I1 & I2 & I3). split; auto. unfold relevant. split; auto. split; [lia|].
    apply rel_timespan; auto; unfold node; lia.
  - intros (N & _ & Hj & T). exists j. split; auto. right. apply H. split; [lia|]. split; auto.
    apply (rel_timespan p); auto.
Qed.
(** Exact if [i] is constrained with the first instant *)
Theorem C48_from_exact : forall p g i, stored g -> i <> 0 -> relevant p g i 0 ->
  exists l, g_constraints_from p g i = Ret l /\ StronglySorted pair_lt l /\
    (forall a b, In (a, b) l <-> a = i /\ b <> i /\ relevant p g i b).
Proof.
  intros p g i M N0 R. destruct (C48_from_partial p g i M) as (l & E & S & A & H); [apply R|].
  exists l. split; auto. split; auto. intros a b. destruct (Z.eq_dec b 0) as [->|Nb].
  - split; [intros I; rewrite (A _ _ I); auto|]. intros (-> & _).
    apply stored_mem in M. destruct (from_ok p g i M) as (js & E' & _); [apply R|].
    rewrite E in E'. injection E' as ->. simpl. auto.
  - split; [intros I; rewrite (A _ _ I) in I |- *; split; auto; apply H; auto|].
    intros (-> & X). apply H; auto.
Qed.
(** An instant out of the graph has no constraint. *)
Theorem C48_outside : forall p g i, g_size g <= i ->
  g_constraints_from p g i = Ret [] /\ g_constraints_to p g i = Ret [].
Proof.
  intros p g i L. assert (E : g_constraints_from p g i = Ret []).
  { unfold g_constraints_from, fiter_init. simpl. replace (g_size g <=? i) with true by lia. auto. }
  split; auto. unfold g_constraints_to. rewrite E. auto.
Qed.
(** [constraints_to]: the reversed pairs, in the same order *)
Theorem C48_to : forall p g i, stored g -> 0 <= i ->
  exists l, g_constraints_from p g i = Ret l /\ g_constraints_to p g i = Ret (map (fun k => (snd k, fst k)) l).
Proof.
  intros p g i M Hi. destruct (Z_lt_le_dec i (g_size g)) as [L|L].
  - destruct (C48_from_partial p g i M) as (l & E & _); [lia|]. exists l. split; auto.
    unfold g_constraints_to. rewrite E. simpl. f_equal. apply map_ext. intros (a & b). auto.
  - destruct (C48_outside p g i L) as (E & E'). exists []. auto.
Qed.
(** Partial: nothing is said of the pair with instant 0, which always comes first (C48_first_refuted). *)
Corollary C48_to_partial : forall p g i, stored g -> 0 <= i < g_size g ->
  exists l, g_constraints_to p g i = Ret l /\
    (forall a b, In (a, b) l -> b = i) /\
    forall j, j <> 0 -> (In (j, i) l <-> j <> i /\ relevant p g j i).
Proof.
  intros p g i M Hi. destruct (C48_to p g i M) as (l & E & E'); [lia|].
  destruct (C48_from_partial p g i M Hi) as (l' & E'' & _ & A & H). rewrite E in E''. injection E'' as <-.
  eexists. split; [apply E'|]. split.
  - intros a b I. apply in_map_iff in I as ((c & d) & X & I). simpl in X. injection X as <- <-. eauto.
  - intros j Nj. assert (Sy : relevant p g i j <-> relevant p g j i).
    { apply stored_mem in M. unfold relevant. split; intros (X & Y & T); (split; [auto|split; [auto|]]);
        rewrite <- rel_timespan in * by auto; unfold rel in *; tauto. }
    rewrite <- Sy, <- H by auto. rewrite in_map_iff. split.
    + intros ((c & d) & X & I). simpl in X. injection X as -> ->. auto.
    + intros I. exists (i, j). auto.
Qed.
Example C48_case : stored h3 /\ relevant Debug h3 2 0 /\
  g_constraints_from Debug h3 2 = Ret [(2, 0); (2, 1)] /\
  g_constraints_to Debug h3 1 = Ret [(0, 1); (2, 1)].
Proof.
  split; [unfold stored; simpl; lia|]. split; [|split; vm_compute; reflexivity].
  unfold relevant. simpl. split; [lia|]. split; [lia|]. vm_compute. discriminate.
Qed.
(** The pair (i,0) is given even if unconstrained, and even for [i = 0]. *)
Theorem C48_first_refuted : exists g, stored g /\
  g_timespan Debug g 1 0 = Ret (mkI (- oo) oo) /\
  g_constraints_from Debug g 1 = Ret [(1, 0)] /\ g_constraints_from Debug g 0 = Ret [(0, 0)] /\
  g_constraints_to Debug g 1 = Ret [(0, 1)].
Proof.
  exists (mkG 2 [0; - oo; 0; - oo]). split; [unfold stored; simpl; lia|].
  split; [|split; [|split]]; vm_compute; reflexivity.
Qed.

(** *** The states of the iterator *)

Lemma freached_state : forall p g i, mem_ok g -> 0 <= i < g_size g -> forall l s,
  reached (fiter_next p g) (fiter_init i) l s ->
  s = (g_size g, g_size g) \/ (fst s = i /\ 0 <= snd s < g_size g).
Proof.
  intros p g i M Hi l s R. induction R as [|l s a s' R IH E]; [right; simpl; lia|].
  destruct s as (c & j). unfold fiter_next in E.
  destruct IH as [X|(X & Y)].
  - injection X as -> ->. replace (g_size g <=? g_size g) with true in E by lia. discriminate.
  - simpl in X, Y. subst c. replace (g_size g <=? i) with false in E by lia.
    destruct (search_ok p g i M Hi (S (Z.to_nat (g_size g))) j) as (i' & j' & E' & L & _ & C); auto; [lia|].
    rewrite E' in E. simpl in E. injection E as _ <-. destruct C as [(-> & ->)|(-> & C & _)]; auto.
    right. simpl. lia.
Qed.
(** Once it has returned [None], it has given all its items and returns [None] for ever. *)
Theorem C48_fused : forall p g i l s s', stored g -> 0 <= i -> reached (fiter_next p g) (fiter_init i) l s ->
  fiter_next p g s = Ret (None, s') ->
  g_constraints_from p g i = Ret l /\ fiter_next p g s' = Ret (None, s').
Proof.
  intros p g i l s s' M Hi R E. split.
  - assert (K : collect_pairs (fiter_next p g) (length l + 1) (fiter_init i) = Ret (l ++ [])).
    { apply reached_collect with (s := s); auto. simpl. rewrite E. auto. }
    rewrite app_nil_r in K. destruct (C48_to p g i M Hi) as (l' & E' & _).
    rewrite E'. f_equal. unfold g_constraints_from in E'. eapply collect_det; eauto.
  - unfold fiter_next in *. destruct s as (a & b). destruct (g_size g <=? a) eqn:T.
    + injection E as <-. rewrite T. auto.
    + destruct (fiter_search _ _ _ _ _); simpl in E; discriminate.
Qed.
(** While items remain, [size_hint] gives an upper bound of their number.
    Full statement: also when none remains (refuted below). *)
Theorem C48_hint_partial : forall p g i l s, stored g -> 0 <= i < g_size g ->
  reached (fiter_next p g) (fiter_init i) l s ->
  exists rest, g_constraints_from p g i = Ret (l ++ rest) /\
    (rest <> [] -> exists h, fiter_hint p g s = Ret (0, Some h) /\ Z.of_nat (length rest) <= h).
Proof.
  intros p g i l s M Hi R. apply stored_mem in M. pose proof M as ((S0 & S1) & _).
  destruct (from_ok p g i M Hi) as (js & E & _).
  destruct (freached_state p g i M Hi l s R) as [->|(X & Y)].
  - exists []. split; [|congruence]. rewrite app_nil_r. rewrite E. f_equal.
    assert (K : collect_pairs (fiter_next p g) (length l + 1) (fiter_init i) = Ret (l ++ [])).
    { eapply reached_collect; [apply R|]. simpl. replace (g_size g <=? g_size g) with true by lia. auto. }
    rewrite app_nil_r in K. unfold g_constraints_from in E. eapply collect_det; eauto.
  - destruct s as (a & j). simpl in X, Y. subst a.
    destruct (fcollect_ok p g i M Hi (S (S (Z.to_nat (g_size g)))) j) as (rest & C & js' & Er & _ & _ & L); try lia.
    exists rest. split.
    + rewrite E. f_equal. unfold g_constraints_from in E. eapply collect_det; [apply E|].
      eapply reached_collect; eauto.
    + intros _. destruct (hint_ok p g i j) as (h & Eh & Hh); try lia.
      exists h. split; auto. rewrite Er, map_length.
      assert (Z.of_nat (length (j :: js')) <= g_size g - j) by (destruct (j <? i); lia).
      assert ((g_size g - 1 - i) * (g_size g + i - 2) >= 0 \/ g_size g + i - 2 < 0).
      { destruct (Z_lt_le_dec (g_size g + i - 2) 0); auto. left. apply Z.le_ge, Z.mul_nonneg_nonneg; lia. }
      nia.
Qed.
Example C48_hint_case : reached (fiter_next Debug h3) (fiter_init 2) [(2, 0)] (2, 1) /\
  fiter_hint Debug h3 (2, 1) = Ret (0, Some 2).
Proof.
  split; [|vm_compute; reflexivity].
  apply (r_next _ _ [] (2, 0)); [apply r_init|vm_compute; reflexivity].
Qed.
(** After the last item (before any [None]), [size_hint] computes [1 - n]: debug builds
    panic, release builds wrap.  [collect] into a [Vec] asks for it there. *)
Theorem C48_hint_refuted : exists g l s, stored g /\ reached (fiter_next Debug g) (fiter_init 0) l s /\
  l = [(0, 0); (0, 1)] /\ fiter_hint Debug g s = Panic /\
  exists h, fiter_hint Release g s = Ret (0, Some h) /\ 2 ^ 31 <= h.
Proof.
  exists h3a, [(0, 0); (0, 1)], (2, 2).
  split; [unfold stored; simpl; lia|]. split.
  { apply (r_next _ _ [(0, 0)] (0, 1)); [|vm_compute; reflexivity].
    apply (r_next _ _ [] (0, 0)); [apply r_init|vm_compute; reflexivity]. }
  split; [auto|]. split; [vm_compute; reflexivity|].
  eexists. split; [vm_compute; reflexivity|]. lia.
Qed.

Print Assumptions C47_rebuild_partial.
Print Assumptions C48_hint_partial.
