(** The turns of the global propagation when the matrix is the union of two propagated graphs:
    the cells stay far below [+oo], even when the graphs contradict each other and when sums
    saturate at [-oo].  Proof helpers. *)
From Verif Require Import Machine TimeValue Interval Spec SpecSets Tac TimeValueProofs Graph
  MaxPlus FwBound GraphProofs GraphOps GraphGrow GraphSafe GraphMem GraphHist GraphTight.

(** ** Walks over two sets of edges *)

Record stp := mkS { tg : bool; src : Z; dst : Z; wt : Z }.
Fixpoint chain (i : Z) (l : list stp) (j : Z) : Prop :=
  match l with [] => i = j | s :: l => src s = i /\ chain (dst s) l j end.
Fixpoint wsum (l : list stp) : Z := match l with [] => 0 | s :: l => wt s + wsum l end.
(** The walk goes from one set to the other one at the nodes of [P] only. *)
Fixpoint turns (P : Z -> Prop) (l : list stp) : Prop :=
  match l with
  | s :: ((s' :: _) as r) => (tg s = tg s' \/ P (src s')) /\ turns P r
  | _ => True
  end.

Lemma chain_app : forall a i b j, chain i (a ++ b) j <-> exists x, chain i a x /\ chain x b j.
Proof.
  induction a as [|s a IH]; intros i b j; simpl.
  - split; [eauto|]. intros (x & -> & H). auto.
  - rewrite IH. split.
    + intros (E & x & X & Y). eauto.
    + intros (x & (E & X) & Y). eauto.
Qed.
Lemma wsum_app : forall a b, wsum (a ++ b) = wsum a + wsum b.
Proof. induction a as [|s a IH]; intros b; simpl; auto. rewrite IH. lia. Qed.
Lemma turns_tl : forall P s l, turns P (s :: l) -> turns P l.
Proof. intros P s [|s' l]; simpl; tauto. Qed.
Lemma turns_app : forall P a b, turns P (a ++ b) -> turns P a /\ turns P b.
Proof.
  intros P. induction a as [|s a IH]; intros b H; [simpl in *; auto|].
  destruct a as [|s' a].
  - split; [simpl; auto|]. simpl in H. destruct b; simpl in *; tauto.
  - cbn [app] in H. destruct H as (H1 & H2). destruct (IH b) as (X & Y); [exact H2|].
    split; auto. split; auto.
Qed.
Lemma turns_mono : forall (P Q : Z -> Prop) l, (forall x, P x -> Q x) -> turns P l -> turns Q l.
Proof.
  intros P Q l H. induction l as [|s l IH]; [simpl; auto|]. destruct l as [|s' l]; [simpl; auto|].
  intros (X & Y). split; [destruct X; auto|]. apply IH. exact Y.
Qed.
Lemma turns_join : forall P k a b i j, turns P a -> turns P b -> chain i a k -> chain k b j -> P k ->
  turns P (a ++ b).
Proof.
  intros P k. induction a as [|s a IH]; intros b i j A B Ca Cb Pk; [simpl; auto|].
  destruct Ca as (E & Ca). destruct a as [|s' a].
  - simpl in Ca. subst k. simpl. destruct b as [|s' b]; simpl; auto. destruct Cb as (E' & Cb).
    split; [right; congruence|]. exact B.
  - destruct A as (A1 & A2). cbn [app]. split; auto. apply (IH b (dst s) j); auto.
Qed.

Section Path.
  Variables (n B : Z) (E : bool -> Z -> Z -> Z -> Prop).
  Hypothesis B0 : 0 <= B.
  Hypothesis HB : forall b i j w, E b i j w -> node n i /\ node n j /\ w <= B.
  Hypothesis Room : 4 * (n + 1) * B < oo.

  Definition edges (l : list stp) : Prop := Forall (fun s => E (tg s) (src s) (dst s) (wt s)) l.
  Definition adm (P : Z -> Prop) (l : list stp) : Prop := edges l /\ turns P l.

  Lemma adm_app : forall P a b, adm P (a ++ b) -> adm P a /\ adm P b.
  Proof.
    intros P a b (X & Y). apply Forall_app in X. apply turns_app in Y. unfold adm, edges. tauto.
  Qed.
  Lemma adm_mid : forall P a b c, adm P (a ++ b ++ c) -> adm P b.
  Proof. intros P a b c H. apply adm_app in H as (_ & H). apply adm_app in H. tauto. Qed.

  (** The part after the last visit of [x] *)
  Lemma last_visit : forall x l i j, chain i l j ->
    Forall (fun s => dst s <> x) l \/
    exists a b, l = a ++ b /\ a <> [] /\ chain i a x /\ chain x b j /\ Forall (fun s => dst s <> x) b.
  Proof.
    intros x. induction l as [|s l IH]; intros i j C; [left; constructor|].
    destruct C as (Es & C). destruct (IH _ _ C) as [F|(a & b & -> & _ & Ca & Cb & F)].
    - destruct (Z.eq_dec (dst s) x) as [e|e]; [right|left; constructor; auto].
      exists [s], l. split; auto. split; [discriminate|]. simpl. subst x. auto.
    - right. exists (s :: a), b. split; auto. split; [discriminate|]. simpl. auto.
  Qed.

  (** Without positive loops, at most one edge leaves each node. *)
  Lemma erase : forall m S l i j, (length S <= m)%nat -> edges l -> chain i l j -> In i S ->
    Forall (fun s => In (dst s) S) l ->
    (forall a b c z, l = a ++ b ++ c -> chain z b z -> wsum b <= 0) ->
    wsum l <= (Z.of_nat (length S) - 1) * B.
  Proof.
    induction m as [|m IH]; intros S l i j Lm A C Ii F H.
    { destruct S; [destruct Ii|simpl in Lm; lia]. }
    assert (LS : (length (remove Z.eq_dec i S) < length S)%nat) by (apply remove_length_lt; auto).
    assert (L1 : (1 <= length S)%nat) by lia.
    assert (Q : forall b, edges b -> chain i b j -> Forall (fun s => In (dst s) S) b ->
      Forall (fun s => dst s <> i) b ->
      (forall a c d z, b = a ++ c ++ d -> chain z c z -> wsum c <= 0) ->
      wsum b <= (Z.of_nat (length S) - 1) * B).
    { intros b Ab Cb Fb Nb Hb. destruct b as [|s b]; [simpl; nia|].
      destruct Cb as (Es & Cb). inversion Ab as [|? ? As Ab']; subst.
      inversion Fb as [|? ? Fs Fb']; subst. inversion Nb as [|? ? Ns Nb']; subst.
      pose proof (HB _ _ _ _ As) as (_ & _ & Ws).
      assert (R : wsum b <= (Z.of_nat (length (remove Z.eq_dec (src s) S)) - 1) * B).
      { apply (IH _ b (dst s) j); auto; try lia.
        - apply in_in_remove; auto.
        - rewrite Forall_forall in *. intros x Ix. apply in_in_remove; auto.
        - intros a c d z -> Cz. apply (Hb (s :: a) c d z); auto. }
      cbn [wsum]. nia. }
    destruct (last_visit i l i j C) as [Nl|(a & b & -> & _ & Ca & Cb & Nb)].
    - apply Q; auto.
    - rewrite wsum_app. assert (wsum a <= 0) by (apply (H [] a b i); auto).
      apply Forall_app in A as (Aa & Ab). apply Forall_app in F as (Fa & Fb).
      assert (wsum b <= (Z.of_nat (length S) - 1) * B); [|lia].
      apply Q; auto. intros a' c d z -> Cz. apply (H (a ++ a') c d z); auto.
      rewrite <- app_assoc. auto.
  Qed.
  Lemma erase_node : forall l i j, edges l -> chain i l j -> l <> [] ->
    (forall a b c z, l = a ++ b ++ c -> chain z b z -> wsum b <= 0) -> wsum l <= (n - 1) * B.
  Proof.
    intros l i j A C Nl H. destruct l as [|s l]; [congruence|].
    assert (Ns : node n i). { destruct C as (<- & _). apply Forall_inv in A. apply HB in A. tauto. }
    replace n with (Z.of_nat (length (nodes n))).
    - apply (erase (length (nodes n)) (nodes n) (s :: l) i j); auto.
      + apply nodes_in; auto.
      + eapply Forall_impl; [|exact A]. intros x X. apply nodes_in. apply HB in X. tauto.
    - unfold nodes. rewrite map_length, seq_length. unfold node in Ns. lia.
  Qed.

  (** No segment is lost by saturation. *)
  Definition lossless (l : list stp) : Prop := forall a b c, l = a ++ b ++ c -> - oo < wsum b.
  Lemma lossless_mid : forall a b c, lossless (a ++ b ++ c) -> lossless b.
  Proof.
    intros a b c H x y z ->. apply (H (a ++ x) y (z ++ c)). rewrite <- !app_assoc. auto.
  Qed.

  (** What the cells are after the turns of the nodes of [P] *)
  Definition above (P : Z -> Prop) (D : mat) : Prop := forall l i j, adm P l -> chain i l j ->
    node n i -> node n j -> lossless l -> wsum l <= D i j.
  Definition under (P : Z -> Prop) (D : mat) : Prop := forall i j, node n i -> node n j ->
    D i j = - oo \/ exists l, adm P l /\ chain i l j /\ D i j <= wsum l.

  Section Stage.
    Variables (P : Z -> Prop) (D : mat).
    Hypothesis Ab : above P D.
    Hypothesis Dg : forall i, node n i -> D i i <= 0.

    (** The shortest positive loop would have been seen. *)
    Lemma no_loop : forall m l z, (length l <= m)%nat -> adm P l -> chain z l z -> wsum l <= 0.
    Proof.
      induction m as [|m IH]; intros l z Lm A C.
      { destruct l; [simpl; lia|simpl in Lm; lia]. }
      destruct (Z_le_gt_dec (wsum l) 0) as [|G]; auto. exfalso.
      destruct l as [|s l]; [simpl in G; lia|]. set (L := s :: l) in *.
      assert (Nz : node n z).
      { destruct C as (<- & _). destruct A as (A & _). apply Forall_inv in A. apply HB in A. tauto. }
      assert (n1 : 0 <= (n - 1) * B) by (unfold node in Nz; nia).
      assert (Sg : forall a b c, L = a ++ b ++ c -> (length b < length L)%nat -> wsum b <= (n - 1) * B).
      { intros a b c Q Lb. destruct b as [|s' b']; [simpl; lia|]. set (b := s' :: b') in *.
        rewrite Q in C. apply chain_app in C as (x & _ & C). apply chain_app in C as (y & C & _).
        rewrite Q in A. apply adm_mid in A.
        apply (erase_node b x y); auto; [apply A|discriminate|].
        intros a' b'' c' w Qb Cw. apply (IH b'' w); auto.
        - rewrite Qb, !app_length in Lb. lia.
        - rewrite Qb in A. apply adm_mid in A. auto. }
      assert (LL : lossless L).
      { intros a b c Q. destruct b as [|s' b']; [simpl; unfold oo; lia|]. set (b := s' :: b') in *.
        assert (Lb : (length L = length a + (length b + length c))%nat) by (rewrite Q, !app_length; lia).
        assert (Lb1 : (1 <= length b)%nat) by (simpl; lia).
        assert (Wa : wsum a <= (n - 1) * B) by (apply (Sg [] a (b ++ c)); auto; lia).
        assert (Wc : wsum c <= (n - 1) * B).
        { apply (Sg (a ++ b) c []); [rewrite app_nil_r, <- app_assoc; auto|lia]. }
        assert (W : wsum L = wsum a + (wsum b + wsum c)) by (rewrite Q, !wsum_app; lia).
        assert (2 * ((n - 1) * B) < oo) by nia. lia. }
      pose proof (Ab L z z A C Nz Nz LL) as X. specialize (Dg z Nz). lia.
    Qed.
    Lemma adm_le : forall l i j, adm P l -> chain i l j -> node n i -> wsum l <= (n - 1) * B.
    Proof.
      intros l i j A C Ni. destruct l as [|s l]; [simpl; unfold node in Ni; nia|].
      apply (erase_node (s :: l) i j); auto; [apply A|discriminate|].
      intros a b c z Q Cz. apply (no_loop (length b) b z); auto. rewrite Q in A. apply adm_mid in A. auto.
    Qed.
    Lemma under_le : under P D -> forall i j, node n i -> node n j -> D i j <= (n - 1) * B.
    Proof.
      intros U i j Ni Nj. destruct (U i j Ni Nj) as [->|(l & A & C & L)].
      - assert (0 <= (n - 1) * B) by (unfold node in Ni; nia). unfold oo. lia.
      - pose proof (adm_le l i j A C Ni). lia.
    Qed.

    (** A walk that turns at [k] too *)
    Variable k : Z.
    Let Pk (x : Z) : Prop := P x \/ x = k.
    Lemma last_turn : forall l i j, adm Pk l -> chain i l j ->
      adm P l \/ exists a b, l = a ++ b /\ a <> [] /\ b <> [] /\ chain i a k /\ chain k b j /\ adm P b.
    Proof.
      induction l as [|s l IH]; intros i j A C; [left; split; [constructor|simpl; auto]|].
      destruct A as (Ae & At). destruct C as (Es & C). pose proof (turns_tl _ _ _ At) as At'.
      inversion Ae as [|? ? As Ae']; subst.
      destruct (IH (dst s) j) as [A|(a & b & Q & Na & Nb & Ca & Cb & Adb)]; auto; [split; auto| |].
      - destruct l as [|s' l]; [left; split; [exact Ae|simpl; auto]|]. destruct At as (T & _). destruct C as (Es' & C).
        destruct T as [T|[T|T]].
        + left. split; [exact Ae|]. split; [auto|apply A].
        + left. split; [exact Ae|]. split; [auto|apply A].
        + right. exists [s], (s' :: l). split; auto. split; [discriminate|]. split; [discriminate|].
          split; [simpl; split; congruence|]. split; [|exact A]. split; auto.
      - right. exists (s :: a), b. subst l. split; auto. split; [discriminate|]. split; auto.
        split; [simpl; auto|]. split; auto.
    Qed.
    Lemma to_k : forall m l i, (length l <= m)%nat -> adm Pk l -> chain i l k ->
      exists a b, l = a ++ b /\ chain i a k /\ adm P a /\ wsum l <= wsum a.
    Proof.
      induction m as [|m IH]; intros l i Lm A C.
      { destruct l; [|simpl in Lm; lia]. exists [], []. split; auto. split; auto. split; [|lia].
        split; [constructor|simpl; auto]. }
      destruct (last_turn l i k A C) as [A'|(a & b & Q & Na & Nb & Ca & Cb & Ad)].
      - exists l, []. rewrite app_nil_r. split; auto. split; auto. split; auto. lia.
      - assert (Lb : (0 < length b)%nat) by (destruct b; [congruence|simpl; lia]).
        assert (Ll : (length l = length a + length b)%nat) by (rewrite Q, app_length; lia).
        assert (Aa : adm Pk a). { rewrite Q in A. apply adm_app in A. tauto. }
        destruct (IH a i) as (a1 & a2 & Qa & C1 & A1 & W1); auto; [lia|].
        exists a1, (a2 ++ b). split; [rewrite app_assoc, <- Qa; auto|]. split; auto. split; auto.
        assert (wsum b <= 0) by (apply (no_loop (length b) b k); auto).
        rewrite Q, wsum_app. lia.
    Qed.
  End Stage.

  (** One turn *)
  Definition ssum (a b : Z) : Z :=
    if (a =? - oo) || (b =? - oo) then - oo else Z.max (- oo) (a + b).
  Definition smat (D : mat) (k : Z) : mat := fun a b => Z.max (D a b) (ssum (D a k) (D k b)).

  Lemma above_step : forall P D k, above P D -> (forall i, node n i -> D i i <= 0) -> node n k ->
    above (fun x => P x \/ x = k) (smat D k).
  Proof.
    intros P D k Ab Dg Nk l i j A C Ni Nj LL.
    destruct (last_turn P k l i j A C) as [A'|(a & b & Q & Na & Nb & Ca & Cb & Adb)].
    - pose proof (Ab l i j A' C Ni Nj LL). unfold smat. lia.
    - assert (Aa : adm (fun x => P x \/ x = k) a). { rewrite Q in A. apply adm_app in A. tauto. }
      destruct (to_k P D Ab Dg k (length a) a i) as (a1 & a2 & Qa & C1 & A1 & W1); auto.
      assert (L1 : lossless a1).
      { apply (lossless_mid [] a1 (a2 ++ b)). cbn [app]. rewrite app_assoc, <- Qa, <- Q. auto. }
      assert (L2 : lossless b).
      { apply (lossless_mid a b []). rewrite app_nil_r, <- Q. auto. }
      pose proof (Ab a1 i k A1 C1 Ni Nk L1) as X1. pose proof (Ab b k j Adb Cb Nk Nj L2) as X2.
      assert (Wl : wsum l = wsum a + wsum b) by (rewrite Q, wsum_app; auto).
      pose proof (L1 [] a1 [] ltac:(rewrite app_nil_r; auto)) as Y1.
      pose proof (L2 [] b [] ltac:(rewrite app_nil_r; auto)) as Y2.
      unfold smat, ssum. replace ((D i k =? - oo) || (D k j =? - oo)) with false by lia. lia.
  Qed.
  Lemma under_step : forall P D k, under P D -> node n k -> under (fun x => P x \/ x = k) (smat D k).
  Proof.
    intros P D k U Nk i j Ni Nj. unfold smat.
    assert (Mo : forall l, adm P l -> adm (fun x => P x \/ x = k) l).
    { intros l (X & Y). split; auto. eapply turns_mono; [|exact Y]. auto. }
    assert (V : - oo <= ssum (D i k) (D k j)).
    { unfold ssum. destruct (_ || _); lia. }
    destruct (Z.max_spec (D i j) (ssum (D i k) (D k j))) as [(_ & ->)|(L & ->)].
    - unfold ssum. destruct ((D i k =? - oo) || (D k j =? - oo)) eqn:T; [left; auto|].
      destruct (U i k Ni Nk) as [?|(l1 & A1 & C1 & L1)]; [lia|].
      destruct (U k j Nk Nj) as [?|(l2 & A2 & C2 & L2)]; [lia|].
      destruct (Z_le_gt_dec (D i k + D k j) (- oo)); [left; lia|right].
      exists (l1 ++ l2). split; [|split; [apply chain_app; eauto|rewrite wsum_app; lia]].
      apply Mo in A1. apply Mo in A2. split; [apply Forall_app; split; [apply A1|apply A2]|].
      apply (turns_join _ k l1 l2 i j); auto; [apply A1|apply A2].
    - destruct (U i j Ni Nj) as [?|(l & A & C & Ll)]; [left; auto|right].
      exists l. split; auto.
  Qed.
End Path.

(** ** The turns of the program *)

Lemma tv_add_ssum : forall U a b, - oo <= a <= U -> - oo <= b <= U -> 2 * U < oo -> 0 <= U ->
  tv_add a b = Ret (ssum a b).
Proof.
  intros U a b A B L U0. unfold tv_add, ssum.
  pts; unfold sat64, i64_min, i64_max in *; tests; f_equal; lia.
Qed.
Lemma ssum_0 : forall x d, - oo <= x -> d <= 0 -> ssum x d <= x /\ ssum d x <= x.
Proof.
  intros x d Hx Hd. unfold ssum.
  destruct (x =? - oo) eqn:E1; destruct (d =? - oo) eqn:E2; cbn [orb]; lia.
Qed.

Section Run.
  Variables (p : profile) (n U : Z).
  Hypothesis U0 : 0 <= U.
  Hypothesis UL : 2 * U < oo.

  Lemma srow : forall g k i D, mem_ok g -> g_size g = n -> node n k -> node n i -> D k k <= 0 ->
    (forall b, node n b -> cell g k b = D k b /\ cell g i b = D i b) ->
    (forall a b, node n a -> node n b -> - oo <= D a b <= U) ->
    exists g', g_gp_row p g k i = Ret g' /\ same_shape g g' /\
      forall a b, node n a -> node n b -> cell g' a b = if a =? i then smat D k a b else cell g a b.
  Proof.
    intros g k i D M Sz Nk Ni Dk C Bd. unfold g_gp_row. rewrite Sz.
    assert (n0 : 0 <= n) by (unfold node in *; lia).
    assert (Ak : forall b, node n b -> smat D k k b = D k b).
    { intros b Nb. unfold smat. destruct (ssum_0 (D k b) (D k k)); auto; [apply Bd; auto|lia]. }
    assert (Bk : forall a, node n a -> smat D k a k = D a k).
    { intros a Na. unfold smat. destruct (ssum_0 (D a k) (D k k)); auto; [apply Bd; auto|lia]. }
    edestruct (ofold_range graph (fun g j =>
             a <- g_lower p g i k ;; b <- g_lower p g k j ;; val <- tv_add a b ;;
             g_raise p g i j val)
        (fun j g1 => same_shape g g1 /\ forall a b, node n a -> node n b ->
           cell g1 a b = if (a =? i) && (b <? j) then smat D k a b else cell g a b)
        0 n g n0) as (g1 & E1 & S1 & I1).
    { split; auto. intros a b Na Nb. unfold node in *.
      replace (b <? 0) with false by lia. rewrite andb_false_r. auto. }
    { intros j g1 Hj (S1 & I1).
      assert (M1 : mem_ok g1) by (eapply same_shape_mem; eauto).
      assert (Z1 : g_size g1 = n) by (rewrite <- Sz; apply S1).
      assert (Nj : node n j) by (unfold node; lia).
      rewrite !g_lower_ok by (rewrite ?Z1; auto). cbn [bind].
      assert (R1 : cell g1 i k = D i k).
      { rewrite I1 by auto. rewrite Bk by auto. destruct (_ && _); auto. apply C; auto. }
      assert (R2 : cell g1 k j = D k j).
      { rewrite I1 by auto. rewrite Ak by auto. destruct (_ && _); auto. apply C; auto. }
      rewrite R1, R2, (tv_add_ssum U) by (try apply Bd; auto; lia). cbn [bind].
      destruct (g_raise_ok p g1 i j (ssum (D i k) (D k j))) as (g2 & E2 & S2 & I2);
        rewrite ?Z1; auto.
      exists g2. split; auto. split; [eapply same_shape_trans; eauto|].
      intros a b Na Nb. rewrite I2 by (unfold node in *; lia). rewrite !I1 by auto.
      replace (j <? j) with false by lia. rewrite andb_false_r.
      destruct (a =? i) eqn:Ta; destruct (b =? j) eqn:Tb; cbn [andb];
        try replace (b <? j + 1) with (b <? j) by lia; auto.
      replace (b <? j + 1) with true by lia. assert (a = i) by lia. assert (b = j) by lia. subst a b.
      unfold smat. destruct (C j Nj) as (_ & ->). auto. }
    exists g1. split; auto. split; auto. intros a b Na Nb. rewrite I1 by auto.
    unfold node in *. replace (b <? n) with true by lia. rewrite andb_true_r. auto.
  Qed.

  Lemma srows : forall k D, node n k -> D k k <= 0 ->
    (forall a b, node n a -> node n b -> - oo <= D a b <= U) ->
    forall m a g, a = n - Z.of_nat m -> 0 <= a -> mem_ok g -> g_size g = n ->
    (forall x y, node n x -> node n y -> cell g x y = if x <? a then smat D k x y else D x y) ->
    exists g' ok, g_gp_rows p g k (zrange a n) = Ret (g', ok) /\
      (ok = true -> mem_ok g' /\ g_size g' = n /\
         (forall x y, node n x -> node n y -> cell g' x y = smat D k x y) /\
         forall x, node n x -> a <= x -> smat D k x x <= 0).
  Proof.
    intros k D Nk Dk Bd. induction m as [|m IH]; intros a g Ha a0 M Sz I.
    - rewrite zrange_nil by lia. exists g, true. simpl. split; auto. intros _. split; auto. split; auto.
      split; [|intros x Nx La; unfold node in *; lia].
      intros x y Nx Ny. rewrite I by auto. unfold node in *. replace (x <? a) with true by lia. auto.
    - rewrite zrange_cons by lia. cbn [g_gp_rows].
      assert (Na : node n a) by (unfold node; lia).
      assert (Ak : forall b, node n b -> smat D k k b = D k b).
      { intros b Nb. unfold smat. destruct (ssum_0 (D k b) (D k k)); auto; [apply Bd; auto|lia]. }
      destruct (srow g k a D) as (g1 & E1 & S1 & I1); auto.
      { intros b Nb. rewrite !I by auto. replace (a <? a) with false by lia. split; auto.
        rewrite Ak by auto. destruct (k <? a); auto. }
      rewrite E1. cbn [bind].
      assert (M1 : mem_ok g1) by (eapply same_shape_mem; eauto).
      assert (Z1 : g_size g1 = n) by (rewrite <- Sz; apply S1).
      rewrite g_lower_ok by (rewrite ?Z1; auto). cbn [bind].
      rewrite I1 by auto. rewrite Z.eqb_refl. unfold is_strictly_positive.
      destruct (0 <? smat D k a a) eqn:T; [do 2 eexists; split; [reflexivity|discriminate]|].
      destruct (IH (a + 1) g1) as (g' & ok & E' & R'); auto; try lia.
      { intros x y Nx Ny. rewrite I1 by auto. rewrite I by auto. destruct (x =? a) eqn:T2.
        - replace (x <? a + 1) with true by lia. auto.
        - replace (x <? a + 1) with (x <? a) by lia. auto. }
      exists g', ok. split; auto. intros Ok. destruct (R' Ok) as (P0 & P1 & P2 & P3).
      split; auto. split; auto. split; auto.
      intros x Nx La. destruct (Z.eq_dec x a) as [->|]; [lia|]. apply P3; auto. lia.
  Qed.
End Run.

(** The global propagation of such a matrix returns. *)
Lemma global_returns : forall p g B (E : bool -> Z -> Z -> Z -> Prop), mem_ok g -> vcells (g_size g) (cell g) -> 0 <= B ->
  (forall b i j w, E b i j w -> node (g_size g) i /\ node (g_size g) j /\ w <= B) ->
  4 * (g_size g + 1) * B < oo ->
  (forall i, node (g_size g) i -> cell g i i <= 0) ->
  above (g_size g) E (fun _ => False) (cell g) -> under (g_size g) E (fun _ => False) (cell g) ->
  exists x, g_global p g = Ret x.
Proof.
  intros p g B E M V B0 HB Rm Dg Ab Un. unfold g_global. set (n := g_size g) in *.
  assert (n0 : 0 <= n) by apply M.
  assert (H : forall m k g1 (P : Z -> Prop), k = n - Z.of_nat m -> 0 <= k -> mem_ok g1 -> g_size g1 = n ->
    vcells n (cell g1) -> (forall i, node n i -> cell g1 i i <= 0) ->
    above n E P (cell g1) -> under n E P (cell g1) ->
    exists x, g_gp_turns p g1 (zrange k n) = Ret x).
  { induction m as [|m IH]; intros k g1 P Hk k0 M1 Z1 V1 D1 A1 U1.
    - rewrite zrange_nil by lia. simpl. eauto.
    - rewrite zrange_cons by lia. cbn [g_gp_turns]. rewrite Z1.
      assert (Nk : node n k) by (unfold node; lia).
      pose proof (under_le n B E B0 HB Rm P (cell g1) A1 D1 U1) as Le.
      assert (Bd : forall a b, node n a -> node n b -> - oo <= cell g1 a b <= (n - 1) * B).
      { intros a b Na Nb. split; [apply V1; auto|apply Le; auto]. }
      assert (N1 : 0 <= (n - 1) * B /\ 2 * ((n - 1) * B) < oo) by nia.
      destruct (srows p n ((n - 1) * B) (proj1 N1) (proj2 N1) k (cell g1) Nk (D1 k Nk) Bd (Z.to_nat n) 0 g1)
        as (g2 & ok & E2 & R2); auto; try lia.
      { intros x y Nx Ny. unfold node in Nx. replace (x <? 0) with false by lia. auto. }
      rewrite E2. cbn [bind]. destruct ok; [|eauto].
      destruct (R2 eq_refl) as (M2 & Z2 & C2 & D2).
      assert (Ext : forall Q D D', (forall x y, node n x -> node n y -> D' x y = D x y) ->
        (above n E Q D -> above n E Q D') /\ (under n E Q D -> under n E Q D')).
      { intros Q D D' X. split.
        - intros Y l i j Al Cl Ni Nj Ll. rewrite X by auto. eapply Y; eauto.
        - intros Y i j Ni Nj. rewrite X by auto. apply Y; auto. }
      apply (IH (k + 1) g2 (fun x => P x \/ x = k)); auto; try lia.
      + intros a b Na Nb. rewrite C2 by auto. unfold smat, ssum, valid.
        pose proof (Bd a b Na Nb). pose proof (Bd a k Na Nk). pose proof (Bd k b Nk Nb).
        destruct (_ || _); unfold oo in *; lia.
      + intros i Ni. rewrite C2 by auto. apply D2; auto. apply Ni.
      + eapply Ext; [exact C2|]. apply (above_step n B E B0 HB Rm); auto.
      + eapply Ext; [exact C2|]. apply (under_step n B E); auto. }
  apply (H (Z.to_nat n) 0 g (fun _ => False)); auto; lia.
Qed.

(** ** [merge] *)

Lemma chain_walk : forall (F : Z -> Z -> Z -> Prop) l i j, l <> [] ->
  Forall (fun s => F (src s) (dst s) (wt s)) l -> chain i l j -> exists x, walk F i x j (wsum l).
Proof.
  intros F. induction l as [|s l IH]; intros i j Nl A C; [congruence|].
  inversion A as [|? ? As Al]; subst. destruct C as (<- & C). destruct l as [|s' l].
  - simpl in C. subst j. exists []. simpl. rewrite Z.add_0_r. constructor. auto.
  - destruct (IH (dst s) j) as (x & W); auto; [discriminate|]. exists (dst s :: x).
    change (wsum (s :: s' :: l)) with (wt s + wsum (s' :: l)). constructor; auto.
Qed.
Lemma walk_chain : forall (b : bool) (F : Z -> Z -> Z -> Prop) i x j w, walk F i x j w ->
  exists l, Forall (fun s => tg s = b /\ F (src s) (dst s) (wt s)) l /\ chain i l j /\ wsum l = w.
Proof.
  intros b F i x j w W. induction W as [i j w X|i y j l w1 w2 X W (l' & A & C & S)].
  - exists [mkS b i j w]. split; [constructor; auto|]. simpl. split; auto. lia.
  - exists (mkS b i y w1 :: l'). split; [constructor; auto|]. simpl. split; auto. lia.
Qed.
Lemma one_tag : forall l s, turns (fun _ => False) (s :: l) -> Forall (fun x => tg x = tg s) (s :: l).
Proof.
  induction l as [|s' l IH]; intros s T; [constructor; auto|].
  destruct T as ([T|T] & T'); [|tauto]. constructor; auto. rewrite T. apply IH. exact T'.
Qed.
Lemma tag_turns : forall b l, Forall (fun x => tg x = b) l -> turns (fun _ => False) l.
Proof.
  intros b. induction l as [|s l IH]; intros F; [simpl; auto|].
  inversion F as [|? ? Fs Fl]; subst. destruct l as [|s' l]; [simpl; auto|].
  split; [left|apply IH; auto]. inversion Fl; subst. auto.
Qed.

Lemma merge_returns : forall p g h E F B,
  mem_ok g -> clean g -> tight (g_size g) E (cell g) ->
  mem_ok h -> clean h -> tight (g_size h) F (cell h) ->
  0 <= B -> ebnd B E -> ebnd B F ->
  4 * (Z.max (g_size g) (g_size h) + 1) * B < oo -> exists x, g_merge p g h = Ret x.
Proof.
  intros p g h E F B Mg Cg Tg Mh Ch Th B0 HE HF L.
  assert (HH : forall a b E F (sw : bool), mem_ok a -> clean a -> tight (g_size a) E (cell a) ->
    mem_ok b -> clean b -> tight (g_size b) F (cell b) -> ebnd B E -> ebnd B F ->
    g_size b <= g_size a -> 4 * (g_size a + 1) * B < oo ->
    exists x, (let '(d, change) := zip_max (g_data a) (g_data b) in
       if change then g_global p (mkG (g_size a) d)
       else Ret (mkG (g_size a) d, if sw : bool then Propagated else Unchanged)) = Ret x).
  { clear - B0. intros a b E F sw Ma Ca Ta Mb Cb Tb HE HF Lab L.
    assert (n0 : 0 <= g_size a <= 65535) by apply Ma.
    assert (b0 : 0 <= g_size b <= 65535) by apply Mb.
    destruct (merge_base a b E F B Ma Ca Ta Mb Cb Tb B0 HE HF Lab) as (OV & MS & M1 & C1 & V1 & Y1 & Y2); [nia|].
    destruct (zip_max (g_data a) (g_data b)) as (d & c). cbn [fst] in *.
    set (n := g_size a) in *. set (a1 := mkG n d) in *. destruct c; [|eauto].
    pose proof Ta as ((Za & TRa) & Ha & Wa). pose proof Tb as ((Zb & TRb) & Hb & Wb).
    set (G := fun t : bool => if t then withdiag n E else withdiag (g_size b) F).
    assert (GN : forall t i j w, G t i j w -> node n i /\ node n j /\ w <= B).
    { intros [|] i j w [X|(Ni & <- & ->)]; try (unfold node in *; lia).
      - pose proof (HE _ _ _ X). destruct (Ha _ _ _ X) as (Ni & Nj & _). split; auto. split; auto. lia.
      - pose proof (HF _ _ _ X). destruct (Hb _ _ _ X) as (Ni & Nj & _). unfold node in *. lia. }
    apply (global_returns p a1 B G); auto.
    - intros i Ni. destruct (Z.eq_dec (cell a1 i i) (- oo)) as [->|e]; [unfold oo; lia|].
      assert (X : ent (cell a1) i i (cell a1 i i)) by (split; auto; lia).
      apply OV in X; auto. destruct X as [(_ & X)|(w & (Nb & _ & _ & ->) & X)].
      + rewrite Za in X by auto. auto.
      + rewrite Zb in X by auto. auto.
    - intros l i j (Al & Tl) Cl Ni Nj _. change (g_size a1) with n in *.
      destruct l as [|s l].
      + simpl in Cl. subst j. simpl. apply (OV i i 0 Ni Ni). left. apply (ent_diag n); auto. lia.
      + apply one_tag in Tl.
        assert (X : Forall (fun x => G (tg s) (src x) (dst x) (wt x)) (s :: l)).
        { unfold edges in Al. rewrite Forall_forall in *. intros x Ix. rewrite <- (Tl x Ix). auto. }
        destruct (chain_walk (G (tg s)) (s :: l) i j) as (q & W); auto; [discriminate|].
        assert (Y : ent (cell a1) i j (wsum (s :: l))).
        { apply OV; auto. unfold G in W. destruct (tg s).
          - left. apply (walk_ent _ n _ TRa (withdiag_ent n E _ Za Ha) i q j); auto.
          - right. pose proof (walk_ent _ (g_size b) _ TRb (withdiag_ent (g_size b) F _ Zb Hb) _ _ _ _ W) as (Y & Yl).
            assert (GF : forall i j w, withdiag (g_size b) F i j w -> node (g_size b) i /\ node (g_size b) j).
            { intros x y w Z. destruct (withdiag_ent (g_size b) F _ Zb Hb _ _ _ Z) as (N1 & N2 & _). auto. }
            destruct (walk_nodes _ (g_size b) GF _ _ _ _ W) as (Nbi & Nbj & _).
            exists (cell b i j). split; [split; auto|auto]. }
        apply Y.
    - intros i j Ni Nj. change (g_size a1) with n in *.
      destruct (Z.eq_dec (cell a1 i j) (- oo)) as [|e]; [left; auto|right].
      assert (X : ent (cell a1) i j (cell a1 i j)) by (split; auto; lia). apply OV in X; auto.
      assert (Y : exists t q w, walk (G t) i q j w /\ cell a1 i j <= w).
      { destruct X as [X|(w & (Nbi & Nbj & Nw & ->) & X)].
        - destruct (Wa i j _ Ni Nj X) as (q & w & W & Lw). exists true, q, w. auto.
        - destruct (Wb i j (cell b i j) Nbi Nbj) as (q & w & W & Lw); [split; auto; lia|].
          exists false, q, w. split; auto. lia. }
      destruct Y as (t & q & w & W & Lw). destruct (walk_chain t (G t) i q j w W) as (l & Al & Cl & <-).
      exists l. split; [|split; auto]. split.
      + eapply Forall_impl; [|exact Al]. intros s (<- & Q). exact Q.
      + apply (tag_turns t). eapply Forall_impl; [|exact Al]. tauto. }
  unfold g_merge. destruct (g_size g <? g_size h) eqn:T.
  - apply (HH h g F E true); auto; [lia|]. replace (g_size h) with (Z.max (g_size g) (g_size h)) by lia. auto.
  - apply (HH g h E F false); auto; [lia|]. replace (g_size g) with (Z.max (g_size g) (g_size h)) by lia. auto.
Qed.
