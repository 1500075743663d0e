(** The global propagation is monotone, and accepted merges of propagated graphs.  Proof
    helpers. *)
From Verif Require Import Machine TimeValue Interval Spec SpecSets Tac TimeValueProofs Graph
  MaxPlus FwBound GraphProofs GraphOps GraphGrow GraphSafe GraphMem GraphHist GraphTight SpecGraph
  GraphSound GraphPath.

Lemma tv_add_mono : forall a b a' b' c c', valid a -> valid b -> valid a' -> valid b' ->
  a <= a' -> b <= b' -> tv_add a b = Ret c -> tv_add a' b' = Ret c' -> c <= c' /\ valid c /\ valid c'.
Proof.
  intros a b a' b' c c' Va Vb Va' Vb' La Lb. unfold tv_add, valid in *.
  pts; unfold sat64, i64_min, i64_max in *; tests; intros [= <-] [= <-]; lia.
Qed.

(** Two graphs of the same size, the second one above the first one *)
Record below (n : Z) (g h : graph) : Prop := {
  b_mem : mem_ok g; b_mem' : mem_ok h; b_size : g_size g = n; b_size' : g_size h = n;
  b_val : vcells n (cell g); b_val' : vcells n (cell h);
  b_le : forall i j, node n i -> node n j -> cell g i j <= cell h i j }.

Lemma row_mono : forall p n k i js g h g' h', below n g h -> node n k -> node n i ->
  (forall j, In j js -> node n j) ->
  ofold (fun g j => a <- g_lower p g i k ;; b <- g_lower p g k j ;; val <- tv_add a b ;;
                    g_raise p g i j val) g js = Ret g' ->
  ofold (fun g j => a <- g_lower p g i k ;; b <- g_lower p g k j ;; val <- tv_add a b ;;
                    g_raise p g i j val) h js = Ret h' ->
  below n g' h'.
Proof.
  intros p n k i. induction js as [|j js IH]; intros g h g' h' L Nk Ni Nj E E'.
  - injection E as <-. injection E' as <-. auto.
  - cbn [ofold] in E, E'. assert (Nj' : node n j) by (apply Nj; simpl; auto).
    pose proof (b_size _ _ _ L) as Sg. pose proof (b_size' _ _ _ L) as Sh.
    pose proof (b_mem _ _ _ L) as Mg. pose proof (b_mem' _ _ _ L) as Mh.
    rewrite !g_lower_ok in E by (auto; rewrite Sg; auto). cbn [bind] in E.
    rewrite !g_lower_ok in E' by (auto; rewrite Sh; auto). cbn [bind] in E'.
    destruct (tv_add (cell g i k) (cell g k j)) as [c| | |] eqn:Q; try discriminate. cbn [bind] in E.
    destruct (tv_add (cell h i k) (cell h k j)) as [c'| | |] eqn:Q'; try discriminate. cbn [bind] in E'.
    destruct (tv_add_mono (cell g i k) (cell g k j) (cell h i k) (cell h k j) c c') as (Lc & Vc & Vc'); auto;
      try (apply L; auto).
    destruct (g_raise_ok p g i j c Mg) as (g1 & E1 & S1 & C1); rewrite ?Sg; auto.
    destruct (g_raise_ok p h i j c' Mh) as (h1 & F1 & T1 & D1); rewrite ?Sh; auto.
    rewrite E1 in E. rewrite F1 in E'. cbn [bind] in E, E'.
    apply (IH g1 h1); auto; [|intros; apply Nj; simpl; auto].
    assert (C2 : forall a b, node n a -> node n b -> cell g1 a b = if (a =? i) && (b =? j) then Z.max (cell g i j) c else cell g a b).
    { intros a b (A & _) (B & _). apply C1; auto. }
    assert (D2 : forall a b, node n a -> node n b -> cell h1 a b = if (a =? i) && (b =? j) then Z.max (cell h i j) c' else cell h a b).
    { intros a b (A & _) (B & _). apply D1; auto. }
    constructor.
    + eapply same_shape_mem; eauto.
    + eapply same_shape_mem; eauto.
    + rewrite <- Sg. apply S1.
    + rewrite <- Sh. apply T1.
    + intros a b Na Nb. rewrite C2 by auto. pose proof (b_val _ _ _ L i j Ni Nj').
      destruct (_ && _); [unfold valid in *; lia|apply L; auto].
    + intros a b Na Nb. rewrite D2 by auto. pose proof (b_val' _ _ _ L i j Ni Nj').
      destruct (_ && _); [unfold valid in *; lia|apply L; auto].
    + intros a b Na Nb. rewrite C2, D2 by auto. pose proof (b_le _ _ _ L i j Ni Nj').
      destruct (_ && _); [lia|apply L; auto].
Qed.

Lemma gp_row_mono : forall p n k i g h g' h', below n g h -> node n k -> node n i ->
  g_gp_row p g k i = Ret g' -> g_gp_row p h k i = Ret h' -> below n g' h'.
Proof.
  intros p n k i g h g' h' L Nk Ni. unfold g_gp_row.
  rewrite (b_size _ _ _ L), (b_size' _ _ _ L). apply row_mono; auto.
  intros j I. apply zrange_in in I. auto.
Qed.

Lemma gp_rows_mono : forall p n k is g h g' ok h', below n g h -> node n k ->
  (forall i, In i is -> node n i) ->
  g_gp_rows p g k is = Ret (g', ok) -> g_gp_rows p h k is = Ret (h', true) -> ok = true /\ below n g' h'.
Proof.
  intros p n k. induction is as [|i is IH]; intros g h g' ok h' L Nk Ni E E'.
  - injection E as <- <-. injection E' as <-. auto.
  - cbn [g_gp_rows] in E, E'. assert (Ni' : node n i) by (apply Ni; simpl; auto).
    destruct (g_gp_row p g k i) as [g1| | |] eqn:Q; try discriminate. cbn [bind] in E.
    destruct (g_gp_row p h k i) as [h1| | |] eqn:Q'; try discriminate. cbn [bind] in E'.
    pose proof (gp_row_mono p n k i g h g1 h1 L Nk Ni' Q Q') as L1.
    rewrite g_lower_ok in E by (try apply L1; rewrite (b_size _ _ _ L1); auto). cbn [bind] in E.
    rewrite g_lower_ok in E' by (try apply L1; rewrite (b_size' _ _ _ L1); auto). cbn [bind] in E'.
    pose proof (b_le _ _ _ L1 i i Ni' Ni') as Le. unfold is_strictly_positive in *.
    destruct (0 <? cell h1 i i) eqn:T; [discriminate|].
    replace (0 <? cell g1 i i) with false in E by lia.
    apply (IH g1 h1 g' ok h'); auto. intros; apply Ni; simpl; auto.
Qed.

Lemma gp_turns_mono : forall p n ks g h g' r h', below n g h -> (forall k, In k ks -> node n k) ->
  g_gp_turns p g ks = Ret (g', r) -> g_gp_turns p h ks = Ret (h', Propagated) ->
  r = Propagated /\ below n g' h'.
Proof.
  intros p n. induction ks as [|k ks IH]; intros g h g' r h' L Nk E E'.
  - injection E as <- <-. injection E' as <-. auto.
  - cbn [g_gp_turns] in E, E'. rewrite (b_size _ _ _ L) in E. rewrite (b_size' _ _ _ L) in E'.
    destruct (g_gp_rows p g k (zrange 0 n)) as [(g1, ok)| | |] eqn:Q; try discriminate. cbn [bind] in E.
    destruct (g_gp_rows p h k (zrange 0 n)) as [(h1, ok')| | |] eqn:Q'; try discriminate. cbn [bind] in E'.
    destruct ok'; [|discriminate].
    destruct (gp_rows_mono p n k (zrange 0 n) g h g1 ok h1) as (-> & L1); auto.
    { apply Nk; simpl; auto. } { intros i I. apply zrange_in in I. auto. }
    apply (IH g1 h1 g' r h'); auto. intros; apply Nk; simpl; auto.
Qed.

Lemma global_mono : forall p n g h g' r h', below n g h -> g_global p g = Ret (g', r) ->
  g_global p h = Ret (h', Propagated) -> r = Propagated /\ below n g' h'.
Proof.
  intros p n g h g' r h' L. unfold g_global. rewrite (b_size _ _ _ L), (b_size' _ _ _ L).
  apply gp_turns_mono; auto. intros k I. apply zrange_in in I. auto.
Qed.

(** A propagated graph and constraints of another one: an accepted propagation of a matrix
    between them gives the closure. *)
Lemma sandwich : forall p a a1 ks E B g' , mem_ok a -> clean a -> tight (g_size a) E (cell a) ->
  0 <= B -> ebnd B E -> Forall kvalid ks -> Forall (kbnd B) ks -> ksize (g_size a) ks = g_size a ->
  4 * (g_size a + 1) * B < oo ->
  g_size a1 = g_size a -> mem_ok a1 -> vcells (g_size a) (cell a1) ->
  (forall i j w, eunion E ks i j w -> node (g_size a) i /\ node (g_size a) j /\ ent (cell a1) i j w) ->
  (forall i j, node (g_size a) i -> node (g_size a) j -> cell a i j <= cell a1 i j) ->
  (forall t, msat (g_size a) (cell a) t -> Forall (fun k => ksat k t) ks -> msat (g_size a) (cell a1) t) ->
  g_global p a1 = Ret (g', Propagated) -> tight (g_size a) (eunion E ks) (cell g').
Proof.
  intros p a a1 ks E B g' M Cl T B0 HE Kv Kb KS L S1 M1 V1 Y1 Le Ms Eg. set (n := g_size a) in *.
  destruct (extend_tight p a ks None E B) as (x & r & Ex & H); auto; try discriminate.
  { fold n. rewrite KS. auto. }
  assert (S0 : 0 <= n) by apply M. assert (N1 : 0 <= (n + 1) * B) by nia.
  assert (V : vcells n (cell a)).
  { intros i j Ni Nj. pose proof (tight_all_bnd _ _ _ _ T B0 HE i j Ni Nj) as X. fold n in X.
    unfold bnd in X. unfold valid. assert ((n - 1) * B < oo) by lia. unfold node in Ni. lia. }
  destruct (inserted_ok p ks a M Cl V Kv) as (a2 & E2 & M2 & C2 & S2 & V2 & O2 & MS2).
  assert (Eq : g_extend p a None ks = g_global p a2).
  { unfold g_extend. rewrite E2. auto. }
  rewrite Eq in Ex. fold n in S2. rewrite KS in S2.
  assert (BL : below n a2 a1).
  { constructor; auto. - rewrite <- S2. auto.
    - intros i j Ni Nj. destruct (Z.eq_dec (cell a2 i j) (- oo)) as [e|e].
      { rewrite e. specialize (V1 i j Ni Nj). unfold valid in V1. lia. }
      assert (X : ent (cell a2) i j (cell a2 i j)) by (split; auto; lia).
      rewrite S2 in O2. apply O2 in X; auto. destruct X as [(_ & X)|(w & X & Lw)].
      + unfold extm in X. fold n in X. unfold node in Ni, Nj.
        replace (i <? n) with true in X by lia. replace (j <? n) with true in X by lia. simpl in X.
        specialize (Le i j Ni Nj). lia.
      + destruct (Y1 i j w) as (_ & _ & (_ & Y)); [right; auto|]. lia. }
  destruct (global_mono p n a2 a1 x r g' BL Ex Eg) as (-> & BL').
  destruct H as [(_ & Sx & Mx & Cx & Tx & Msx)|(? & _)]; [|discriminate].
  fold n in Sx. rewrite KS in Sx. rewrite Sx in Tx.
  assert (EQ : forall i j, node n i -> node n j -> cell x i j = cell g' i j).
  { intros i j Ni Nj. pose proof (b_le _ _ _ BL' i j Ni Nj) as Lx.
    destruct (Z.eq_dec (cell g' i j) (- oo)) as [e|e].
    { pose proof (b_val _ _ _ BL' i j Ni Nj). unfold valid in *. lia. }
    assert (X : ent (cell x) i j (cell g' i j)).
    { apply (closed_sem n); auto; [apply Tx|]. intros t St.
      rewrite <- Sx in St. apply Msx in St. destruct St as (St & Sk).
      pose proof (global_tsat p a1 g' t M1) as G. rewrite S1 in G. apply (G V1 (Ms t St Sk) Eg i j _ Ni Nj).
      split; auto. lia. }
    destruct X as (_ & X). lia. }
  eapply tight_ext; [| | |exact Tx].
  - intros i j w. tauto.
  - intros i j c Ni Nj. unfold ent. rewrite EQ by auto. tauto.
  - intros i Ni. auto.
Qed.

Lemma merge_accept : forall p g h ks ks' B g' r,
  mem_ok g -> clean g -> tight (g_size g) (kedges ks) (cell g) ->
  mem_ok h -> clean h -> tight (g_size h) (kedges ks') (cell h) ->
  0 <= B -> Forall kvalid ks -> Forall (kbnd B) ks -> Forall kvalid ks' -> Forall (kbnd B) ks' ->
  Forall (inside g) ks -> Forall (inside h) ks' ->
  let m := Z.max (g_size g) (g_size h) in
  4 * (m + 1) * B < oo ->
  g_merge p g h = Ret (g', r) -> r <> Fatal ->
  r <> Recovered /\ g_size g' = m /\ mem_ok g' /\ clean g' /\
  tight m (munion (kedges ks) (kedges ks')) (cell g') /\
  (forall t, msat m (cell g') t <-> msat (g_size g) (cell g) t /\ msat (g_size h) (cell h) t) /\
  (r = Unchanged -> g' = g).
Proof.
  intros p g h ks ks' B g' r Mg Cg Tg Mh Ch Th B0 Kv Kb Kv' Kb' In In' m L Em NF.
  assert (HH : forall a b ks ks' (sw : bool), mem_ok a -> clean a -> tight (g_size a) (kedges ks) (cell a) ->
    mem_ok b -> clean b -> tight (g_size b) (kedges ks') (cell b) ->
    Forall (kbnd B) ks -> Forall kvalid ks' -> Forall (kbnd B) ks' -> Forall (inside b) ks' ->
    g_size b <= g_size a -> 4 * (g_size a + 1) * B < oo ->
    (let '(d, change) := zip_max (g_data a) (g_data b) in
       if change then g_global p (mkG (g_size a) d)
       else Ret (mkG (g_size a) d, if sw : bool then Propagated else Unchanged)) = Ret (g', r) ->
    r <> Recovered /\ g_size g' = g_size a /\ mem_ok g' /\ clean g' /\
    tight (g_size a) (munion (kedges ks) (kedges ks')) (cell g') /\
    (forall t, msat (g_size a) (cell g') t <-> msat (g_size a) (cell a) t /\ msat (g_size b) (cell b) t) /\
    (r = Unchanged -> sw = false /\ g' = a)).
  { clear - B0 NF. intros a b ks ks' sw Ma Ca Ta Mb Cb Tb Kb Kv' Kb' In' Lab L E.
    assert (HE : ebnd B (kedges ks)) by (apply kedges_bnd; auto).
    assert (HF : ebnd B (kedges ks')) by (apply kedges_bnd; auto).
    assert (n0 : 0 <= g_size a <= 65535) by apply Ma.
    destruct (merge_base a b _ _ B Ma Ca Ta Mb Cb Tb B0 HE HF Lab) as (OV & MS & M1 & C1 & V1 & Y1 & Y2); [nia|].
    pose proof (zip_max_unchanged (g_data a) (g_data b)) as ZU.
    destruct (zip_max (g_data a) (g_data b)) as (d & c). cbn [fst snd] in *.
    set (a1 := mkG (g_size a) d) in *. destruct c.
    - assert (RP : r = Propagated).
      { pose proof (global_safe (fun _ => False) p a1 M1 V1 ltac:(tauto)) as S. rewrite E in S. simpl in S.
        destruct S as [(-> & _)|(-> & _)]; congruence. }
      subst r.
      assert (SH : same_shape a1 g').
      { pose proof (global_safe (fun _ => False) p a1 M1 V1 ltac:(tauto)) as S. rewrite E in S. simpl in S.
        destruct S as [(_ & R)|(? & _)]; [apply R|congruence]. }
      assert (KS : ksize (g_size a) ks' = g_size a).
      { pose proof (proj1 (ksize_ge ks' (g_size a))). assert (ksize (g_size a) ks' <= g_size a); [|lia].
        apply ksize_le; [lia|]. rewrite Forall_forall in In'. intros k Ik. destruct (In' k Ik). lia. }
      assert (TT : tight (g_size a) (eunion (kedges ks) ks') (cell g')).
      { apply (sandwich p a a1 ks' (kedges ks) B g'); auto.
        - intros i j Ni Nj. pose proof (V1 i j Ni Nj) as V. unfold valid in V.
          destruct (Z.eq_dec (cell a i j) (- oo)) as [e|e]; [lia|].
          assert (X : ent (cell a1) i j (cell a i j)) by (apply OV; auto; left; split; auto; lia).
          apply X.
        - intros t St Sk. apply MS. split; auto. apply (tight_msat _ _ _ t Tb). apply kedges_sat. auto. }
      split; [congruence|]. split; [apply SH|]. split; [eapply same_shape_mem; eauto|].
      split; [apply (clean_shape a1); auto|].
      assert (TT' : tight (g_size a) (munion (kedges ks) (kedges ks')) (cell g')).
      { eapply tight_E; [exact TT|]. intros. unfold eunion, munion. tauto. }
      split; auto. split; [|congruence].
      intros t. rewrite (tight_msat _ _ _ t TT'), (tight_msat _ _ _ t Ta), (tight_msat _ _ _ t Tb).
      unfold munion. split.
      + intros H. split; intros i j w X; apply H; auto.
      + intros (H1 & H2) i j w [X|X]; auto.
    - specialize (ZU eq_refl). assert (e : a1 = a) by (unfold a1; rewrite ZU; destruct a; auto).
      rewrite e in *. injection E as <- <-.
      split; [destruct sw; congruence|]. split; auto.
      split; auto. split; auto. split; [split; auto; apply Ta|]. split; auto.
      destruct sw; [congruence|auto]. }
  unfold g_merge in Em. destruct (g_size g <? g_size h) eqn:T.
  - replace m with (g_size h) in * by lia.
    destruct (HH h g ks' ks true) as (R2 & S & Mm & Cc & Tt & Ms & U); auto; try lia.
    split; auto. split; auto. split; auto. split; auto. split; [|split].
    + eapply tight_E; [exact Tt|]. intros. unfold munion. tauto.
    + intros t. rewrite Ms. tauto.
    + intros e. destruct (U e). discriminate.
  - replace m with (g_size g) in * by lia.
    destruct (HH g h ks ks' false) as (R2 & S & Mm & Cc & Tt & Ms & U); auto; try lia.
    repeat (split; auto). intros e. apply U. auto.
Qed.

(** Merges of propagated graphs return; they are refused when the graphs contradict each other. *)
Lemma merge_lin : forall p g h ks ks' B,
  mem_ok g -> clean g -> tight (g_size g) (kedges ks) (cell g) ->
  mem_ok h -> clean h -> tight (g_size h) (kedges ks') (cell h) ->
  0 <= B -> Forall kvalid ks -> Forall (kbnd B) ks -> Forall kvalid ks' -> Forall (kbnd B) ks' ->
  Forall (inside g) ks -> Forall (inside h) ks' ->
  let m := Z.max (g_size g) (g_size h) in
  4 * (m + 1) * B < oo ->
  exists g' r, g_merge p g h = Ret (g', r) /\
    ((r <> Fatal /\ r <> Recovered /\ g_size g' = m /\ mem_ok g' /\ clean g' /\
      tight m (munion (kedges ks) (kedges ks')) (cell g') /\
      (forall t, msat m (cell g') t <-> msat (g_size g) (cell g) t /\ msat (g_size h) (cell h) t) /\
      (r = Unchanged -> g' = g)) \/
     (r = Fatal /\ g_size g' = 0 /\
      forall t, ~ (msat (g_size g) (cell g) t /\ msat (g_size h) (cell h) t))).
Proof.
  intros p g h ks ks' B Mg Cg Tg Mh Ch Th B0 Kv Kb Kv' Kb' In In' m L.
  pose proof (kedges_bnd B ks Kb) as HE. pose proof (kedges_bnd B ks' Kb') as HF.
  destruct (merge_returns p g h _ _ B Mg Cg Tg Mh Ch Th B0 HE HF L) as ((g' & r) & E).
  exists g', r. split; auto.
  assert (D : r = Fatal \/ r <> Fatal) by (destruct r; auto; right; discriminate).
  destruct D as [->|NF]; [right|left; split; auto; eapply merge_accept; eauto].
  assert (HH : forall a b E F (sw : bool), mem_ok a -> clean a -> tight (g_size a) E (cell a) ->
    mem_ok b -> clean b -> tight (g_size b) F (cell b) -> ebnd B E -> ebnd B F ->
    g_size b <= g_size a -> 4 * (g_size a + 1) * B < oo ->
    (let '(d, change) := zip_max (g_data a) (g_data b) in
       if change then g_global p (mkG (g_size a) d)
       else Ret (mkG (g_size a) d, if sw : bool then Propagated else Unchanged)) = Ret (g', Fatal) ->
    g_size g' = 0 /\ forall t, ~ (msat (g_size a) (cell a) t /\ msat (g_size b) (cell b) t)).
  { clear - B0. intros a b E F sw Ma Ca Ta Mb Cb Tb HE HF Lab L Q.
    assert (n0 : 0 <= g_size a <= 65535) by apply Ma.
    destruct (merge_base a b E F B Ma Ca Ta Mb Cb Tb B0 HE HF Lab) as (OV & MS & M1 & C1 & V1 & _); [nia|].
    destruct (zip_max (g_data a) (g_data b)) as (d & c). cbn [fst] in *.
    destruct c; [|destruct sw; discriminate].
    pose proof (global_safe (fun _ => False) p _ M1 V1 ltac:(tauto)) as S. rewrite Q in S. simpl in S.
    destruct S as [(? & _)|(_ & x & i & _ & Eg & _)]; [discriminate|]. split; [rewrite Eg; auto|].
    intros t X. apply MS in X. pose proof (global_complete p _ g' Fatal t M1 V1 X Q). discriminate. }
  unfold g_merge in E. destruct (g_size g <? g_size h) eqn:T; (split; [auto|]).
  - destruct (HH h g _ _ true Mh Ch Th Mg Cg Tg HF HE) as (X & Y); auto; [lia| |].
    { replace (g_size h) with m by lia. auto. }
    split; auto. intros t (Z1 & Z2). apply (Y t); auto.
  - destruct (HH g h _ _ false Mg Cg Tg Mh Ch Th HE HF) as (X & Y); auto; [lia|].
    replace (g_size g) with m by lia. auto.
Qed.
