(** The operations of the graph as operations on matrices and sets of edges.  Proof
    helpers. *)
From Verif Require Import Machine TimeValue Interval Spec SpecSets Tac TimeValueProofs Graph
  MaxPlus GraphProofs.

(** ** Adding one edge: write a cell, then [propagate_lower_bound] *)

Lemma ent_pe : forall D i j c, ent D i j c <-> pe (D i j) c.
Proof. intros. reflexivity. Qed.

Lemma plb2_ent : forall n C D io jo a b c, node n io -> node n jo -> node n a -> node n b ->
  0 <= C -> 4 * C < oo -> all_bnd n C D ->
  (ent (plb2 D io jo) a b c <->
   ent (plb1 D io jo) a b c \/
   exists x y, ent (plb1 D io jo) a jo x /\ ent (plb1 D io jo) jo b y /\ c <= x + y).
Proof.
  intros n C D io jo a b c Ni Nj Na Nb C0 CL B.
  pose proof (plb1_bnd n C D io jo Ni Nj C0 ltac:(lia) B) as B1.
  rewrite !ent_pe. unfold plb2. rewrite (pe_max (4 * C)); auto.
  - rewrite (pe_esum (2 * C) (2 * C)) by (try apply B1; auto; lia). reflexivity.
  - apply bnd_mono with (C := 2 * C); [lia|]. apply B1; auto.
  - replace (4 * C) with (2 * C + 2 * C) by lia. apply esum_bnd; apply B1; auto.
Qed.

Lemma plb1_ent : forall n C D io jo a b c, node n io -> node n jo -> node n a -> node n b ->
  0 <= C -> 2 * C < oo -> all_bnd n C D ->
  (ent (plb1 D io jo) a b c <->
   ent D a b c \/ b = jo /\ exists x y, ent D a io x /\ ent D io jo y /\ c <= x + y).
Proof.
  intros n C D io jo a b c Ni Nj Na Nb C0 CL B.
  rewrite !ent_pe. unfold plb1. destruct (b =? jo) eqn:T.
  - assert (b = jo) by lia. subst b. rewrite (pe_max (2 * C)); auto.
    + rewrite (pe_esum C C) by (try apply B; auto; lia). split.
      * intros [X|X]; auto.
      * intros [X|(_ & X)]; auto.
    + apply bnd_mono with (C := C); [lia|]. apply B; auto.
    + replace (2 * C) with (C + C) by lia. apply esum_bnd; apply B; auto.
  - split; [auto|]. intros [X|(X & _)]; auto. lia.
Qed.

Record edge_post (n C : Z) (D : mat) (io jo w : Z) (D' : mat) : Prop := {
  ep_msat : forall t, msat n D' t <-> msat n D t /\ w <= t jo - t io;
  ep_bnd : all_bnd n (4 * C) D';
  ep_io_jo : D' io jo = w;
  ep_io : D' io io = 0;
  ep_jo : D' jo jo = 0;
  ep_jo_io : D' jo io = D jo io;
  ep_added : closed n D -> added n D io jo w D' }.

Lemma edge_mat : forall n C D D1 D' io jo w,
  node n io -> node n jo -> io <> jo -> 0 <= C -> 4 * C < oo ->
  all_bnd n C D -> bnd C w -> D io io = 0 -> D jo jo = 0 ->
  D io jo < w -> esum (D jo io) w <= 0 ->
  (forall a b, node n a -> node n b ->
     D1 a b = if (a =? io) && (b =? jo) then w else D a b) ->
  (forall a b, node n a -> node n b -> D' a b = plb2 D1 io jo a b) ->
  all_bnd n C D1 /\ D1 jo jo <= 0 /\ esum (D1 jo io) (D1 io jo) <= 0 /\
  edge_post n C D io jo w D'.
Proof.
  intros n C D D1 D' io jo w Ni Nj N C0 CL B Bw Di Dj Lw Cons H1 H2.
  assert (B1 : all_bnd n C D1).
  { intros a b Na Nb. rewrite H1 by auto. destruct (_ && _); auto. }
  assert (E1 : D1 io jo = w) by (rewrite H1 by auto; rewrite !Z.eqb_refl; auto).
  assert (E2 : D1 jo io = D jo io).
  { rewrite H1 by auto. replace (jo =? io) with false by lia. auto. }
  assert (E3 : D1 jo jo = 0).
  { rewrite H1 by auto. replace (jo =? io) with false by lia. auto. }
  assert (E4 : D1 io io = 0).
  { rewrite H1 by auto. replace (io =? jo) with false by lia. rewrite andb_false_r. auto. }
  split; auto. split; [lia|]. split; [rewrite E1, E2; auto|].
  assert (w0 : w <> - oo) by (specialize (B io jo Ni Nj); unfold bnd in *; lia).
  (* what the written matrix says *)
  assert (Ent1 : forall a b c, node n a -> node n b ->
    (ent D1 a b c <-> ent D a b c \/ a = io /\ b = jo /\ c <= w)).
  { intros a b c Na Nb. unfold ent. rewrite H1 by auto.
    destruct ((a =? io) && (b =? jo)) eqn:T.
    - assert (a = io) by lia. assert (b = jo) by lia. subst. split; [lia|].
      intros [X|X]; lia.
    - split; [auto|]. intros [X|X]; auto. lia. }
  assert (EntP1 : forall a b c, node n a -> node n b ->
    (ent (plb1 D1 io jo) a b c <->
     ent D a b c \/ b = jo /\ exists x, ent D a io x /\ c <= x + w)).
  { intros a b c Na Nb. rewrite (plb1_ent n C) by (auto; lia).
    rewrite Ent1 by auto. split.
    - intros [[X|(-> & -> & X)]|(-> & x & y & X & Y & L)].
      + auto.
      + right. split; auto. exists 0. split; [|lia]. unfold ent. rewrite Di. unfold oo. lia.
      + right. split; auto. apply Ent1 in X; auto.
        destruct X as [X|(_ & X & _)]; [|lia].
        exists x. split; auto. destruct Y as (_ & Y). rewrite E1 in Y. lia.
    - intros [X|(-> & x & X & L)]; auto. right. split; auto. exists x, w.
      split; [apply Ent1; auto|]. split; [|auto]. apply Ent1; auto. right. lia. }
  assert (EntP2 : forall a b c, node n a -> node n b ->
    (ent D' a b c <-> ent (plb1 D1 io jo) a b c \/
      exists x y, ent (plb1 D1 io jo) a jo x /\ ent (plb1 D1 io jo) jo b y /\ c <= x + y)).
  { intros a b c Na Nb. rewrite <- (plb2_ent n C) by auto. unfold ent. rewrite H2 by auto.
    reflexivity. }
  assert (P1ioio : plb1 D1 io jo io io = 0).
  { unfold plb1. replace (io =? jo) with false by lia. auto. }
  assert (P1jojo : plb1 D1 io jo jo jo = 0).
  { unfold plb1. rewrite Z.eqb_refl, E3, E2, E1. lia. }
  assert (P1iojo : plb1 D1 io jo io jo = w).
  { unfold plb1. rewrite Z.eqb_refl, E4, E1. unfold esum.
    replace (0 =? - oo) with false by (unfold oo; lia).
    destruct (w =? - oo) eqn:T; cbn [orb]; lia. }
  assert (P1joio : plb1 D1 io jo jo io = D jo io).
  { unfold plb1. replace (io =? jo) with false by lia. auto. }
  constructor.
  - intros t. split.
    + intros S. split.
      * intros a b c Na Nb X. apply S; auto. apply EntP2; auto. left. apply EntP1; auto.
      * apply S; auto. apply EntP2; auto. left. unfold ent. rewrite P1iojo. lia.
    + intros (S & W).
      assert (S1 : msat n (plb1 D1 io jo) t).
      { intros a b c Na Nb X. apply EntP1 in X; auto. destruct X as [X|(-> & x & X & L)].
        - apply S; auto.
        - specialize (S a io x Na Ni X). lia. }
      intros a b c Na Nb X. apply EntP2 in X; auto. destruct X as [X|(x & y & X & Y & L)].
      * apply S1; auto.
      * specialize (S1 _ _ _ Na Nj X) as K1. specialize (S1 _ _ _ Nj Nb Y) as K2. lia.
  - intros a b Na Nb. rewrite H2 by auto. unfold plb2.
    pose proof (plb1_bnd n C D1 io jo Ni Nj C0 ltac:(lia) B1) as B2.
    apply max_bnd; auto.
    + apply bnd_mono with (C := 2 * C); [lia|]. apply B2; auto.
    + replace (4 * C) with (2 * C + 2 * C) by lia. apply esum_bnd; apply B2; auto.
  - rewrite H2 by auto. unfold plb2. rewrite P1iojo, P1jojo. unfold esum.
    replace (0 =? - oo) with false by (unfold oo; lia).
    destruct (w =? - oo) eqn:T; cbn [orb]; lia.
  - rewrite H2 by auto. unfold plb2. rewrite P1iojo, P1ioio, P1joio.
    unfold esum in *. destruct (w =? - oo) eqn:T1; [lia|].
    destruct (D jo io =? - oo) eqn:T2; cbn [orb] in *; [unfold oo; lia|lia].
  - rewrite H2 by auto. unfold plb2. rewrite P1jojo. unfold esum.
    replace (0 =? - oo) with false by (unfold oo; lia). cbn [orb]. lia.
  - rewrite H2 by auto. unfold plb2. rewrite P1jojo, P1joio. unfold esum.
    replace (0 =? - oo) with false by (unfold oo; lia).
    specialize (B jo io Nj Ni). unfold bnd in B.
    destruct (D jo io =? - oo) eqn:T; cbn [orb]; lia.
  - intros (Z0 & T) a b c Na Nb. rewrite EntP2 by auto. rewrite EntP1 by auto. split.
    + intros [[X|(-> & x & X & L)]|(x & y & X & Y & L)].
      * auto.
      * right. exists x, 0. split; auto. split; [|lia]. apply (ent_diag n); auto. lia.
      * apply EntP1 in X; auto. apply EntP1 in Y; auto.
        assert (Cx : forall z, ent D jo io z -> z + w <= 0).
        { intros z (F & Lz). unfold esum in Cons.
          replace (D jo io =? - oo) with false in Cons by lia.
          replace (w =? - oo) with false in Cons by lia. cbn [orb] in Cons. lia. }
        destruct X as [X|(_ & x' & X & L')]; destruct Y as [Y|(-> & y' & Y & L'')].
        -- left. apply ent_mono with (a := x + y); auto. apply (T a jo b); auto.
        -- specialize (Cx _ Y). left. apply ent_mono with (a := x); auto. lia.
        -- right. exists x', y. split; auto. split; auto. lia.
        -- specialize (Cx _ Y). right. exists x', 0. split; auto. split; [|lia].
           apply (ent_diag n); auto. lia.
    + intros [X|(x & y & X & Y & L)].
      * auto.
      * right. exists (x + w), y.
        split; [apply EntP1; auto; right; split; auto; exists x; split; auto; lia|].
        split; [apply EntP1; auto|]. lia.
Qed.

Lemma edge_ok : forall p g io jo w C,
  mem_ok g -> node (g_size g) io -> node (g_size g) jo -> io <> jo ->
  0 <= C -> 4 * C < oo -> all_bnd (g_size g) C (cell g) -> bnd C w ->
  cell g io io = 0 -> cell g jo jo = 0 ->
  cell g io jo < w -> esum (cell g jo io) w <= 0 ->
  exists g1 g2, g_set p g io jo w = Ret g1 /\ g_plb p g1 io jo = Ret g2 /\
    same_shape g g2 /\ edge_post (g_size g) C (cell g) io jo w (cell g2).
Proof.
  intros p g io jo w C M Ni Nj N C0 CL B Bw Di Dj Lw Cons.
  destruct (g_set_ok p g io jo w M Ni Nj) as (g1 & E1 & S1 & I1).
  assert (I1' : forall a b, node (g_size g) a -> node (g_size g) b ->
    cell g1 a b = if (a =? io) && (b =? jo) then w else cell g a b).
  { intros a b (? & _) (? & _). auto. }
  assert (Z1 : g_size g1 = g_size g) by apply S1.
  assert (M1 : mem_ok g1) by (eapply same_shape_mem; eauto).
  destruct (edge_mat (g_size g) C (cell g) (cell g1) (plb2 (cell g1) io jo) io jo w)
    as (B1 & D1 & C1 & _); auto.
  destruct (plb_ok p g1 io jo C) as (g2 & E2 & S2 & I2); rewrite ?Z1; auto.
  rewrite Z1 in I2.
  destruct (edge_mat (g_size g) C (cell g) (cell g1) (cell g2) io jo w)
    as (_ & _ & _ & EP); auto.
  exists g1, g2. split; auto. split; auto. split; auto. eapply same_shape_trans; eauto.
Qed.

(** ** One constraint on instants of the graph *)

(** The edges of a constraint *)
Definition kedge (k : kons) (i j w : Z) : Prop :=
  (i = k_from k /\ j = k_to k /\ w = k_lo k /\ k_lo k <> - oo) \/
  (i = k_to k /\ j = k_from k /\ w = - k_up k /\ k_up k <> oo).
Definition kunion (E : Z -> Z -> Z -> Prop) (k : kons) (i j w : Z) : Prop :=
  E i j w \/ kedge k i j w.
(** The assignments that satisfy a constraint *)
Definition ksat (k : kons) (t : Z -> Z) : Prop :=
  In_ext (t (k_to k) - t (k_from k)) (mkI (k_lo k) (k_up k)).
Definition kbnd (C : Z) (k : kons) : Prop := bnd C (k_lo k) /\ bnd C (- k_up k).

Lemma ksat_edges : forall k t, ksat k t <-> forall i j w, kedge k i j w -> w <= t j - t i.
Proof.
  intros k t. unfold ksat, In_ext, kedge. simpl. split.
  - intros (A & B) i j w [(-> & -> & -> & N)|(-> & -> & -> & N)]; lia.
  - intros H. split.
    + destruct (Z.eq_dec (k_lo k) (- oo)); [auto|right]. apply H. left. auto.
    + destruct (Z.eq_dec (k_up k) oo); [auto|right].
      assert (- k_up k <= t (k_from k) - t (k_to k)); [|lia]. apply H. right. auto.
Qed.

Lemma tight_implied : forall n E D a b c, tight n E D -> node n a -> node n b ->
  ent D a b c -> tight n (plus_edge E a b c) D.
Proof.
  intros n E D a b c (C & H1 & H2) Na Nb X. split; auto. split.
  - intros i j w [Y|(-> & -> & ->)]; auto.
  - intros i j w Ni Nj Y. destruct (H2 _ _ _ Ni Nj Y) as (l & u & W & L).
    exists l, u. split; auto. eapply walk_mono; [|exact W]. apply withdiag_mono.
    intros; left; auto.
Qed.

Lemma tight_E : forall n E E' D, tight n E D -> (forall i j w, E i j w <-> E' i j w) ->
  tight n E' D.
Proof. intros n E E' D T H. eapply tight_ext; eauto. reflexivity. Qed.

Record propagated (n : Z) (D : mat) (k : kons) (D' : mat) : Prop := {
  pr_msat : forall t, msat n D' t <-> msat n D t /\ ksat k t;
  pr_tight : forall E, tight n E D -> tight n (kunion E k) D' }.

(** [k] follows from [D] / contradicts [D] *)
Definition implied_by (D : mat) (k : kons) : Prop :=
  (k_lo k = - oo \/ ent D (k_from k) (k_to k) (k_lo k)) /\
  (k_up k = oo \/ ent D (k_to k) (k_from k) (- k_up k)).
Definition contradicts (D : mat) (k : kons) : Prop :=
  (exists c, ent D (k_from k) (k_to k) c /\ k_up k < c /\ k_up k <> oo) \/
  (exists c, ent D (k_to k) (k_from k) c /\ - k_lo k < c /\ k_lo k <> - oo).

Lemma implied_propagated : forall n D k, node n (k_from k) -> node n (k_to k) ->
  implied_by D k -> propagated n D k D.
Proof.
  intros n D k Nf Nt (I1 & I2). constructor.
  - intros t. split; [|tauto]. intros S. split; auto. split; simpl.
    + destruct I1 as [->|X]; [auto|right]. apply (S _ _ _ Nf Nt X).
    + destruct I2 as [->|X]; [auto|right]. specialize (S _ _ _ Nt Nf X). lia.
  - intros E T.
    assert (T1 : tight n (fun i j w => E i j w \/
      (i = k_from k /\ j = k_to k /\ w = k_lo k /\ k_lo k <> - oo)) D).
    { destruct (Z.eq_dec (k_lo k) (- oo)) as [e|e].
      - eapply tight_E; eauto. intros i j w. split; [auto|]. intros [X|X]; [auto|lia].
      - destruct I1 as [X|X]; [lia|].
        eapply tight_E; [apply (tight_implied n E D _ _ _ T Nf Nt X)|].
        intros i j w. unfold plus_edge. tauto. }
    destruct (Z.eq_dec (k_up k) oo) as [e|e].
    + eapply tight_E; eauto. intros i j w. unfold kunion, kedge. tauto.
    + destruct I2 as [X|X]; [lia|].
      eapply tight_E; [apply (tight_implied n _ D _ _ _ T1 Nt Nf X)|].
      intros i j w. unfold plus_edge, kunion, kedge. tauto.
Qed.

Lemma contradicts_sound : forall n D k t, node n (k_from k) -> node n (k_to k) ->
  contradicts D k -> msat n D t -> ksat k t -> False.
Proof.
  intros n D k t Nf Nt [(c & X & L)|(c & X & L)] S (K1 & K2); simpl in *.
  - specialize (S _ _ _ Nf Nt X). lia.
  - specialize (S _ _ _ Nt Nf X). lia.
Qed.

Lemma edge_tight : forall n C E D io jo w D', edge_post n C D io jo w D' ->
  node n io -> node n jo -> w <> - oo -> esum (D jo io) w <= 0 ->
  tight n E D -> tight n (plus_edge E io jo w) D'.
Proof.
  intros n C E D io jo w D' EP Ni Nj F Cons T. eapply added_tight; eauto.
  - intros x (X & L). unfold esum in Cons.
    replace (D jo io =? - oo) with false in Cons by lia.
    replace (w =? - oo) with false in Cons by lia. cbn [orb] in Cons. lia.
  - apply (ep_added _ _ _ _ _ _ _ EP). apply T.
Qed.

Lemma esum_neg : forall a b, a <> - oo -> esum a b <= 0 <-> b = - oo \/ b <= - a.
Proof.
  intros a b Fa. unfold esum. replace (a =? - oo) with false by lia.
  destruct (b =? - oo) eqn:T; cbn [orb]; unfold oo in *; lia.
Qed.
Lemma esum_comm : forall a b, esum a b = esum b a.
Proof. intros a b. unfold esum. rewrite orb_comm, Z.add_comm. reflexivity. Qed.

(** [C2] bounds the matrix once the lower bound of [k] is propagated *)
Lemma propagate_gen : forall p g k C C2,
  mem_ok g -> k_empty k = false -> wf_iv (mkI (k_lo k) (k_up k)) ->
  node (g_size g) (k_from k) -> node (g_size g) (k_to k) ->
  0 <= C <= C2 -> 4 * C2 < oo -> all_bnd (g_size g) C (cell g) -> kbnd C k ->
  cell g (k_from k) (k_from k) = 0 -> cell g (k_to k) (k_to k) = 0 ->
  (k_lo k <> - oo -> esum (cell g (k_to k) (k_from k)) (k_lo k) <= 0 ->
   forall D', edge_post (g_size g) C (cell g) (k_from k) (k_to k) (k_lo k) D' ->
     all_bnd (g_size g) C2 D') ->
  exists g' r, g_propagate p g k = Ret (g', r) /\
    ((r = Unchanged /\ g' = g /\ implied_by (cell g) k) \/
     (r = Recovered /\ g' = g /\ contradicts (cell g) k) \/
     (r = Propagated /\ same_shape g g' /\ ~ implied_by (cell g) k /\
      k_from k <> k_to k /\
      propagated (g_size g) (cell g) k (cell g') /\ all_bnd (g_size g) (4 * C2) (cell g'))).
Proof.
  intros p g k C C2 M Ek W Nf Nt C0 CL B (Bl & Bu) Df Dt HC2.
  set (f := k_from k) in *. set (u := k_to k) in *.
  unfold wf_iv in W. simpl in W. destruct W as (W1 & W2 & W3 & W4 & W5).
  unfold g_propagate. rewrite Ek. cbv zeta. fold f u.
  replace (g_size g <=? Z.max f u) with false by (unfold node in *; lia).
  rewrite !g_lower_ok by auto. cbn [bind]. unfold tv_neg.
  pose proof (B f u Nf Nt) as Bfu. pose proof (B u f Nt Nf) as Buf.
  unfold bnd in Bfu, Buf, Bl, Bu.
  destruct (k_lo k <=? cell g f u) eqn:T1.
  - destruct (- k_up k <=? cell g u f) eqn:T2.
    + exists g, Unchanged. split; auto. left. split; auto. split; auto. unfold implied_by, ent.
      fold u f. lia.
    + destruct (k_up k <? cell g f u) eqn:T3.
      * exists g, Recovered. split; auto. right. left. split; auto. split; auto. left.
        exists (cell g f u). fold u f. unfold ent. lia.
      * assert (Nfu : u <> f) by (intros e; rewrite e in *; lia).
        assert (Cons : esum (cell g f u) (- k_up k) <= 0).
        { rewrite esum_comm, esum_neg by lia. lia. }
        destruct (edge_ok p g u f (- k_up k) C) as (g1 & g2 & E1 & E2 & S2 & EP); auto;
          try (unfold bnd; lia).
        rewrite E1. cbn [bind]. rewrite E2. cbn [bind].
        exists g2, Propagated. split; auto. right. right. split; auto. split; auto.
        split; [|split; [auto|split]].
        -- unfold implied_by, ent. fold u f. lia.
        -- constructor.
           ++ intros t. rewrite (ep_msat _ _ _ _ _ _ _ EP).
              unfold ksat, In_ext. simpl. fold u f. split; intros (S & L); split; auto; [|lia].
              split; [|lia]. destruct (Z.eq_dec (k_lo k) (- oo)); [auto|]. right.
              apply (S _ _ _ Nf Nt). unfold ent. lia.
           ++ intros E TE.
              pose proof (edge_tight _ _ _ _ _ _ _ _ EP Nt Nf ltac:(lia) Cons TE) as TA.
              destruct (Z.eq_dec (k_lo k) (- oo)) as [e|e].
              ** eapply tight_E; eauto. intros i j w. unfold plus_edge, kunion, kedge.
                 fold u f. intuition lia.
              ** assert (X : ent (cell g2) f u (k_lo k)).
                 { unfold ent. rewrite (ep_jo_io _ _ _ _ _ _ _ EP). lia. }
                 eapply tight_E; [apply (tight_implied _ _ _ _ _ _ TA Nf Nt X)|].
                 intros i j w. unfold plus_edge, kunion, kedge. fold u f. intuition lia.
        -- intros a b Na Nb. apply bnd_mono with (C := 4 * C); [lia|]. apply EP; auto.
  - destruct (- k_lo k <? cell g u f) eqn:T2.
    + exists g, Recovered. split; auto. right. left. split; auto. split; auto. right.
      exists (cell g u f). fold u f. unfold ent. lia.
    + assert (Nfu : f <> u) by (intros e; rewrite e in *; lia).
      assert (Cons : esum (cell g u f) (k_lo k) <= 0).
      { rewrite esum_comm, esum_neg by lia. lia. }
      destruct (edge_ok p g f u (k_lo k) C) as (g1 & g2 & E1 & E2 & S2 & EP); auto;
        try (unfold bnd; lia).
      rewrite E1. cbn [bind]. rewrite E2. cbn [bind].
      pose proof S2 as (Sz & _).
      assert (M2 : mem_ok g2) by (eapply same_shape_mem; eauto).
      rewrite g_lower_ok by (auto; rewrite Sz; auto). cbn [bind].
      rewrite (ep_jo_io _ _ _ _ _ _ _ EP).
      destruct (cell g u f <? - k_up k) eqn:T3.
      * assert (Cons2 : esum (cell g2 f u) (- k_up k) <= 0).
        { rewrite (ep_io_jo _ _ _ _ _ _ _ EP). rewrite esum_neg by lia. lia. }
        pose proof (HC2 ltac:(lia) Cons _ EP) as B2.
        destruct (edge_ok p g2 u f (- k_up k) C2) as (g3 & g4 & E3 & E4 & S4 & EP2);
          rewrite ?Sz; auto; try (unfold bnd; lia).
        { apply EP. } { apply EP. }
        { rewrite (ep_jo_io _ _ _ _ _ _ _ EP). lia. }
        rewrite E3. cbn [bind]. rewrite E4. cbn [bind].
        rewrite Sz in EP2.
        exists g4, Propagated. split; auto. right. right. split; auto.
        split; [eapply same_shape_trans; eauto|].
        split; [|split; [auto|split]].
        -- unfold implied_by, ent. fold u f. lia.
        -- constructor.
           ++ intros t. rewrite (ep_msat _ _ _ _ _ _ _ EP2), (ep_msat _ _ _ _ _ _ _ EP).
              unfold ksat, In_ext. simpl. fold u f. intuition lia.
           ++ intros E TE.
              pose proof (edge_tight _ _ _ _ _ _ _ _ EP Nf Nt ltac:(lia) Cons TE) as TA.
              pose proof (edge_tight _ _ _ _ _ _ _ _ EP2 Nt Nf ltac:(lia) Cons2 TA) as TB.
              eapply tight_E; eauto. intros i j w. unfold plus_edge, kunion, kedge.
              fold u f. intuition lia.
        -- apply EP2.
      * exists g2, Propagated. split; auto. right. right. split; auto. split; auto.
        split; [|split; [auto|split]].
        -- unfold implied_by, ent. fold u f. lia.
        -- constructor.
           ++ intros t. rewrite (ep_msat _ _ _ _ _ _ _ EP).
              unfold ksat, In_ext. simpl. fold u f. split; intros (S & L); split; auto; [|lia].
              split; [lia|]. destruct (Z.eq_dec (k_up k) oo); [auto|]. right.
              assert (X : ent (cell g) u f (- k_up k)) by (unfold ent; lia).
              specialize (S _ _ _ Nt Nf X). lia.
           ++ intros E TE.
              pose proof (edge_tight _ _ _ _ _ _ _ _ EP Nf Nt ltac:(lia) Cons TE) as TA.
              destruct (Z.eq_dec (k_up k) oo) as [e|e].
              ** eapply tight_E; eauto. intros i j w. unfold plus_edge, kunion, kedge.
                 fold u f. intuition lia.
              ** assert (X : ent (cell g2) u f (- k_up k)).
                 { unfold ent. rewrite (ep_jo_io _ _ _ _ _ _ _ EP). lia. }
                 eapply tight_E; [apply (tight_implied _ _ _ _ _ _ TA Nt Nf X)|].
                 intros i j w. unfold plus_edge, kunion, kedge. fold u f. intuition lia.
        -- intros a b Na Nb. apply bnd_mono with (C := 4 * C); [lia|]. apply EP; auto.
Qed.

Lemma propagate_ok : forall p g k C,
  mem_ok g -> k_empty k = false -> wf_iv (mkI (k_lo k) (k_up k)) ->
  node (g_size g) (k_from k) -> node (g_size g) (k_to k) ->
  0 <= C -> 16 * C < oo -> all_bnd (g_size g) C (cell g) -> kbnd C k ->
  cell g (k_from k) (k_from k) = 0 -> cell g (k_to k) (k_to k) = 0 ->
  exists g' r, g_propagate p g k = Ret (g', r) /\
    ((r = Unchanged /\ g' = g /\ implied_by (cell g) k) \/
     (r = Recovered /\ g' = g /\ contradicts (cell g) k) \/
     (r = Propagated /\ same_shape g g' /\ ~ implied_by (cell g) k /\
      k_from k <> k_to k /\
      propagated (g_size g) (cell g) k (cell g') /\ all_bnd (g_size g) (16 * C) (cell g'))).
Proof.
  intros p g k C M Ek W Nf Nt C0 CL B Bk Df Dt.
  replace (16 * C) with (4 * (4 * C)) by lia.
  apply propagate_gen with (C := C); auto; try lia.
  intros _ _ D' EP. apply EP.
Qed.
