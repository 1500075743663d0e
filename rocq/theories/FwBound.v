(** Floyd-Warshall on a closed matrix overlaid with new edges: the values met on the way
    are bounded by (n+1) edges even if the whole is inconsistent.  Proof helpers. *)
From Verif Require Import Machine Spec MaxPlus.

(** [M] is [D] overlaid with the edges [K] *)
Definition overlay (n : Z) (D : mat) (K : Z -> Z -> Z -> Prop) (M : mat) : Prop :=
  forall i j c, node n i -> node n j ->
    (ent M i j c <-> ent D i j c \/ exists w, K i j w /\ c <= w).

Lemma overlay_msat : forall n D (K : Z -> Z -> Z -> Prop) M t, overlay n D K M ->
  (forall i j w, K i j w -> node n i /\ node n j) ->
  (msat n M t <-> msat n D t /\ forall i j w, K i j w -> w <= t j - t i).
Proof.
  intros n D K M t O HK. split.
  - intros S. split.
    + intros i j c Ni Nj X. apply S; auto. apply O; auto.
    + intros i j w X. destruct (HK _ _ _ X) as (Ni & Nj). apply S; auto. apply O; auto.
      right. exists w. split; auto. lia.
  - intros (S & H) i j c Ni Nj X. apply O in X; auto. destruct X as [X|(w & X & L)].
    + apply S; auto.
    + specialize (H _ _ _ X). lia.
Qed.

Lemma overlay_semi : forall n (E : Z -> Z -> Z -> Prop) D (K : Z -> Z -> Z -> Prop) M,
  tight n E D -> overlay n D K M -> (forall i j w, K i j w -> node n i /\ node n j) ->
  (forall i j w, E i j w \/ K i j w -> node n i /\ node n j /\ ent M i j w) /\
  (forall i j c, node n i -> node n j -> ent M i j c ->
     exists l w, walk (withdiag n (fun i j w => E i j w \/ K i j w)) i l j w /\ c <= w).
Proof.
  intros n E D K M (C & H1 & H2) O HK. split.
  - intros i j w [X|X].
    + destruct (H1 _ _ _ X) as (Ni & Nj & e). split; auto. split; auto. apply O; auto.
    + destruct (HK _ _ _ X) as (Ni & Nj). split; auto. split; auto. apply O; auto.
      right. exists w. split; auto. lia.
  - intros i j c Ni Nj X. apply O in X; auto. destruct X as [X|(w & X & L)].
    + destruct (H2 _ _ _ Ni Nj X) as (l & w & W & L). exists l, w. split; auto.
      eapply walk_mono; [|exact W]. apply withdiag_mono. auto.
    + exists [], w. split; auto. constructor. left. auto.
Qed.

Section Bound.
  Variables (n : Z) (E : Z -> Z -> Z -> Prop) (D : mat) (K : Z -> Z -> Z -> Prop) (M : mat).
  Hypothesis TD : tight n E D.
  Hypothesis HK : forall i j w, K i j w -> node n i /\ node n j.
  Hypothesis O : overlay n D K M.
  Variables (k : Z) (L : mat).
  Hypothesis I : fwinv n M k L.
  Hypothesis ZL : zero_diag n L.

  (** the old edges, and the new ones between nodes already eliminated *)
  Let G := withdiag n (fun i j w => E i j w \/ (K i j w /\ i < k /\ j < k)).

  Let ent_M_L : forall i j c, node n i -> node n j -> ent M i j c -> ent L i j c.
  Proof.
    intros i j c Ni Nj (X & Lc). apply I; auto. exists [], (M i j). split; auto.
    constructor. unfold medge. auto.
  Qed.
  Let ent_D_L : forall i j c, node n i -> node n j -> ent D i j c -> ent L i j c.
  Proof. intros i j c Ni Nj X. apply ent_M_L; auto. apply O; auto. Qed.
  Let ent_K_L : forall i j w, K i j w -> ent L i j w.
  Proof.
    intros i j w X. destruct (HK _ _ _ X). apply ent_M_L; auto. apply O; auto.
    right. exists w. split; auto. lia.
  Qed.
  Let join : forall i y j a b, node n i -> node n y -> node n j -> y < k ->
    ent L i y a -> ent L y j b -> ent L i j (a + b).
  Proof.
    intros i y j a b Ni Ny Nj Lk A B. apply I in A; auto. apply I in B; auto. apply I; auto.
    destruct A as (l1 & w1 & W1 & F1 & L1). destruct B as (l2 & w2 & W2 & F2 & L2).
    exists (l1 ++ y :: l2), (w1 + w2). split; [apply walk_app; auto|]. split; [|lia].
    apply Forall_app. auto.
  Qed.

  Let G_nodes : forall i j w, G i j w -> node n i /\ node n j.
  Proof.
    destruct TD as (_ & H1 & _). intros i j w [[X|(X & _)]|(N & <- & _)]; auto.
    - destruct (H1 _ _ _ X) as (A & B & _). auto.
    - eauto.
  Qed.
  Let G_diag : forall i, node n i -> G i i 0.
  Proof. intros. right. auto. Qed.
  Let D_G : forall i j c, node n i -> node n j -> ent D i j c ->
    exists l w, walk G i l j w /\ c <= w.
  Proof.
    destruct TD as (_ & _ & H2). intros i j c Ni Nj X.
    destruct (H2 _ _ _ Ni Nj X) as (l & w & W & Lw). exists l, w. split; auto.
    eapply walk_mono; [|exact W]. apply withdiag_mono. auto.
  Qed.

  Let G_L : forall i l j w, walk G i l j w -> ent L i j w.
  Proof.
    assert (H : forall i l j w, walk G i l j w ->
      ent D i j w \/
      exists y a b, node n y /\ y < k /\ ent D i y a /\ ent L y j b /\ w <= a + b).
    { destruct TD as ((Z0 & T) & H1 & _).
      assert (D0 : forall i, node n i -> ent D i i 0).
      { intros i Ni. apply (ent_diag n); auto. lia. }
      assert (Ge : forall i j w, G i j w -> ent D i j w \/ (K i j w /\ i < k /\ j < k)).
      { intros i j w [[X|X]|(N & <- & ->)]; auto. left. apply H1; auto. }
      intros i l j w. induction 1 as [i j w X|i x j l w1 w2 X W IH].
      - destruct (G_nodes _ _ _ X) as (Ni & Nj). apply Ge in X. destruct X as [X|(X & A & B)]; auto.
        right. exists i, 0, w. repeat (split; auto). lia.
      - destruct (G_nodes _ _ _ X) as (Ni & Nx).
        destruct (walk_nodes _ n G_nodes _ _ _ _ W) as (_ & Nj & _).
        apply Ge in X. destruct X as [X|(X & A & B)].
        + destruct IH as [IH|(y & a & b & Ny & Ly & Y1 & Y2 & Le)].
          * left. apply (T i x j); auto.
          * right. exists y, (w1 + a), b. split; auto. split; auto.
            split; [apply (T i x y); auto|]. split; auto. lia.
        + right. exists i, 0, (w1 + w2). split; auto. split; auto. split; auto. split; [|lia].
          apply join with (y := x); auto.
          destruct IH as [IH|(y & a & b & Ny & Ly & Y1 & Y2 & Le)]; auto.
          apply ent_mono with (a := a + b); auto. apply join with (y := y); auto. }
    intros i l j w W. destruct (walk_nodes _ n G_nodes _ _ _ _ W) as (Ni & Nj & _).
    destruct (H _ _ _ _ W) as [X|(y & a & b & Ny & Ly & Y1 & Y2 & Le)]; auto.
    apply ent_mono with (a := a + b); auto. apply join with (y := y); auto.
  Qed.

  (** Walks from an eliminated node *)
  Let tailed (x j w : Z) : Prop :=
    exists e l wg we, walk G x l e wg /\ node n e /\
      ((e = j /\ we = 0) \/ (K e j we /\ e < k)) /\ w <= wg + we.
  Let M_tailed : forall x l j w, walk (medge n M) x l j w -> Forall (fun y => y < k) l -> x < k ->
    tailed x j w.
  Proof.
    intros x l j w W. induction W as [x j w (Nx & Nj & X & ->)|x y j l w1 w2 (Nx & Ny & X & ->) W IH];
      intros F Lx.
    - assert (X' : ent M x j (M x j)) by (split; auto; lia). apply O in X'; auto.
      destruct X' as [X'|(w & X' & Le)].
      + destruct (D_G _ _ _ Nx Nj X') as (l & w & W & Lw).
        exists j, l, w, 0. split; auto. split; auto. split; auto. lia.
      + exists x, [], 0, w. split; [constructor; auto|]. split; auto.
    - inversion F as [|? ? Ly F']; subst. destruct (IH F' Ly) as (e & l2 & wg & we & W2 & Ne & En & Le).
      assert (X' : ent M x y (M x y)) by (split; auto; lia). apply O in X'; auto.
      destruct X' as [X'|(w & X' & Lw)].
      + destruct (D_G _ _ _ Nx Ny X') as (l1 & w & W1 & Lw).
        exists e, (l1 ++ y :: l2), (w + wg), we. split; [apply walk_app; auto|]. split; auto.
        split; auto. lia.
      + exists e, (y :: l2), (w + wg), we. split; [|split; auto; split; auto; lia].
        constructor; auto. left. auto.
  Qed.

  Variable B : Z.
  Hypothesis B0 : 0 <= B.
  Hypothesis HE : forall i j w, E i j w -> - B <= w <= B.
  Hypothesis HKB : forall i j w, K i j w -> - B <= w <= B.

  Let G_simple : forall x l e wg, walk G x l e wg ->
    exists l' w', walk G x l' e w' /\ wg <= w' /\ - ((n - 1) * B) <= w' <= (n - 1) * B.
  Proof.
    intros x l e wg W. destruct (walk_nodes _ n G_nodes _ _ _ _ W) as (Nx & Ne & Nl).
    destruct (Z.eq_dec x e) as [<-|Nxe].
    - exists [], 0. split; [constructor; auto|].
      pose proof (G_L _ _ _ _ W) as X. apply (ent_diag n L) in X; auto.
      unfold node in Nx. split; auto. nia.
    - destruct (walk_simple G (node n) (node n)) with (m := length l) (l := l) (i := x) (j := e) (w := wg)
        as (l' & w' & W' & L' & ND & F'); auto.
      { intros y l0 w0 Ny _ W0. apply G_L in W0. apply (ent_diag n L) in W0; auto. }
      assert (HB' : forall i j w, G i j w -> - B <= w <= B).
      { intros a b c [[Y|(Y & _)]|(Y & _ & ->)]; [eauto|eauto|lia]. }
      pose proof (walk_weight _ B HB' _ _ _ _ W') as WW.
      assert (Len : (Z.of_nat (length l') + 2 <= n)).
      { assert (J : incl (x :: l' ++ [e]) (nodes n)).
        { intros y [<-|J]; [apply nodes_in; auto|]. apply in_app_iff in J.
          destruct J as [J|[<-|[]]]; apply nodes_in; auto.
          rewrite Forall_forall in F'. auto. }
        pose proof (NoDup_incl_length ND J) as Q.
        unfold nodes in Q. rewrite map_length, seq_length in Q. cbn [length] in Q.
        rewrite app_length in Q. cbn [length] in Q. lia. }
      exists l', w'. split; auto. split; auto. nia.
  Qed.

  (** From [x] to [j]: a walk of [G], then at most one edge of [K] *)
  Let tailed_L : forall x j w, node n x -> node n j -> tailed x j w ->
    exists u, ent L x j u /\ w <= u /\ - (n * B) <= u <= n * B.
  Proof.
    intros x j w Nx Nj (e & l & wg & we & W & Ne & En & Le).
    destruct (G_simple _ _ _ _ W) as (l' & w' & W' & L' & Bd). apply G_L in W'.
    destruct En as [(-> & ->)|(X & Lk)].
    - exists w'. split; auto. split; [lia|]. unfold node in Nx. nia.
    - exists (w' + we). split; [apply join with (y := e); auto|]. split; [lia|].
      specialize (HKB _ _ _ X). unfold node in Nx. nia.
  Qed.

  Theorem fw_overlay_bound : forall i j, node n i -> node n j -> L i j <> - oo ->
    - ((n + 1) * B) <= L i j <= (n + 1) * B.
  Proof.
    intros i j Ni Nj F. assert (X : ent L i j (L i j)) by (split; auto; lia).
    assert (H : exists u, ent L i j u /\ L i j <= u /\ - ((n + 1) * B) <= u <= (n + 1) * B).
    { apply I in X; auto. destruct X as (l & w & W & Fl & Lw).
      inversion W as [? ? ? (_ & _ & X & ->)|? x ? l0 w1 w2 (_ & Nx & X & ->) W2]; subst.
      - assert (X' : ent M i j (M i j)) by (split; auto; lia). apply O in X'; auto.
        destruct X' as [X'|(v & X' & Le)].
        + destruct (D_G _ _ _ Ni Nj X') as (l & v & W' & Lv).
          destruct (G_simple _ _ _ _ W') as (l' & w' & W'' & L' & Bd).
          exists w'. split; [eapply G_L; eauto|]. split; [lia|]. unfold node in Ni. nia.
        + exists v. split; auto. split; [lia|]. specialize (HKB _ _ _ X'). unfold node in Ni. nia.
      - inversion Fl as [|? ? Lx Fl']; subst.
        pose proof (M_tailed _ _ _ _ W2 Fl' Lx) as T.
        assert (X' : ent M i x (M i x)) by (split; auto; lia). apply O in X'; auto.
        destruct X' as [X'|(v & X' & Le)].
        + destruct (D_G _ _ _ Ni Nx X') as (l1 & v & W1 & Lv).
          destruct T as (e & l2 & wg & we & W3 & Ne & En & Le).
          destruct (tailed_L i j (v + wg + we)) as (u & Y1 & Y2 & Y3); auto.
          { exists e, (l1 ++ x :: l2), (v + wg), we. split; [apply walk_app; auto|].
            split; auto. split; auto. lia. }
          exists u. split; auto. split; [lia|]. unfold node in Ni. nia.
        + destruct (tailed_L x j w2) as (u & Y1 & Y2 & Y3); auto.
          exists (v + u). split; [apply join with (y := x); auto|]. split; [lia|].
          specialize (HKB _ _ _ X'). nia. }
    destruct H as (u & (_ & H1) & H2 & H3). lia.
  Qed.
End Bound.
