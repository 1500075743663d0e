(** [propagate] when the exact sums fit the time values: proofs without any margin.  The
    sums that are not needed may saturate. *)
From Verif Require Import Machine TimeValue Spec Tac TimeValueProofs Interval Relns SpecSets
  Graph MaxPlus GraphProofs GraphOps.

Definition low (n : Z) (D : mat) : Prop := forall i j, node n i -> node n j -> - oo <= D i j < oo.

(** The sum of two lower bounds, saturating below *)
Definition asum (a b : Z) : Z := if (a =? - oo) || (b =? - oo) then - oo else Z.max (- oo) (a + b).

Lemma tv_add_asum a b : - oo <= a < oo -> - oo <= b < oo ->
  (a <> - oo -> b <> - oo -> a + b < oo) -> tv_add a b = Ret (asum a b).
Proof.
  intros Ha Hb H. unfold tv_add, asum, is_future_infinite, is_past_infinite, is_finite, from_ticks.
  unfold INF, tv_neg, clamp, sat64, i64_min, i64_max, oo in *.
  destruct (a =? _) eqn:E1; [lia|]. destruct (a =? - _) eqn:E2.
  - destruct (b =? 9223372036854775807) eqn:E3; [lia|]. cbn [orb]. f_equal. lia.
  - destruct (b =? - _) eqn:E4; cbn [orb].
    + repeat (match goal with |- context [if ?c then _ else _] => destruct c eqn:? end); try lia; f_equal; lia.
    + specialize (H ltac:(lia) ltac:(lia)).
      repeat (match goal with |- context [if ?c then _ else _] => destruct c eqn:? end); try lia; f_equal; lia.
Qed.

(** ** [propagate_lower_bound] *)

Definition sat1 (D : mat) (io jo : Z) : mat := fun a b =>
  if b =? jo then Z.max (D a jo) (asum (D a io) (D io jo)) else D a b.
Definition sat2 (D : mat) (io jo : Z) : mat := fun a b =>
  Z.max (sat1 D io jo a b) (asum (sat1 D io jo a jo) (sat1 D io jo jo b)).

Lemma plb_sat : forall p g io jo,
  mem_ok g -> node (g_size g) io -> node (g_size g) jo -> io <> jo ->
  low (g_size g) (cell g) -> low (g_size g) (sat1 (cell g) io jo) ->
  (forall a, node (g_size g) a -> cell g a io <> - oo -> cell g io jo <> - oo -> cell g a io + cell g io jo < oo) ->
  (forall a b, node (g_size g) a -> node (g_size g) b -> sat1 (cell g) io jo a jo <> - oo -> cell g jo b <> - oo ->
     sat1 (cell g) io jo a jo + cell g jo b < oo) ->
  sat1 (cell g) io jo jo jo = 0 -> cell g jo jo = 0 ->
  exists g', g_plb p g io jo = Ret g' /\ same_shape g g' /\
    (forall a b, node (g_size g) a -> node (g_size g) b -> cell g' a b = sat2 (cell g) io jo a b).
Proof.
  intros p g io jo M Ni Nj Nij B B1 H1 H2 J1 J0.
  unfold g_plb. rewrite g_lower_ok by auto. cbn [bind].
  set (n := g_size g) in *.
  assert (n0 : 0 <= n) by (unfold node in *; lia).
  set (c1 := sat1 (cell g) io jo) in *.
  assert (R1 : forall b, c1 jo b = cell g jo b).
  { intros b. destruct (Z.eq_dec b jo) as [->|e]; [congruence|]. unfold c1, sat1. replace (b =? jo) with false by lia. auto. }
  set (w := cell g io jo) in *.
  edestruct (ofold_range graph (fun g i =>
                 a <- g_lower p g i io ;; val <- tv_add a w ;; g_raise p g i jo val)
      (fun k g1 => same_shape g g1 /\ forall a b, node n a -> node n b ->
         cell g1 a b = if (b =? jo) && (a <? k) then c1 a b else cell g a b)
      0 n g n0) as (g1 & E1 & S1 & I1).
  { split; auto. intros a b Na Nb. unfold node in *.
    replace (a <? 0) with false by lia. rewrite andb_false_r. auto. }
  { intros k g1 Hk (S1 & I1).
    assert (M1 : mem_ok g1) by (eapply same_shape_mem; eauto).
    assert (Z1 : g_size g1 = n) by apply S1.
    assert (Nk : node n k) by (unfold node; lia).
    rewrite g_lower_ok by (rewrite ?Z1; auto). cbn [bind].
    rewrite (I1 k io) by auto. replace (io =? jo) with false by lia. cbn [andb].
    rewrite tv_add_asum; [|apply B; auto|apply B; auto|apply H1; auto]. cbn [bind].
    destruct (g_raise_ok p g1 k jo (asum (cell g k io) w)) as (g2 & E2 & S2 & I2);
      rewrite ?Z1; auto.
    exists g2. split; auto. split; [eapply same_shape_trans; eauto|].
    intros a b Na Nb. rewrite I2 by (unfold node in *; lia).
    rewrite !I1 by auto. replace (k <? k) with false by lia. rewrite andb_false_r.
    unfold c1, sat1. fold w.
    destruct (a =? k) eqn:Ta; destruct (b =? jo) eqn:Tb; cbn [andb];
      try replace (a <? k + 1) with (a <? k) by lia; auto.
    replace (a <? k + 1) with true by lia. f_equal; [|f_equal]; f_equal; lia. }
  rewrite E1. cbn [bind].
  assert (Z1 : g_size g1 = n) by apply S1.
  assert (M1 : mem_ok g1) by (eapply same_shape_mem; eauto).
  assert (I1' : forall a b, node n a -> node n b -> cell g1 a b = c1 a b).
  { intros a b Na Nb. rewrite I1 by auto. unfold node in *.
    replace (a <? n) with true by lia. unfold c1, sat1.
    destruct (b =? jo); auto. }
  clear I1 E1.
  set (c2 := sat2 (cell g) io jo).
  assert (Row : forall b, node n b -> c2 jo b = c1 jo b).
  { intros b Nb. unfold c2, sat2. fold c1. pose proof (B1 jo b Nj Nb). rewrite J1. unfold asum.
    replace (0 =? - oo) with false by reflexivity. destruct (c1 jo b =? - oo) eqn:T2; cbn [orb]; lia. }
  rewrite Z1.
  edestruct (ofold_range graph (fun g j =>
      j_jo <- g_lower p g j jo ;;
      ofold (fun g i =>
               b <- g_lower p g jo i ;; val <- tv_add j_jo b ;; g_raise p g j i val)
            g (zrange 0 (g_size g)))
      (fun j g2 => same_shape g1 g2 /\ forall a b, node n a -> node n b ->
         cell g2 a b = if a <? j then c2 a b else c1 a b)
      0 n g1 n0) as (g2 & E2 & S2 & I2).
  { split; auto. intros a b Na Nb. rewrite I1' by auto. unfold node in *.
    replace (a <? 0) with false by lia. auto. }
  { intros j g2 Hj (S2 & I2).
    assert (Z2 : g_size g2 = n) by (destruct S2 as (H & _); congruence).
    assert (M2 : mem_ok g2) by (eapply same_shape_mem; eauto).
    assert (Nj' : node n j) by (unfold node; lia).
    rewrite g_lower_ok by (rewrite ?Z2; auto). cbn [bind].
    rewrite (I2 j jo) by auto. replace (j <? j) with false by lia. rewrite Z2.
    edestruct (ofold_range graph (fun g i =>
               b <- g_lower p g jo i ;; val <- tv_add (c1 j jo) b ;; g_raise p g j i val)
      (fun i g3 => same_shape g1 g3 /\ forall a b, node n a -> node n b ->
         cell g3 a b = if (a <? j) || ((a =? j) && (b <? i)) then c2 a b else c1 a b)
      0 n g2 n0) as (g3 & E3 & S3 & I3).
    { split; auto. intros a b Na Nb. rewrite I2 by auto. unfold node in *.
      replace (b <? 0) with false by lia. rewrite andb_false_r, orb_false_r. auto. }
    { intros i g3 Hi (S3 & I3).
      assert (Z3 : g_size g3 = n) by (destruct S3 as (H & _); congruence).
      assert (M3 : mem_ok g3) by (eapply same_shape_mem; eauto).
      assert (Ni' : node n i) by (unfold node; lia).
      rewrite g_lower_ok by (rewrite ?Z3; auto). cbn [bind].
      assert (R : cell g3 jo i = c1 jo i).
      { rewrite I3 by auto. rewrite (Row i) by auto.
        destruct ((jo <? j) || ((jo =? j) && (i <? i))); auto. }
      rewrite R, tv_add_asum; [|apply B1; auto|apply B1; auto|rewrite R1; apply H2; auto]. cbn [bind].
      destruct (g_raise_ok p g3 j i (asum (c1 j jo) (c1 jo i))) as (g4 & E4 & S4 & I4);
        rewrite ?Z3; auto.
      exists g4. split; auto. split; [eapply same_shape_trans; eauto|].
      intros a b Na Nb. rewrite I4 by (unfold node in *; lia). rewrite !I3 by auto.
      replace (j <? j) with false by lia. replace (i <? i) with false by lia.
      rewrite andb_false_r. cbn [orb].
      destruct (a =? j) eqn:Ta; destruct (b =? i) eqn:Tb; cbn [andb];
        try replace (b <? i + 1) with (b <? i) by lia; auto.
      replace (b <? i + 1) with true by lia. rewrite orb_true_r.
      unfold c2, sat2. fold c1. f_equal; [|f_equal]; f_equal; lia. }
    exists g3. split; auto. split; auto. intros a b Na Nb. rewrite I3 by auto.
    unfold node in *. replace (b <? n) with true by lia. rewrite andb_true_r.
    replace (a <? j + 1) with ((a <? j) || (a =? j)) by lia. auto. }
  exists g2. split; auto. split; [eapply same_shape_trans; eauto|].
  intros a b Na Nb. rewrite I2 by auto. unfold node in *.
  replace (a <? n) with true by lia. auto.
Qed.

(** ** One edge *)

(** The matrix with one more edge, and when its entries fit the time values *)
Definition star (D : mat) (i j w : Z) : mat := fun a b =>
  if (D a i =? - oo) || (D j b =? - oo) then D a b else Z.max (D a b) (D a i + w + D j b).
Definition fits (n : Z) (D : mat) (i j w : Z) : Prop := forall a b, node n a -> node n b ->
  D a i <> - oo -> D j b <> - oo -> D a i + w + D j b < oo /\ (D a b = - oo -> - oo < D a i + w + D j b).

Lemma tri n D a b c : closed n D -> node n a -> node n b -> node n c -> D a b <> - oo -> D b c <> - oo ->
  D a c <> - oo /\ D a b + D b c <= D a c.
Proof.
  intros (_ & T) Na Nb Nc F1 F2. destruct (T a b c (D a b) (D b c) Na Nb Nc) as (X & Y); try (split; auto; lia).
Qed.

Lemma star_added n D i j w : low n D -> node n i -> node n j -> fits n D i j w -> added n D i j w (star D i j w).
Proof.
  intros B Ni Nj F a b c Na Nb. unfold star, ent. pose proof (B a b Na Nb) as L.
  destruct (D a i =? - oo) eqn:T1; [|destruct (D j b =? - oo) eqn:T2]; cbn [orb].
  - split; [auto|]. intros [X|(x & y & X & Y & _)]; auto. lia.
  - split; [auto|]. intros [X|(x & y & X & Y & _)]; auto. lia.
  - destruct (F a b Na Nb) as (F1 & F2); try lia. split.
    + intros (X & Y). destruct (Z_le_gt_dec c (D a i + w + D j b)) as [l|l].
      * right. exists (D a i), (D j b). lia.
      * left. lia.
    + intros [(X & Y)|(x & y & (X1 & X2) & (Y1 & Y2) & Y)]; lia.
Qed.
Lemma star_low n D i j w : low n D -> fits n D i j w -> low n (star D i j w).
Proof.
  intros B F a b Na Nb. unfold star. pose proof (B a b Na Nb).
  destruct (D a i =? - oo) eqn:T1; [|destruct (D j b =? - oo) eqn:T2]; cbn [orb]; auto.
  destruct (F a b Na Nb); lia.
Qed.

Lemma edge_fits p g io jo w :
  mem_ok g -> node (g_size g) io -> node (g_size g) jo -> io <> jo ->
  low (g_size g) (cell g) -> closed (g_size g) (cell g) -> - oo < w < oo ->
  cell g io jo < w -> (cell g jo io = - oo \/ cell g jo io + w <= 0) -> fits (g_size g) (cell g) io jo w ->
  exists g1 g2, g_set p g io jo w = Ret g1 /\ g_plb p g1 io jo = Ret g2 /\ same_shape g g2 /\
    (forall a b, node (g_size g) a -> node (g_size g) b -> cell g2 a b = star (cell g) io jo w a b).
Proof.
  intros M Ni Nj N B Cl Fw Lw Cons F.
  destruct (g_set_ok p g io jo w M Ni Nj) as (g1 & E1 & S1 & I1).
  assert (Z1 : g_size g1 = g_size g) by apply S1.
  assert (M1 : mem_ok g1) by (eapply same_shape_mem; eauto).
  set (D := cell g) in *. set (n := g_size g) in *. pose proof (proj1 Cl) as Z0.
  assert (O : 0 < oo) by reflexivity.
  assert (I1' : forall a b, node n a -> node n b -> cell g1 a b = if (a =? io) && (b =? jo) then w else D a b).
  { intros a b (? & _) (? & _). auto. }
  assert (Q : forall a b, node n a -> node n b -> b <> jo -> cell g1 a b = D a b).
  { intros a b Na Nb e. rewrite I1' by auto. replace (b =? jo) with false by lia. rewrite andb_false_r. auto. }
  assert (Qj : forall b, node n b -> cell g1 jo b = D jo b).
  { intros b Nb. rewrite I1' by auto. replace (jo =? io) with false by lia. auto. }
  assert (Qw : cell g1 io jo = w) by (rewrite I1', !Z.eqb_refl by auto; auto).
  (* the first loop *)
  assert (A1 : forall a, node n a -> sat1 (cell g1) io jo a jo = if D a io =? - oo then D a jo else Z.max (D a jo) (D a io + w)).
  { intros a Na. unfold sat1. rewrite Z.eqb_refl, Qw, (Q a io) by auto. unfold asum.
    replace (w =? - oo) with false by lia. rewrite orb_false_r. rewrite I1', Z.eqb_refl, andb_true_r by auto.
    pose proof (B a jo Na Nj). destruct (a =? io) eqn:T.
    - assert (a = io) by lia. subst a. rewrite (Z0 io Ni). replace (0 =? - oo) with false by reflexivity. lia.
    - destruct (D a io =? - oo) eqn:T2; lia. }
  assert (F0 : forall a, node n a -> D a io <> - oo -> D a io + w < oo).
  { intros a Na X. destruct (F a jo Na Nj) as (Y & _); auto; rewrite (Z0 jo Nj) in *; lia. }
  assert (F3 : forall a, node n a -> D a io <> - oo -> D a jo = - oo -> - oo < D a io + w).
  { intros a Na X Z. destruct (F a jo Na Nj) as (_ & Y); auto; rewrite (Z0 jo Nj) in *; lia. }
  assert (L1 : low n (sat1 (cell g1) io jo)).
  { intros a b Na Nb. destruct (Z.eq_dec b jo) as [->|e].
    - rewrite A1 by auto. pose proof (B a jo Na Nj). pose proof (F0 a Na). destruct (D a io =? - oo) eqn:T; lia.
    - unfold sat1. replace (b =? jo) with false by lia. rewrite Q by auto. apply B; auto. }
  assert (J1 : sat1 (cell g1) io jo jo jo = 0).
  { rewrite A1, (Z0 jo) by auto. destruct (D jo io =? - oo) eqn:T; lia. }
  destruct (plb_sat p g1 io jo) as (g2 & E2 & S2 & I2); rewrite ?Z1; auto.
  - intros a b Na Nb. rewrite I1' by auto. destruct ((a =? io) && (b =? jo)); [lia|]. apply B; auto.
  - intros a Na. rewrite Qw, (Q a io) by auto. auto.
  - intros a b Na Nb. rewrite A1, Qj by auto. intros X Y. pose proof (B a b Na Nb).
    assert (G : D a jo <> - oo -> D a jo + D jo b < oo).
    { intros Z. destruct (tri n D a jo b Cl Na Nj Nb Z Y). lia. }
    destruct (D a io =? - oo) eqn:T; [auto|]. destruct (F a b Na Nb) as (F1 & _); auto; [lia|].
    pose proof (B a jo Na Nj). destruct (Z.eq_dec (D a jo) (- oo)); [|specialize (G ltac:(auto))]; lia.
  - rewrite Qj by auto. auto.
  - exists g1, g2. split; auto. split; auto. split; [eapply same_shape_trans; eauto|].
    intros a b Na Nb. rewrite I2 by (rewrite Z1; auto). unfold sat2.
    pose proof (B a b Na Nb). pose proof (B a jo Na Nj).
    destruct (Z.eq_dec b jo) as [->|e].
    + rewrite J1. pose proof (L1 a jo Na Nj). unfold asum. replace (0 =? - oo) with false by reflexivity. rewrite orb_false_r.
      replace (Z.max _ _) with (sat1 (cell g1) io jo a jo) by (destruct (sat1 (cell g1) io jo a jo =? - oo) eqn:T; lia).
      rewrite A1 by auto. unfold star. rewrite (Z0 jo) by auto. replace (0 =? - oo) with false by reflexivity.
      rewrite orb_false_r. destruct (D a io =? - oo); auto. f_equal. lia.
    + assert (Rb : sat1 (cell g1) io jo jo b = D jo b).
      { unfold sat1. replace (b =? jo) with false by lia. auto. }
      assert (Ab : sat1 (cell g1) io jo a b = D a b).
      { unfold sat1. replace (b =? jo) with false by lia. auto. }
      rewrite Rb, Ab, A1 by auto. unfold asum, star.
      pose proof (tri n D a jo b Cl Na Nj Nb) as G. pose proof (F a b Na Nb) as F'.
      destruct (D jo b =? - oo) eqn:T2; rewrite ?orb_true_r, ?orb_false_r; [lia|].
      destruct (D a io =? - oo) eqn:T1.
      * destruct (D a jo =? - oo) eqn:T3; [lia|]. destruct G; lia.
      * destruct F' as (F1 & F2); try lia. pose proof (F0 a Na ltac:(lia)).
        destruct (Z.max (D a jo) (D a io + w) =? - oo) eqn:T3.
        -- pose proof (F3 a Na). lia.
        -- destruct (Z.eq_dec (D a jo) (- oo)) as [e3|e3]; [|destruct G; [auto|lia|]]; lia.
Qed.

Lemma added_msat n D i j w D' t : closed n D -> node n i -> node n j -> added n D i j w D' ->
  (msat n D' t <-> msat n D t /\ w <= t j - t i).
Proof.
  intros (Z0 & _) Ni Nj A. assert (O : 0 < oo) by reflexivity.
  assert (Z1 : forall x, node n x -> ent D x x 0) by (intros x Nx; split; rewrite Z0 by auto; lia).
  split.
  - intros S. split.
    + intros a b c Na Nb X. apply S; auto. apply A; auto.
    + apply S; auto. apply A; auto. right. exists 0, 0. repeat split; auto; try apply Z1; auto. lia.
  - intros (S & L) a b c Na Nb X. apply A in X; auto. destruct X as [X|(x & y & X & Y & Q)].
    + apply S; auto.
    + pose proof (S _ _ _ Na Ni X). pose proof (S _ _ _ Nj Nb Y). lia.
Qed.
Lemma added_closed n D i j w D' : closed n D -> node n i -> node n j -> (D j i = - oo \/ D j i + w <= 0) ->
  added n D i j w D' -> closed n D'.
Proof.
  intros Cl Ni Nj Cons A.
  assert (T : tight n (medge n D) D).
  { split; auto. split.
    - intros a b c (Na & Nb & F & ->). repeat split; auto; try apply Na; try apply Nb. lia.
    - intros a b c Na Nb (F & L). exists [], (D a b). split; auto. constructor. left. unfold medge. auto. }
  apply (added_tight n (medge n D) D i j w D' T Ni Nj); auto. intros x (X & L). lia.
Qed.
Lemma added_ext n D i j w D1 D2 : (forall a b, node n a -> node n b -> D2 a b = D1 a b) ->
  added n D i j w D1 -> added n D i j w D2.
Proof. intros E A a b c Na Nb. unfold ent at 1. rewrite E by auto. apply A; auto. Qed.

(** The matrix after the lower bound, then after both bounds of a constraint *)
Definition half (D : mat) (k : kons) : mat :=
  if D (k_from k) (k_to k) <? k_lo k then star D (k_from k) (k_to k) (k_lo k) else D.
Definition whole (D : mat) (k : kons) : mat :=
  if D (k_to k) (k_from k) <? - k_up k then star (half D k) (k_to k) (k_from k) (- k_up k) else half D k.

Lemma propagate_fits p g k : mem_ok g -> k_empty k = false -> wf_iv (mkI (k_lo k) (k_up k)) ->
  node (g_size g) (k_from k) -> node (g_size g) (k_to k) ->
  low (g_size g) (cell g) -> closed (g_size g) (cell g) ->
  (~ contradicts (cell g) k -> (cell g (k_from k) (k_to k) < k_lo k ->
     fits (g_size g) (cell g) (k_from k) (k_to k) (k_lo k)) /\
   (cell g (k_to k) (k_from k) < - k_up k ->
     fits (g_size g) (half (cell g) k) (k_to k) (k_from k) (- k_up k))) ->
  exists g' r, g_propagate p g k = Ret (g', r) /\ same_shape g g' /\
    ((r = Unchanged /\ g' = g /\ implied_by (cell g) k) \/
     (r = Recovered /\ g' = g /\ contradicts (cell g) k) \/
     (r = Propagated /\ ~ implied_by (cell g) k /\ ~ contradicts (cell g) k)) /\
    (r <> Recovered -> closed (g_size g) (cell g') /\ low (g_size g) (cell g') /\
      (forall t, msat (g_size g) (cell g') t <-> msat (g_size g) (cell g) t /\ ksat k t) /\
      forall a b, node (g_size g) a -> node (g_size g) b -> cell g' a b = whole (cell g) k a b).
Proof.
  intros M Ek W Nf Nt B Cl H. set (n := g_size g) in *. set (D := cell g) in *.
  unfold contradicts, implied_by, whole, half in *.
  set (f := k_from k) in *. set (u := k_to k) in *. set (lo := k_lo k) in *. set (up := k_up k) in *.
  unfold wf_iv in W. simpl in W. destruct W as (W1 & W2 & W3 & W4 & W5). unfold valid in W1, W2.
  assert (O : 0 < oo) by reflexivity. pose proof (proj1 Cl) as Z0.
  pose proof (B f u Nf Nt) as Bfu. pose proof (B u f Nt Nf) as Buf.
  unfold g_propagate. rewrite Ek. cbv zeta. fold f u lo up.
  replace (g_size g <=? Z.max f u) with false by (unfold node in *; lia).
  rewrite !g_lower_ok by auto. cbn [bind]. unfold tv_neg. fold D.
  assert (Ks : forall t, ksat k t <-> (lo = - oo \/ lo <= t u - t f) /\ (up = oo \/ - up <= t f - t u)).
  { intros t. unfold ksat, In_ext. simpl. fold f u lo up. lia. }
  destruct (lo <=? D f u) eqn:T1.
  - replace (D f u <? lo) with false in * by lia.
    destruct (- up <=? D u f) eqn:T2.
    + exists g, Unchanged. split; auto. split; auto. replace (D u f <? - up) with false by lia.
      split; [left; split; auto; split; auto; unfold ent; lia|]. intros _. split; auto. split; auto. split; auto.
      intros t. rewrite Ks. split; [|tauto]. intros S. change (msat n D t) in S. split; auto.
      pose proof (S f u (D f u) Nf Nt). pose proof (S u f (D u f) Nt Nf). unfold ent in *. lia.
    + replace (D u f <? - up) with true in * by lia. destruct (up <? D f u) eqn:T3.
      * exists g, Recovered. split; auto. split; auto. split; [|congruence]. right. left. split; auto. split; auto.
        left. exists (D f u). unfold ent. lia.
      * assert (Nfu : u <> f) by (intros e; rewrite e in *; rewrite (Z0 f) in * by auto; lia).
        assert (NC : ~ ((exists c, ent D f u c /\ up < c /\ up <> oo) \/ (exists c, ent D u f c /\ - lo < c /\ lo <> - oo))).
        { intros [(c & (X & Y) & Z)|(c & (X & Y) & Z)]; [lia|].
          destruct (tri n D f u f Cl Nf Nt Nf) as (_ & Q); [lia|auto|]. rewrite (Z0 f) in Q by auto. lia. }
        destruct (H NC) as (_ & F). specialize (F ltac:(lia)).
        destruct (edge_fits p g u f (- up)) as (g1 & g2 & E1 & E2 & S2 & I2); auto; try (fold n D; lia).
        rewrite E1. cbn [bind]. rewrite E2. cbn [bind].
        assert (A : added n D u f (- up) (cell g2)).
        { apply (added_ext n D u f (- up) (star D u f (- up))); auto. apply star_added; auto. }
        exists g2, Propagated. split; auto. split; auto. split; [right; right; split; auto; split; auto; unfold ent; lia|].
        intros _. split; [|split; [|split; [|exact I2]]].
        -- apply (added_closed n D u f (- up)); auto. lia.
        -- intros a b Na Nb. rewrite I2 by auto. apply (star_low n D u f (- up)); auto.
        -- intros t. rewrite (added_msat n D u f (- up) (cell g2) t) by auto. rewrite Ks. split.
           ++ intros (S & L). split; auto. pose proof (S f u (D f u) Nf Nt). unfold ent in *. lia.
           ++ intros (S & L). split; auto. lia.
  - replace (D f u <? lo) with true in * by lia. destruct (- lo <? D u f) eqn:T2.
    + exists g, Recovered. split; auto. split; auto. split; [|congruence]. right. left. split; auto. split; auto.
      right. exists (D u f). unfold ent. lia.
    + assert (Nfu : f <> u) by (intros e; rewrite e in *; rewrite (Z0 u) in * by auto; lia).
      assert (NC : ~ ((exists c, ent D f u c /\ up < c /\ up <> oo) \/ (exists c, ent D u f c /\ - lo < c /\ lo <> - oo))).
      { intros [(c & (X & Y) & Z)|(c & (X & Y) & Z)]; lia. }
      destruct (H NC) as (F & F'). specialize (F ltac:(lia)).
      destruct (edge_fits p g f u lo) as (g1 & g2 & E1 & E2 & S2 & I2); auto; try (fold n D; lia).
      rewrite E1. cbn [bind]. rewrite E2. cbn [bind].
      assert (A : added n D f u lo (cell g2)).
      { apply (added_ext n D f u lo (star D f u lo)); auto. apply star_added; auto. }
      pose proof S2 as (Sz & _). fold n in Sz. assert (M2 : mem_ok g2) by (eapply same_shape_mem; eauto).
      assert (Cl2 : closed n (cell g2)) by (apply (added_closed n D f u lo); auto; lia).
      assert (B2 : low n (cell g2)) by (intros a b Na Nb; rewrite I2 by auto; apply (star_low n D f u lo); auto).
      assert (Euf : cell g2 u f = D u f).
      { rewrite I2 by auto. unfold star. change (cell g) with D. destruct (D u f =? - oo) eqn:T; cbn [orb]; auto. lia. }
      assert (Efu : cell g2 f u = lo).
      { rewrite I2 by auto. unfold star. change (cell g) with D. rewrite !Z0 by auto. replace (0 =? - oo) with false by reflexivity. cbn [orb]. lia. }
      rewrite g_lower_ok by (auto; rewrite Sz; auto). cbn [bind]. rewrite Euf.
      destruct (D u f <? - up) eqn:T3.
      * specialize (F' ltac:(lia)).
        assert (F2 : fits n (cell g2) u f (- up)).
        { intros a b Na Nb. rewrite !I2 by auto. apply F'; auto. }
        destruct (edge_fits p g2 u f (- up)) as (g3 & g4 & E3 & E4 & S4 & I4); rewrite ?Sz; auto; try lia.
        rewrite E3. cbn [bind]. rewrite E4. cbn [bind]. rewrite Sz in I4.
        assert (A2 : added n (cell g2) u f (- up) (cell g4)).
        { apply (added_ext n (cell g2) u f (- up) (star (cell g2) u f (- up))); auto. apply star_added; auto. }
        exists g4, Propagated. split; auto. split; [eapply same_shape_trans; eauto|].
        split; [right; right; split; auto; split; auto; unfold ent; lia|].
        intros _. split; [|split; [|split]].
        -- apply (added_closed n (cell g2) u f (- up)); auto. lia.
        -- intros a b Na Nb. rewrite I4 by auto. apply (star_low n (cell g2) u f (- up)); auto.
        -- intros t. rewrite (added_msat n (cell g2) u f (- up) (cell g4) t) by auto.
           rewrite (added_msat n D f u lo (cell g2) t) by auto. rewrite Ks. split.
           ++ intros ((S & L1) & L2). split; auto.
           ++ intros (S & L1 & L2). split; [split; auto|]; lia.
        -- intros a b Na Nb. rewrite I4 by auto. unfold star at 1. rewrite !I2 by auto. reflexivity.
      * exists g2, Propagated. split; auto. split; auto. split; [right; right; split; auto; split; auto; unfold ent; lia|].
        intros _. split; [|split; [|split; [|exact I2]]]; auto.
        intros t. rewrite (added_msat n D f u lo (cell g2) t) by auto. rewrite Ks. split.
        -- intros (S & L). split; auto. pose proof (S u f (D u f) Nt Nf). unfold ent in *. lia.
        -- intros (S & L). split; auto. lia.
Qed.

(** ** Bounded matrices and constraints *)

Lemma low_bnd n C D : all_bnd n C D -> C < oo -> low n D.
Proof. intros B L i j Ni Nj. pose proof (B i j Ni Nj) as X. unfold bnd in X. assert (O : 0 < oo) by reflexivity. lia. Qed.

Lemma half_arith m C lo up ab af ub au fb : 0 <= C -> m < - (3 * C) -> - C <= lo <= C -> - C <= - up <= C -> lo <= up ->
  (ab = m \/ - C <= ab <= C) -> (af = m \/ - C <= af <= C) -> (ub = m \/ - C <= ub <= C) ->
  (au = m \/ - C <= au <= C) -> (fb = m \/ - C <= fb <= C) ->
  (af <> m -> fb <> m -> ab <> m /\ af + fb <= ab) -> (au <> m -> ub <> m -> ab <> m /\ au + ub <= ab) ->
  (if af =? m then au else Z.max au (af + lo + 0)) <> m ->
  (if ub =? m then fb else Z.max fb (0 + lo + ub)) <> m ->
  (if af =? m then au else Z.max au (af + lo + 0)) - up + (if ub =? m then fb else Z.max fb (0 + lo + ub)) <= 3 * C /\
  ((if (af =? m) || (ub =? m) then ab else Z.max ab (af + lo + ub)) = m ->
   - (3 * C) <= (if af =? m then au else Z.max au (af + lo + 0)) - up + (if ub =? m then fb else Z.max fb (0 + lo + ub))).
Proof.
  intros C0 Om Lo Up W Bab Baf Bub Bau Bfb T1 T2.
  destruct (Z.eqb_spec af m) as [E1|E1]; destruct (Z.eqb_spec ub m) as [E2|E2]; cbn [orb];
    destruct (Z.eq_dec au m) as [e3|e3]; destruct (Z.eq_dec fb m) as [e4|e4];
    (destruct Baf as [Baf|Baf]; [try congruence|try (exfalso; clear - Baf E1 Om C0; lia)]);
    (destruct Bub as [Bub|Bub]; [try congruence|try (exfalso; clear - Bub E2 Om C0; lia)]);
    (destruct Bau as [Bau|Bau]; [try congruence|try (exfalso; clear - Bau e3 Om C0; lia)]);
    (destruct Bfb as [Bfb|Bfb]; [try congruence|try (exfalso; clear - Bfb e4 Om C0; lia)]);
    try (specialize (T1 E1 e4)); try (specialize (T2 e3 E2)); clear E1 E2 e3 e4;
    intros F1 F2; (split; [|intros F3]); try lia.
Qed.

Section Third.
Variables (n C : Z) (D : mat) (k : kons).
Hypotheses (Nf : node n (k_from k)) (Nt : node n (k_to k)) (Cl : closed n D) (B : all_bnd n C D).
Hypotheses (W : wf_iv (mkI (k_lo k) (k_up k))) (Kb : kbnd C k) (NC : ~ contradicts D k).
Hypotheses (C0 : 0 <= C) (L : 3 * C < oo).

Lemma third_first : D (k_from k) (k_to k) < k_lo k -> fits n D (k_from k) (k_to k) (k_lo k).
Proof.
  intros H a b Na Nb F1 F2. pose proof (B a _ Na Nf) as X. pose proof (B _ b Nt Nb) as Y.
  destruct Kb as (Z & _). pose proof (B _ _ Nf Nt). unfold bnd in *. assert (O : 0 < oo) by reflexivity. lia.
Qed.
Lemma half_bnd a b : node n a -> node n b -> bnd (3 * C) (half D k a b).
Proof.
  intros Na Nb. pose proof (B a b Na Nb) as X. unfold half. destruct (_ <? _) eqn:T.
  - unfold star. pose proof (B a _ Na Nf) as X1. pose proof (B _ b Nt Nb) as X2.
    destruct (D a (k_from k) =? - oo) eqn:T1; [|destruct (D (k_to k) b =? - oo) eqn:T2]; cbn [orb];
      try solve [apply bnd_mono with (C := C); [lia|assumption]].
    destruct Kb as (Z & _). pose proof (B _ _ Nf Nt). unfold bnd in *. assert (O : 0 < oo) by reflexivity. lia.
  - apply bnd_mono with (C := C); [lia|auto].
Qed.
(** The three ways from [a] to [b] *)
Lemma half_second a b : node n a -> node n b ->
  half D k a (k_to k) <> - oo -> half D k (k_from k) b <> - oo -> - oo < - k_up k ->
  half D k a (k_to k) - k_up k + half D k (k_from k) b <= 3 * C /\
  (half D k a b = - oo -> - (3 * C) <= half D k a (k_to k) - k_up k + half D k (k_from k) b).
Proof.
  intros Na Nb. pose proof (B a b Na Nb) as Bab. pose proof (B a _ Na Nt) as Bau. pose proof (B a _ Na Nf) as Baf.
  pose proof (B _ b Nf Nb) as Bfb. pose proof (B _ b Nt Nb) as Bub. destruct Kb as (K1 & K2).
  pose proof (tri n D a (k_from k) b Cl Na Nf Nb) as T1. pose proof (tri n D a (k_to k) b Cl Na Nt Nb) as T2.
  destruct W as (_ & W2 & _). cbn [lower upper] in W2. pose proof (B _ _ Nf Nt) as Bfu.
  pose proof (proj1 Cl) as Z0. unfold half. assert (O : 0 < oo) by reflexivity.
  destruct (D (k_from k) (k_to k) <? k_lo k) eqn:T.
  - unfold star. rewrite !Z0 by auto. replace (0 =? - oo) with false by reflexivity. rewrite ?orb_false_r. cbn [orb].
    intros F1 F2 F3. apply half_arith with (lo := k_lo k); auto.
    + lia.
    + clear - K1 Bfu T L O C0. unfold bnd in *. lia.
    + clear - K2 F3. unfold bnd in *. lia.
  - intros F1 F2 F3. unfold bnd in *. lia.
Qed.
Lemma third_second : D (k_to k) (k_from k) < - k_up k -> fits n (half D k) (k_to k) (k_from k) (- k_up k).
Proof.
  intros H a b Na Nb F1 F2. pose proof (B _ _ Nt Nf) as X. unfold bnd in X. assert (O : 0 < oo) by reflexivity.
  destruct (half_second a b Na Nb F1 F2 ltac:(lia)) as (Y & Z). split; [lia|]. intros e. specialize (Z e). lia.
Qed.
Lemma whole_bnd a b : node n a -> node n b -> bnd (3 * C) (whole D k a b).
Proof.
  intros Na Nb. pose proof (half_bnd a b Na Nb) as X. unfold whole. destruct (_ <? _) eqn:T; auto.
  unfold star. destruct (half D k a (k_to k) =? - oo) eqn:T1; [auto|].
  destruct (half D k (k_from k) b =? - oo) eqn:T2; cbn [orb]; auto.
  pose proof (B _ _ Nt Nf) as Q. unfold bnd in Q. assert (O : 0 < oo) by reflexivity.
  destruct (half_second a b Na Nb ltac:(lia) ltac:(lia) ltac:(lia)) as (Y & Z). unfold bnd in *. lia.
Qed.
End Third.
