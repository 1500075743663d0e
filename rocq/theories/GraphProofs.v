(** Storage of the graph: each unchecked access hits its own cell; the loops of the code
    as matrix equations.  Proof helpers. *)
From Verif Require Import Machine TimeValue Interval Spec Tac TimeValueProofs Graph MaxPlus.

Definition cidx (i j : Z) : Z := if j <=? i then i * i + j else j * (j + 2) - i.
Definition cell (g : graph) : mat := fun i j => nth (Z.to_nat (cidx i j)) (g_data g) (- oo).
Definition mem_ok (g : graph) : Prop :=
  0 <= g_size g <= 65535 /\ g_size g * g_size g <= Z.of_nat (length (g_data g)).

Lemma cidx_range : forall i j, 0 <= i -> 0 <= j ->
  Z.max i j * Z.max i j <= cidx i j <= Z.max i j * Z.max i j + 2 * Z.max i j.
Proof.
  intros i j Hi Hj. unfold cidx. destruct (j <=? i) eqn:T; lia.
Qed.

Lemma cidx_bound : forall n i j, node n i -> node n j -> 0 <= cidx i j < n * n.
Proof.
  intros n i j (A & B) (C & D). pose proof (cidx_range i j A C) as R.
  set (m := Z.max i j) in *. assert (0 <= m <= n - 1) by lia. nia.
Qed.

Lemma cidx_inj : forall i j i' j', 0 <= i -> 0 <= j -> 0 <= i' -> 0 <= j' ->
  cidx i j = cidx i' j' -> i = i' /\ j = j'.
Proof.
  intros i j i' j' A B C D E.
  pose proof (cidx_range i j A B) as R. pose proof (cidx_range i' j' C D) as R'.
  assert (M : Z.max i j = Z.max i' j').
  { set (m := Z.max i j) in *. set (m' := Z.max i' j') in *.
    assert (0 <= m) by lia. assert (0 <= m') by lia.
    destruct (Z_lt_le_dec m m'); [nia|]. destruct (Z_lt_le_dec m' m); [nia|]. lia. }
  unfold cidx in *. destruct (j <=? i) eqn:T; destruct (j' <=? i') eqn:T'.
  - rewrite !Z.max_l in M by lia. subst. lia.
  - rewrite Z.max_l, Z.max_r in M by lia. subst. nia.
  - rewrite Z.max_r, Z.max_l in M by lia. subst. nia.
  - rewrite !Z.max_r in M by lia. subst. lia.
Qed.

Lemma cidx_surj : forall k, 0 <= k -> exists i j, 0 <= i /\ 0 <= j /\ cidx i j = k /\
  Z.max i j = Z.sqrt k.
Proof.
  intros k H. pose proof (Z.sqrt_spec k H) as S. cbv zeta in S.
  pose proof (Z.sqrt_nonneg k). set (m := Z.sqrt k) in *.
  destruct (Z_le_gt_dec (k - m * m) m).
  - exists m, (k - m * m). unfold cidx.
    destruct (k - m * m <=? m) eqn:T; repeat split; lia.
  - exists (m * (m + 2) - k), m. unfold cidx.
    assert (0 <= m * (m + 2) - k < m) by lia.
    destruct (m <=? m * (m + 2) - k) eqn:T; repeat split; lia.
Qed.

Lemma g_idx_ok : forall p n i j, n <= 65535 -> node n i -> node n j ->
  g_idx p i j = Ret (cidx i j).
Proof.
  intros p n i j L Hi Hj. pose proof (cidx_bound n i j Hi Hj) as B.
  assert (n * n <= 4294836225) by (unfold node in *; nia).
  unfold node in *. unfold g_idx, cidx in *. destruct (j <=? i) eqn:T.
  - assert (i * i <= 4294836225) by nia. assert (0 <= i * i) by nia.
    mach. replace (_ && _) with true by lia. simpl. replace (_ && _) with true by lia. auto.
  - mach. replace ((0 <=? j + 2) && _) with true by lia. simpl.
    assert (0 <= j * (j + 2) <= 4294967295) by nia.
    replace ((0 <=? j * (j + 2)) && _) with true by lia. simpl.
    replace (_ && _) with true by lia. auto.
Qed.

(** ** Lists *)

Lemma list_set_length : forall l k v, length (list_set l k v) = length l.
Proof. induction l; destruct k; simpl; auto. Qed.
Lemma list_set_same : forall l k v, (k < length l)%nat -> nth_error (list_set l k v) k = Some v.
Proof. induction l; destruct k; simpl; intros; auto; try lia. apply IHl. lia. Qed.
Lemma list_set_other : forall l k v m, k <> m -> nth_error (list_set l k v) m = nth_error l m.
Proof. induction l; destruct k; destruct m; simpl; intros; auto; try congruence. Qed.

Lemma nth_nth_error : forall (l : list Z) k d v, nth_error l k = Some v -> nth k l d = v.
Proof. intros. apply nth_error_nth. auto. Qed.

Lemma zrange_nil : forall a b, b <= a -> zrange a b = [].
Proof. intros. unfold zrange. replace (Z.to_nat (b - a)) with O by lia. auto. Qed.
Lemma zrange_cons : forall a b, a < b -> zrange a b = a :: zrange (a + 1) b.
Proof.
  intros. unfold zrange. replace (Z.to_nat (b - a)) with (S (Z.to_nat (b - (a + 1)))) by lia.
  simpl. f_equal; [lia|]. rewrite <- seq_shift, map_map. apply map_ext. intros. lia.
Qed.
Lemma zrange_in : forall a b x, In x (zrange a b) <-> a <= x < b.
Proof.
  intros. unfold zrange. rewrite in_map_iff. split.
  - intros (n & <- & I). apply in_seq in I. lia.
  - intros H. exists (Z.to_nat (x - a)). split; [lia|]. apply in_seq. lia.
Qed.

(** A [for] loop with an invariant *)
Lemma ofold_range : forall A (f : A -> Z -> outcome A) (I : Z -> A -> Prop) a b s,
  a <= b -> I a s ->
  (forall k s, a <= k < b -> I k s -> exists s', f s k = Ret s' /\ I (k + 1) s') ->
  exists s', ofold f s (zrange a b) = Ret s' /\ I b s'.
Proof.
  intros A f I a b s L. remember (Z.to_nat (b - a)) as m eqn:E. revert a s L E.
  induction m as [|m IH]; intros a s L E Ia St.
  - rewrite zrange_nil by lia. exists s. assert (a = b) by lia. subst. auto.
  - rewrite zrange_cons by lia. simpl.
    destruct (St a s) as (s1 & -> & I1); auto; [lia|]. simpl.
    apply IH; auto; try lia. intros k s' Hk. apply St. lia.
Qed.

(** ** Cells *)

Definition same_shape (g g' : graph) : Prop :=
  g_size g' = g_size g /\ length (g_data g') = length (g_data g) /\
  forall k, g_size g * g_size g <= k ->
    nth_error (g_data g') (Z.to_nat k) = nth_error (g_data g) (Z.to_nat k).

Lemma same_shape_refl : forall g, same_shape g g.
Proof. intros. split; auto. Qed.
Lemma same_shape_trans : forall a b c, same_shape a b -> same_shape b c -> same_shape a c.
Proof.
  intros a b c (A & B & C) (A' & B' & C'). split; [congruence|]. split; [congruence|].
  intros k H. rewrite C' by (rewrite A; auto). auto.
Qed.
Lemma same_shape_mem : forall g g', same_shape g g' -> mem_ok g -> mem_ok g'.
Proof. intros g g' (A & B & _) (C & D). unfold mem_ok. rewrite A, B. auto. Qed.
#[global] Hint Resolve same_shape_refl : core.

Lemma cell_nth : forall g i j, mem_ok g -> node (g_size g) i -> node (g_size g) j ->
  nth_error (g_data g) (Z.to_nat (cidx i j)) = Some (cell g i j).
Proof.
  intros g i j (S & M) Hi Hj. pose proof (cidx_bound _ _ _ Hi Hj).
  unfold cell. apply nth_error_nth'. lia.
Qed.

Lemma g_lower_ok : forall p g i j, mem_ok g -> node (g_size g) i -> node (g_size g) j ->
  g_lower p g i j = Ret (cell g i j).
Proof.
  intros p g i j M Hi Hj. unfold g_lower. rewrite (g_idx_ok p (g_size g)); auto; [|apply M].
  simpl. unfold vget. rewrite cell_nth; auto.
Qed.

Lemma g_set_ok : forall p g i j v, mem_ok g -> node (g_size g) i -> node (g_size g) j ->
  exists g', g_set p g i j v = Ret g' /\ same_shape g g' /\
    (forall a b, 0 <= a -> 0 <= b ->
       cell g' a b = if (a =? i) && (b =? j) then v else cell g a b).
Proof.
  intros p g i j v M Hi Hj. unfold g_set. rewrite (g_idx_ok p (g_size g)); auto; [|apply M].
  simpl. pose proof (cidx_bound _ _ _ Hi Hj) as B. destruct M as (S & M).
  unfold vset. replace (_ <? _) with true by lia. simpl.
  eexists. split; [reflexivity|]. split.
  - split; auto. simpl. split; [apply list_set_length|].
    intros k Hk. apply list_set_other. lia.
  - intros a b Ha Hb. unfold cell. simpl.
    destruct ((a =? i) && (b =? j)) eqn:T.
    + assert (a = i) by lia. assert (b = j) by lia. subst.
      apply nth_nth_error. apply list_set_same. lia.
    + assert (N : Z.to_nat (cidx i j) <> Z.to_nat (cidx a b)).
      { unfold node in *. intros E. pose proof (cidx_range a b Ha Hb).
        assert (E' : cidx i j = cidx a b) by nia.
        apply cidx_inj in E'; lia. }
      pose proof (list_set_other (g_data g) (Z.to_nat (cidx i j)) v _ N) as L.
      destruct (nth_error (g_data g) (Z.to_nat (cidx a b))) eqn:E.
      * rewrite (nth_nth_error _ _ _ _ L), (nth_nth_error _ _ _ _ E). auto.
      * apply nth_error_None in E. rewrite !nth_overflow; auto.
        rewrite list_set_length. auto.
Qed.

Lemma g_raise_ok : forall p g i j v, mem_ok g -> node (g_size g) i -> node (g_size g) j ->
  exists g', g_raise p g i j v = Ret g' /\ same_shape g g' /\
    (forall a b, 0 <= a -> 0 <= b ->
       cell g' a b = if (a =? i) && (b =? j) then Z.max (cell g i j) v else cell g a b).
Proof.
  intros p g i j v M Hi Hj. unfold g_raise. rewrite g_lower_ok by auto. simpl.
  destruct (cell g i j <? v) eqn:T.
  - destruct (g_set_ok p g i j v M Hi Hj) as (g' & E & S & C).
    exists g'. split; auto. split; auto. intros a b Ha Hb. rewrite C by auto.
    destruct ((a =? i) && (b =? j)); auto. lia.
  - exists g. split; auto. split; auto. intros a b Ha Hb.
    destruct ((a =? i) && (b =? j)) eqn:T'; auto.
    assert (a = i) by lia. assert (b = j) by lia. subst. lia.
Qed.

(** ** Exact sums *)

(** The sum of two lower bounds, [- oo] absorbing *)
Definition esum (a b : Z) : Z := if (a =? - oo) || (b =? - oo) then - oo else a + b.

Definition bnd (C x : Z) : Prop := x = - oo \/ - C <= x <= C.

Lemma tv_add_esum : forall C D a b, bnd C a -> bnd D b -> 0 <= C -> 0 <= D -> C + D < oo ->
  tv_add a b = Ret (esum a b).
Proof.
  intros C D a b Ha Hb C0 D0 L. unfold tv_add, esum, bnd in *.
  destruct (a =? - oo) eqn:Ea; destruct (b =? - oo) eqn:Eb; simpl;
    pts; unfold sat64, i64_min, i64_max in *; tests; try lia; f_equal; lia.
Qed.

Lemma esum_bnd : forall C D a b, bnd C a -> bnd D b -> bnd (C + D) (esum a b).
Proof.
  intros C D a b Ha Hb. unfold esum, bnd in *.
  destruct (a =? - oo) eqn:Ea; destruct (b =? - oo) eqn:Eb; simpl; auto. lia.
Qed.

Lemma bnd_mono : forall C D x, C <= D -> bnd C x -> bnd D x.
Proof. unfold bnd. intros. lia. Qed.

Lemma max_bnd : forall C a b, C < oo -> bnd C a -> bnd C b -> bnd C (Z.max a b).
Proof. unfold bnd. intros. lia. Qed.

Definition pe (x c : Z) : Prop := x <> - oo /\ c <= x.
Lemma pe_max : forall C x y c, bnd C x -> bnd C y -> C < oo ->
  (pe (Z.max x y) c <-> pe x c \/ pe y c).
Proof. unfold pe, bnd. intros. lia. Qed.
Lemma pe_esum : forall C D a b c, bnd C a -> bnd D b -> 0 <= C -> 0 <= D -> C + D < oo ->
  (pe (esum a b) c <-> exists x y, pe a x /\ pe b y /\ c <= x + y).
Proof.
  unfold pe, bnd, esum. intros C D a b c Ha Hb C0 D0 L.
  destruct (a =? - oo) eqn:Ea; destruct (b =? - oo) eqn:Eb; simpl.
  - split; [lia|]. intros (x & y & X & Y & _). lia.
  - split; [lia|]. intros (x & y & X & Y & _). lia.
  - split; [lia|]. intros (x & y & X & Y & _). lia.
  - split.
    + intros. exists a, b. lia.
    + intros (x & y & X & Y & Z). lia.
Qed.

(** ** [propagate_lower_bound] *)

Definition all_bnd (n C : Z) (D : mat) : Prop :=
  forall i j, node n i -> node n j -> bnd C (D i j).

Definition plb1 (D : mat) (io jo : Z) : mat := fun a b =>
  if b =? jo then Z.max (D a jo) (esum (D a io) (D io jo)) else D a b.
Definition plb2 (D : mat) (io jo : Z) : mat := fun a b =>
  Z.max (plb1 D io jo a b) (esum (plb1 D io jo a jo) (plb1 D io jo jo b)).

Lemma plb1_bnd : forall n C D io jo, node n io -> node n jo -> 0 <= C -> 2 * C < oo ->
  all_bnd n C D -> all_bnd n (2 * C) (plb1 D io jo).
Proof.
  intros n C D io jo Ni Nj C0 L H a b Na Nb. unfold plb1.
  destruct (b =? jo) eqn:T.
  - apply max_bnd; auto.
    + apply bnd_mono with (C := C); [lia|auto].
    + replace (2 * C) with (C + C) by lia. apply esum_bnd; auto.
  - apply bnd_mono with (C := C); [lia|auto].
Qed.

Lemma plb_ok : forall p g io jo C,
  mem_ok g -> node (g_size g) io -> node (g_size g) jo -> io <> jo ->
  0 <= C -> 4 * C < oo -> all_bnd (g_size g) C (cell g) ->
  cell g jo jo <= 0 -> esum (cell g jo io) (cell g io jo) <= 0 ->
  exists g', g_plb p g io jo = Ret g' /\ same_shape g g' /\
    (forall a b, node (g_size g) a -> node (g_size g) b ->
       cell g' a b = plb2 (cell g) io jo a b).
Proof.
  intros p g io jo C M Ni Nj Nij C0 CL B Dj Cons.
  unfold g_plb. rewrite g_lower_ok by auto. cbn [bind].
  set (n := g_size g) in *.
  assert (n0 : 0 <= n) by (unfold node in *; lia).
  set (c1 := plb1 (cell g) io jo).
  assert (B1 : all_bnd n (2 * C) c1) by (apply plb1_bnd; auto; lia).
  set (w := cell g io jo) in *.
  (* first loop *)
  edestruct (ofold_range graph (fun g i =>
                 a <- g_lower p g i io ;; val <- tv_add a w ;; g_raise p g i jo val)
      (fun k g1 => same_shape g g1 /\ forall a b, node n a -> node n b ->
         cell g1 a b = if (b =? jo) && (a <? k) then c1 a b else cell g a b)
      0 n g n0) as (g1 & E1 & S1 & I1).
  { split; auto. intros a b Na Nb. unfold node in *.
    replace (a <? 0) with false by lia. rewrite andb_false_r. auto. }
  { intros k g1 Hk (S1 & I1).
    assert (M1 : mem_ok g1) by (eapply same_shape_mem; eauto).
    assert (Z1 : g_size g1 = n) by apply S1.
    assert (Nk : node n k) by (unfold node; lia).
    rewrite g_lower_ok by (rewrite ?Z1; auto). cbn [bind].
    rewrite (I1 k io) by auto. replace (io =? jo) with false by lia. cbn [andb].
    rewrite (tv_add_esum C C) by (try apply B; auto; lia). cbn [bind].
    destruct (g_raise_ok p g1 k jo (esum (cell g k io) w)) as (g2 & E2 & S2 & I2);
      rewrite ?Z1; auto.
    exists g2. split; auto. split; [eapply same_shape_trans; eauto|].
    intros a b Na Nb. rewrite I2 by (unfold node in *; lia).
    rewrite !I1 by auto. replace (k <? k) with false by lia. rewrite andb_false_r.
    unfold c1, plb1. fold w.
    destruct (a =? k) eqn:Ta; destruct (b =? jo) eqn:Tb; cbn [andb];
      try replace (a <? k + 1) with (a <? k) by lia; auto.
    replace (a <? k + 1) with true by lia. f_equal; [|f_equal]; f_equal; lia. }
  rewrite E1. cbn [bind].
  assert (Z1 : g_size g1 = n) by apply S1.
  assert (M1 : mem_ok g1) by (eapply same_shape_mem; eauto).
  assert (I1' : forall a b, node n a -> node n b -> cell g1 a b = c1 a b).
  { intros a b Na Nb. rewrite I1 by auto. unfold node in *.
    replace (a <? n) with true by lia. unfold c1, plb1.
    destruct (b =? jo); auto. }
  clear I1 E1.
  set (c2 := plb2 (cell g) io jo).
  assert (Djj : c1 jo jo <= 0).
  { unfold c1, plb1. rewrite Z.eqb_refl. fold w. lia. }
  assert (Row : forall b, node n b -> c2 jo b = c1 jo b).
  { intros b Nb. unfold c2, plb2. fold c1. specialize (B1 jo b Nj Nb). unfold esum, bnd in *.
    destruct (c1 jo jo =? - oo) eqn:T1; destruct (c1 jo b =? - oo) eqn:T2; cbn [orb]; lia. }
  assert (Col : forall a, node n a -> c2 a jo = c1 a jo).
  { intros a Na. unfold c2, plb2. fold c1. specialize (B1 a jo Na Nj). unfold esum, bnd in *.
    destruct (c1 jo jo =? - oo) eqn:T1; destruct (c1 a jo =? - oo) eqn:T2; cbn [orb]; lia. }
  rewrite Z1.
  edestruct (ofold_range graph (fun g j =>
      j_jo <- g_lower p g j jo ;;
      ofold (fun g i =>
               b <- g_lower p g jo i ;; val <- tv_add j_jo b ;; g_raise p g j i val)
            g (zrange 0 (g_size g)))
      (fun j g2 => same_shape g1 g2 /\ forall a b, node n a -> node n b ->
         cell g2 a b = if a <? j then c2 a b else c1 a b)
      0 n g1 n0) as (g2 & E2 & S2 & I2).
  { split; auto. intros a b Na Nb. rewrite I1' by auto. unfold node in *.
    replace (a <? 0) with false by lia. auto. }
  { intros j g2 Hj (S2 & I2).
    assert (Z2 : g_size g2 = n) by (destruct S2 as (H & _); congruence).
    assert (M2 : mem_ok g2) by (eapply same_shape_mem; eauto).
    assert (Nj' : node n j) by (unfold node; lia).
    rewrite g_lower_ok by (rewrite ?Z2; auto). cbn [bind].
    rewrite (I2 j jo) by auto. replace (j <? j) with false by lia. rewrite Z2.
    edestruct (ofold_range graph (fun g i =>
               b <- g_lower p g jo i ;; val <- tv_add (c1 j jo) b ;; g_raise p g j i val)
      (fun i g3 => same_shape g1 g3 /\ forall a b, node n a -> node n b ->
         cell g3 a b = if (a <? j) || ((a =? j) && (b <? i)) then c2 a b else c1 a b)
      0 n g2 n0) as (g3 & E3 & S3 & I3).
    { split; auto. intros a b Na Nb. rewrite I2 by auto. unfold node in *.
      replace (b <? 0) with false by lia. rewrite andb_false_r, orb_false_r. auto. }
    { intros i g3 Hi (S3 & I3).
      assert (Z3 : g_size g3 = n) by (destruct S3 as (H & _); congruence).
      assert (M3 : mem_ok g3) by (eapply same_shape_mem; eauto).
      assert (Ni' : node n i) by (unfold node; lia).
      rewrite g_lower_ok by (rewrite ?Z3; auto). cbn [bind].
      assert (R : cell g3 jo i = c1 jo i).
      { rewrite I3 by auto. rewrite (Row i) by auto.
        destruct ((jo <? j) || ((jo =? j) && (i <? i))); auto. }
      rewrite R, (tv_add_esum (2 * C) (2 * C)) by (auto; lia). cbn [bind].
      destruct (g_raise_ok p g3 j i (esum (c1 j jo) (c1 jo i))) as (g4 & E4 & S4 & I4);
        rewrite ?Z3; auto.
      exists g4. split; auto. split; [eapply same_shape_trans; eauto|].
      intros a b Na Nb. rewrite I4 by (unfold node in *; lia). rewrite !I3 by auto.
      replace (j <? j) with false by lia. replace (i <? i) with false by lia.
      rewrite andb_false_r. cbn [orb].
      destruct (a =? j) eqn:Ta; destruct (b =? i) eqn:Tb; cbn [andb];
        try replace (b <? i + 1) with (b <? i) by lia; auto.
      replace (b <? i + 1) with true by lia. rewrite orb_true_r.
      unfold c2, plb2. fold c1. f_equal; [|f_equal]; f_equal; lia. }
    exists g3. split; auto. split; auto. intros a b Na Nb. rewrite I3 by auto.
    unfold node in *. replace (b <? n) with true by lia. rewrite andb_true_r.
    replace (a <? j + 1) with ((a <? j) || (a =? j)) by lia. auto. }
  exists g2. split; auto. split; [eapply same_shape_trans; eauto|].
  intros a b Na Nb. rewrite I2 by auto. unfold node in *.
  replace (a <? n) with true by lia. auto.
Qed.

(** ** [global_propagation] *)

Definition fwmat (D : mat) (k : Z) : mat := fun a b => Z.max (D a b) (esum (D a k) (D k b)).

Lemma esum_absorb : forall C d x, bnd C x -> C < oo -> d <= 0 -> bnd C d -> esum d x <= x /\ esum x d <= x.
Proof.
  unfold esum, bnd. intros C d x Hx L Hd Bd.
  destruct (d =? - oo) eqn:E1; destruct (x =? - oo) eqn:E2; cbn [orb]; lia.
Qed.

Lemma gp_row_ok : forall p g k i C,
  mem_ok g -> node (g_size g) k -> node (g_size g) i -> cell g k k <= 0 ->
  0 <= C -> 2 * C < oo -> all_bnd (g_size g) C (cell g) ->
  exists g', g_gp_row p g k i = Ret g' /\ same_shape g g' /\
    (forall a b, node (g_size g) a -> node (g_size g) b ->
       cell g' a b = if a =? i then fwmat (cell g) k a b else cell g a b).
Proof.
  intros p g k i C M Nk Ni Dk C0 CL B. unfold g_gp_row.
  set (n := g_size g) in *. assert (n0 : 0 <= n) by (unfold node in *; lia).
  set (D := cell g) in *.
  assert (Ak : forall b, node n b -> fwmat D k k b = D k b).
  { intros b Nb. unfold fwmat. destruct (esum_absorb C (D k k) (D k b)); auto; lia. }
  assert (Bk : forall a, node n a -> fwmat D k a k = D a k).
  { intros a Na. unfold fwmat. destruct (esum_absorb C (D k k) (D a k)); auto; lia. }
  edestruct (ofold_range graph (fun g j =>
           a <- g_lower p g i k ;; b <- g_lower p g k j ;; val <- tv_add a b ;;
           g_raise p g i j val)
      (fun j g1 => same_shape g g1 /\ forall a b, node n a -> node n b ->
         cell g1 a b = if (a =? i) && (b <? j) then fwmat D k a b else D a b)
      0 n g n0) as (g1 & E1 & S1 & I1).
  { split; auto. intros a b Na Nb. unfold node in *.
    replace (b <? 0) with false by lia. rewrite andb_false_r. auto. }
  { intros j g1 Hj (S1 & I1).
    assert (M1 : mem_ok g1) by (eapply same_shape_mem; eauto).
    assert (Z1 : g_size g1 = n) by apply S1.
    assert (Nj : node n j) by (unfold node; lia).
    rewrite !g_lower_ok by (rewrite ?Z1; auto). cbn [bind].
    assert (R1 : cell g1 i k = D i k).
    { rewrite I1 by auto. rewrite Bk by auto. destruct (_ && _); auto. }
    assert (R2 : cell g1 k j = D k j).
    { rewrite I1 by auto. rewrite Ak by auto. destruct (_ && _); auto. }
    rewrite R1, R2, (tv_add_esum C C) by (try apply B; auto; lia). cbn [bind].
    destruct (g_raise_ok p g1 i j (esum (D i k) (D k j))) as (g2 & E2 & S2 & I2);
      rewrite ?Z1; auto.
    exists g2. split; auto. split; [eapply same_shape_trans; eauto|].
    intros a b Na Nb. rewrite I2 by (unfold node in *; lia). rewrite !I1 by auto.
    replace (j <? j) with false by lia. rewrite andb_false_r.
    destruct (a =? i) eqn:Ta; destruct (b =? j) eqn:Tb; cbn [andb];
      try replace (b <? j + 1) with (b <? j) by lia; auto.
    replace (b <? j + 1) with true by lia. unfold fwmat.
    f_equal; [|f_equal]; f_equal; lia. }
  exists g1. split; auto. split; auto. intros a b Na Nb. rewrite I1 by auto.
  unfold node in *. replace (b <? n) with true by lia. rewrite andb_true_r. auto.
Qed.

(** The first row, when the first diagonal cell is already positive *)
Lemma gp_row_pos : forall p g k C,
  mem_ok g -> node (g_size g) k -> 0 < cell g k k ->
  0 <= C -> 4 * C < oo -> all_bnd (g_size g) C (cell g) ->
  exists g', g_gp_row p g k k = Ret g' /\ same_shape g g' /\ 0 < cell g' k k.
Proof.
  intros p g k C M Nk Dk C0 CL B. unfold g_gp_row.
  set (n := g_size g) in *. assert (n0 : 0 <= n) by (unfold node in *; lia).
  set (D := cell g) in *.
  edestruct (ofold_range graph (fun g j =>
           a <- g_lower p g k k ;; b <- g_lower p g k j ;; val <- tv_add a b ;;
           g_raise p g k j val)
      (fun j g1 => same_shape g g1 /\ 0 < cell g1 k k <= (if k <? j then 2 * C else C) /\
         forall b, node n b -> j <= b -> b <> k -> cell g1 k b = D k b)
      0 n g n0) as (g1 & E1 & S1 & I1 & _).
  { split; auto. split; auto. unfold node in *. replace (k <? 0) with false by lia.
    specialize (B k k Nk Nk). unfold bnd in B. fold D in B |- *. lia. }
  { intros j g1 Hj (S1 & I1 & J1).
    assert (M1 : mem_ok g1) by (eapply same_shape_mem; eauto).
    assert (Z1 : g_size g1 = n) by apply S1.
    assert (Nj : node n j) by (unfold node; lia).
    rewrite !g_lower_ok by (rewrite ?Z1; auto). cbn [bind].
    assert (B1 : bnd (2 * C) (cell g1 k j)).
    { destruct (Z.eq_dec j k) as [->|N].
      - right. destruct (k <? k); lia.
      - rewrite J1 by (auto; lia). apply bnd_mono with (C := C); [lia|]. apply B; auto. }
    assert (B2 : bnd (2 * C) (cell g1 k k)).
    { right. destruct (k <? j); lia. }
    rewrite (tv_add_esum (2 * C) (2 * C)) by (auto; lia). cbn [bind].
    destruct (g_raise_ok p g1 k j (esum (cell g1 k k) (cell g1 k j))) as (g2 & E2 & S2 & I2);
      rewrite ?Z1; auto.
    exists g2. split; auto. split; [eapply same_shape_trans; eauto|]. split.
    - rewrite I2 by (unfold node in *; lia). rewrite Z.eqb_refl. cbn [andb].
      destruct (k =? j) eqn:T.
      + assert (k = j) by lia. subst j. replace (k <? k + 1) with true by lia.
        replace (k <? k) with false in I1 by lia. unfold esum.
        replace (cell g1 k k =? - oo) with false by lia. cbn [orb]. lia.
      + destruct (k <? j) eqn:T1; destruct (k <? j + 1) eqn:T2; lia.
    - intros b Nb Lb Nbk. rewrite I2 by (unfold node in *; lia).
      replace (b =? j) with false by lia. rewrite andb_false_r. apply J1; auto. lia. }
  exists g1. split; auto. split; auto. lia.
Qed.

Lemma gp_rows_ok : forall p g k C,
  mem_ok g -> node (g_size g) k -> cell g k k <= 0 ->
  0 <= C -> 4 * C < oo -> all_bnd (g_size g) C (cell g) ->
  forall m a g1, a = g_size g - Z.of_nat m -> 0 <= a ->
  same_shape g g1 ->
  (forall x y, node (g_size g) x -> node (g_size g) y ->
     cell g1 x y = if x <? a then fwmat (cell g) k x y else cell g x y) ->
  exists g' ok, g_gp_rows p g1 k (zrange a (g_size g)) = Ret (g', ok) /\
    length (g_data g') = length (g_data g) /\
    if ok : bool then
      same_shape g g' /\
      (forall x y, node (g_size g) x -> node (g_size g) y ->
         cell g' x y = fwmat (cell g) k x y) /\
      (forall x, node (g_size g) x -> a <= x -> fwmat (cell g) k x x <= 0)
    else
      g_size g' = 0 /\ exists x, node (g_size g) x /\ 0 < fwmat (cell g) k x x.
Proof.
  intros p g k C M Nk Dk C0 CL B. set (n := g_size g) in *. set (D := cell g) in *.
  induction m as [|m IH]; intros a g1 Ha a0 S1 I1.
  - rewrite zrange_nil by lia. exists g1, true. simpl. split; auto. split; [apply S1|].
    split; auto. split.
    + intros x y Nx Ny. rewrite I1 by auto. unfold node in *.
      replace (x <? a) with true by lia. auto.
    + intros x Nx La. unfold node in *. lia.
  - rewrite zrange_cons by lia. cbn [g_gp_rows].
    assert (Z1 : g_size g1 = n) by apply S1.
    assert (M1 : mem_ok g1) by (eapply same_shape_mem; eauto).
    assert (Na : node n a) by (unfold node; lia).
    assert (Ak : forall b, node n b -> fwmat D k k b = D k b).
    { intros b Nb. unfold fwmat. destruct (esum_absorb C (D k k) (D k b)); auto; lia. }
    assert (Rk : forall b, node n b -> cell g1 k b = D k b).
    { intros b Nb. rewrite I1 by auto. rewrite Ak by auto. destruct (k <? a); auto. }
    assert (Ra : forall b, node n b -> cell g1 a b = D a b).
    { intros b Nb. rewrite I1 by auto. replace (a <? a) with false by lia. auto. }
    (* the row only reads rows [a] and [k], which are the original ones *)
    assert (Row : exists g2, g_gp_row p g1 k a = Ret g2 /\ same_shape g1 g2 /\
      forall x y, node n x -> node n y ->
        cell g2 x y = if x =? a then fwmat D k x y else cell g1 x y).
    { destruct (gp_row_ok p g1 k a (2 * C)) as (g2 & E2 & S2 & I2); rewrite ?Z1; auto; try lia.
      - rewrite Rk by auto. auto.
      - intros x y Nx Ny. rewrite I1 by auto. destruct (x <? a).
        + apply max_bnd; [lia| |].
          * apply bnd_mono with (C := C); [lia|]. apply B; auto.
          * replace (2 * C) with (C + C) by lia. apply esum_bnd; apply B; auto.
        + apply bnd_mono with (C := C); [lia|]. apply B; auto.
      - exists g2. split; auto. split; auto. intros x y Nx Ny.
        rewrite I2 by (rewrite Z1; auto).
        destruct (x =? a) eqn:T; auto. assert (x = a) by lia. subst x.
        unfold fwmat. rewrite !Ra, Rk by auto. auto. }
    destruct Row as (g2 & E2 & S2 & I2). rewrite E2. cbn [bind].
    assert (S12 : same_shape g g2) by (eapply same_shape_trans; eauto).
    assert (Z2 : g_size g2 = n) by apply S12.
    assert (M2 : mem_ok g2) by (eapply same_shape_mem; eauto).
    rewrite g_lower_ok by (rewrite ?Z2; auto). cbn [bind].
    rewrite I2 by auto. rewrite Z.eqb_refl. unfold is_strictly_positive.
    destruct (0 <? fwmat D k a a) eqn:T.
    + exists (mkG 0 (g_data g2)), false. split; auto. split; [apply S12|].
      split; auto. exists a. split; auto. lia.
    + destruct (IH (a + 1) g2) as (g' & ok & E' & L' & R'); auto; try lia.
      { intros x y Nx Ny. rewrite I2 by auto. rewrite I1 by auto.
        destruct (x =? a) eqn:T2.
        - replace (x <? a + 1) with true by lia. auto.
        - replace (x <? a + 1) with (x <? a) by lia. auto. }
      exists g', ok. split; auto. split; auto. destruct ok; auto.
      destruct R' as (P1 & P2 & P3). split; auto. split; auto.
      intros x Nx La. destruct (Z.eq_dec x a) as [->|]; [lia|]. apply P3; auto. lia.
Qed.

Lemma fwmat_step : forall n D k C, node n k -> 0 <= C -> 2 * C < oo -> all_bnd n C D ->
  fwstep n k D (fwmat D k).
Proof.
  intros n D k C Nk C0 CL B i j c Ni Nj. unfold fwmat, ent.
  fold (pe (Z.max (D i j) (esum (D i k) (D k j))) c). fold (pe (D i j) c).
  rewrite (pe_max (2 * C)).
  - rewrite (pe_esum C C) by (try apply B; auto; lia). reflexivity.
  - apply bnd_mono with (C := C); [lia|]. apply B; auto.
  - replace (2 * C) with (C + C) by lia. apply esum_bnd; apply B; auto.
  - auto.
Qed.

Lemma fwinv_cell : forall n M k L L', fwinv n M k L ->
  (forall i j, node n i -> node n j -> L' i j = L i j) -> fwinv n M k L'.
Proof.
  intros n M k L L' I E i j c Ni Nj. unfold ent. rewrite E by auto. apply I; auto.
Qed.

Definition global_post (n : Z) (M : mat) (g g' : graph) (r : presult) : Prop :=
  length (g_data g') = length (g_data g) /\
  ((r = Propagated /\ same_shape g g' /\ fwinv n M n (cell g') /\ zero_diag n (cell g')) \/
   (r = Fatal /\ g_size g' = 0 /\ forall t, ~ msat n M t)).

Lemma gp_turns_ok : forall p g C,
  mem_ok g -> 0 <= C -> 4 * C < oo ->
  (forall k L, fwinv (g_size g) (cell g) k L -> zero_diag (g_size g) L ->
     all_bnd (g_size g) C L) ->
  forall m k g1, k = g_size g - Z.of_nat m -> 1 <= k ->
  same_shape g g1 -> fwinv (g_size g) (cell g) k (cell g1) -> zero_diag (g_size g) (cell g1) ->
  exists g' r, g_gp_turns p g1 (zrange k (g_size g)) = Ret (g', r) /\
    global_post (g_size g) (cell g) g g' r.
Proof.
  intros p g C Mg C0 CL B. set (n := g_size g) in *. set (M := cell g) in *.
  induction m as [|m IH]; intros k g1 Hk k1 S1 I1 Z1.
  - rewrite zrange_nil by lia. exists g1, Propagated. split; auto. split; [apply S1|].
    left. split; auto. split; auto. split; auto. replace n with k at 2 by lia. auto.
  - rewrite zrange_cons by lia. cbn [g_gp_turns].
    assert (Sz : g_size g1 = n) by apply S1.
    assert (M1 : mem_ok g1) by (eapply same_shape_mem; eauto).
    assert (Nk : node n k) by (unfold node; lia).
    assert (B1 : all_bnd n C (cell g1)) by eauto.
    rewrite Sz.
    destruct (gp_rows_ok p g1 k C) with (m := Z.to_nat n) (a := 0) (g1 := g1)
      as (g2 & ok & E2 & L2 & R2); rewrite ?Sz; auto; try lia; try nia.
    { rewrite Z1; auto. lia. }
    { intros x y Nx Ny. unfold node in *. replace (x <? 0) with false by lia. auto. }
    rewrite Sz in *. rewrite E2. cbn [bind].
    assert (St : fwstep n k (cell g1) (fwmat (cell g1) k)).
    { apply (fwmat_step n _ k C); auto; lia. }
    assert (I2 : fwinv n M (k + 1) (fwmat (cell g1) k)).
    { eapply fwinv_step; eauto. }
    destruct ok.
    + destruct R2 as (S2 & P2 & P3).
      apply IH; try lia.
      * eapply same_shape_trans; eauto.
      * eapply fwinv_cell; eauto.
      * intros i Ni. rewrite P2 by auto. unfold node in Ni. specialize (P3 i Ni ltac:(lia)).
        assert (cell g1 i i <= fwmat (cell g1) k i i) by (unfold fwmat; lia).
        rewrite (Z1 i Ni) in *. lia.
    + destruct R2 as (S2 & x & Nx & Px). exists g2, Fatal. split; auto.
      split; [rewrite L2; apply S1|]. right. split; auto. split; auto.
      intros t T. apply (fw_positive n M (k + 1) (fwmat (cell g1) k) x
                           (fwmat (cell g1) k x x) t); auto.
      split; [|lia]. unfold oo. lia.
Qed.

Lemma global_gen : forall p g C,
  mem_ok g -> 0 <= C -> 4 * C < oo -> all_bnd (g_size g) C (cell g) ->
  (forall k L, fwinv (g_size g) (cell g) k L -> zero_diag (g_size g) L ->
     all_bnd (g_size g) C L) ->
  (forall i, node (g_size g) i -> 0 <= cell g i i) ->
  exists g' r, g_global p g = Ret (g', r) /\ global_post (g_size g) (cell g) g g' r.
Proof.
  intros p g C Mg C0 CL B BL Dg. unfold g_global.
  set (n := g_size g) in *. set (M := cell g) in *.
  assert (0 <= n) by apply Mg.
  destruct (Z.eq_dec n 0) as [E|E].
  { rewrite zrange_nil by lia. exists g, Propagated. split; auto. split; auto. left.
    split; auto. split; auto. split.
    - rewrite E. intros i j c Ni. unfold node in Ni. lia.
    - intros i Ni. unfold node in Ni. lia. }
  rewrite zrange_cons by lia. cbn [g_gp_turns].
  assert (N0 : node n 0) by (unfold node; lia).
  destruct (Z.eq_dec (M 0 0) 0) as [E0|E0].
  - destruct (gp_rows_ok p g 0 C) with (m := Z.to_nat n) (a := 0) (g1 := g)
      as (g2 & ok & E2 & L2 & R2); auto; try lia; try nia.
    { fold M. lia. }
    { intros x y Nx Ny. unfold node in *. replace (x <? 0) with false by lia. auto. }
    fold n in E2 |- *. rewrite E2. cbn [bind]. fold n M in R2.
    assert (St : fwstep n 0 M (fwmat M 0)).
    { apply (fwmat_step n _ 0 C); auto; nia. }
    assert (I2 : fwinv n M 1 (fwmat M 0)).
    { apply (fwinv_step n M 0 M); auto. apply fwinv_0. }
    destruct ok.
    + destruct R2 as (S2 & P2 & P3).
      destruct (gp_turns_ok p g C) with (m := Z.to_nat (n - 1)) (k := 0 + 1) (g1 := g2)
        as (g' & r & E' & P'); auto; try lia.
      * eapply fwinv_cell; eauto.
      * intros i Ni. fold n in Ni. rewrite P2 by auto. unfold node in Ni.
        specialize (P3 i Ni ltac:(lia)).
        assert (M i i <= fwmat M 0 i i) by (unfold fwmat; lia).
        specialize (Dg i Ni). fold M in Dg. lia.
      * exists g', r. auto.
    + destruct R2 as (S2 & x & Nx & Px). exists g2, Fatal. split; auto.
      split; auto. right. split; auto. split; auto.
      intros t T. apply (fw_positive n M 1 (fwmat M 0) x (fwmat M 0 x x) t); auto.
      split; [|lia]. unfold oo. lia.
  - rewrite (zrange_cons 0) by (fold n; lia). cbn [g_gp_rows].
    destruct (gp_row_pos p g 0 C) as (g1 & E1 & S1 & P1); auto.
    { specialize (Dg 0 N0). fold M in Dg |- *. lia. }
    rewrite E1. cbn [bind].
    assert (Sz : g_size g1 = n) by apply S1.
    assert (M1 : mem_ok g1) by (eapply same_shape_mem; eauto).
    rewrite g_lower_ok by (rewrite ?Sz; auto). cbn [bind]. unfold is_strictly_positive.
    replace (0 <? cell g1 0 0) with true by lia. cbn [bind].
    eexists _, Fatal. split; [reflexivity|]. split; [apply S1|].
    right. split; auto. split; auto. intros t T.
    assert (K : 1 <= t 0 - t 0); [|lia].
    apply (T 0 0 1 N0 N0). specialize (Dg 0 N0). fold M in Dg.
    split; [unfold oo; lia|lia].
Qed.
