(** The public operations of the graph.  Proof helpers. *)
From Verif Require Import Machine TimeValue Interval Spec SpecSets Tac TimeValueProofs Graph
  MaxPlus FwBound GraphProofs GraphOps GraphGrow GraphSafe GraphMem.

(** ** Growing *)

(** [D'] on [m] instants is [D] on [n] instants and unconstrained instants *)
Definition extends (n : Z) (D : mat) (m : Z) (D' : mat) : Prop :=
  forall a b, node m a -> node m b ->
    D' a b = if (a <? n) && (b <? n) then D a b else if a =? b then 0 else - oo.

Lemma extends_ent : forall n D m D' a b c, extends n D m D' -> node m a -> node m b ->
  (ent D' a b c <-> (node n a /\ node n b /\ ent D a b c) \/ (n <= a /\ a = b /\ c <= 0)).
Proof.
  intros n D m D' a b c X (A1 & A2) (B1 & B2). unfold ent, node. rewrite X by (split; auto).
  destruct ((a <? n) && (b <? n)) eqn:T.
  - split; [intros; left; lia|]. intros [H|H]; lia.
  - destruct (a =? b) eqn:T2; unfold oo in *; lia.
Qed.

Lemma extends_msat : forall n D m D' t, extends n D m D' -> n <= m ->
  (msat m D' t <-> msat n D t).
Proof.
  intros n D m D' t X L. split.
  - intros S a b c Na Nb E. apply S; try (unfold node in *; lia).
    apply (extends_ent _ _ _ _ _ _ _ X); try (unfold node in *; lia). auto.
  - intros S a b c Na Nb E. apply (extends_ent _ _ _ _ _ _ _ X) in E; auto.
    destruct E as [(? & ? & E)|(? & -> & ?)]; [apply S; auto|lia].
Qed.

Lemma extends_tight : forall n E D m D', extends n D m D' -> n <= m ->
  tight n E D -> tight m E D'.
Proof.
  intros n E D m D' X L ((Z0 & T) & H1 & H2). split; [split|split].
  - intros i Ni. rewrite X by auto. destruct ((i <? n) && (i <? n)) eqn:Q.
    + apply Z0. unfold node in *. lia.
    + rewrite Z.eqb_refl. auto.
  - intros i k j a b Ni Nk Nj A B.
    apply (extends_ent _ _ _ _ _ _ _ X) in A; auto. apply (extends_ent _ _ _ _ _ _ _ X) in B; auto.
    apply (extends_ent _ _ _ _ _ _ _ X); auto. unfold node in *.
    destruct A as [(? & ? & A)|(? & -> & ?)]; destruct B as [(? & ? & B)|(? & -> & ?)]; try lia.
    left. split; auto. split; auto. apply (T i k j); unfold node; auto.
  - intros i j w e. destruct (H1 _ _ _ e) as (A & B & C). unfold node in *.
    split; [lia|]. split; [lia|]. apply (extends_ent _ _ _ _ _ _ _ X); unfold node; auto; lia.
  - intros i j c Ni Nj A. apply (extends_ent _ _ _ _ _ _ _ X) in A; auto.
    destruct A as [(? & ? & A)|(? & <- & ?)].
    + destruct (H2 _ _ _ H H0 A) as (l & w & W & Lw). exists l, w. split; auto.
      eapply walk_mono; [|exact W]. intros a b d [e|(P1 & P2 & P3)]; [left; auto|right].
      unfold node in *. split; [lia|auto].
    + exists [], 0. split; auto. constructor. right. auto.
Qed.

Lemma grow_ok : forall p g m, mem_ok g -> clean g -> g_size g <= m <= 65535 ->
  exists g', g_resize p g m = Ret g' /\ g_size g' = m /\ mem_ok g' /\ clean g' /\
    extends (g_size g) (cell g) m (cell g').
Proof.
  intros p g m M Cl L. assert (S0 : 0 <= g_size g) by apply M.
  destruct (resize_ok p g m S0 ltac:(lia)) as (g' & E & S & M' & C' & _ & D & O).
  exists g'. split; auto. split; auto. split; auto. split; auto.
  intros a b Na Nb. destruct ((a <? g_size g) && (b <? g_size g)) eqn:T.
  - apply O; auto. right. lia.
  - destruct (a =? b) eqn:T2.
    + assert (a = b) by lia. subst. apply D. unfold node in *. lia.
    + rewrite O by (auto; left; lia). apply Cl; unfold node in *; lia.
Qed.

Lemma extends_valid : forall n D m D', extends n D m D' -> 0 <= n -> vcells n D -> vcells m D'.
Proof.
  intros n D m D' X N0 V a b Na Nb. rewrite X by auto.
  destruct ((a <? n) && (b <? n)) eqn:T; [apply V; unfold node in *; lia|].
  destruct (a =? b); unfold valid, oo; lia.
Qed.

Lemma extends_bnd : forall n D m D' C, extends n D m D' -> 0 <= n -> 0 <= C ->
  all_bnd n C D -> all_bnd m C D'.
Proof.
  intros n D m D' C X N0 C0 V a b Na Nb. rewrite X by auto.
  destruct ((a <? n) && (b <? n)) eqn:T; [apply V; unfold node in *; lia|].
  unfold bnd. destruct (a =? b); lia.
Qed.

(** ** [propagate] whatever the values *)

Definition kvalid (k : kons) : Prop :=
  0 <= k_from k <= 65534 /\ 0 <= k_to k <= 65534 /\ valid (k_lo k) /\ valid (k_up k).

(** The cells of [k] say at least what [k] says *)
Definition holds_in (D : mat) (k : kons) : Prop :=
  k_lo k <= D (k_from k) (k_to k) /\ - k_up k <= D (k_to k) (k_from k).

Lemma holds_ksat : forall n D k t, node n (k_from k) -> node n (k_to k) -> kvalid k ->
  vcells n D -> holds_in D k -> msat n D t -> ksat k t.
Proof.
  intros n D k t Nf Nt (_ & _ & Vl & Vu) V (H1 & H2) S. unfold ksat, In_ext. simpl.
  unfold valid in *. split.
  - destruct (Z.eq_dec (k_lo k) (- oo)); [auto|right].
    apply (S _ _ _ Nf Nt). split; lia.
  - destruct (Z.eq_dec (k_up k) oo); [auto|right].
    assert (- k_up k <= t (k_from k) - t (k_to k)); [|lia]. apply (S _ _ _ Nt Nf). split; lia.
Qed.

Lemma propagate_safe : forall p g k, mem_ok g -> vcells (g_size g) (cell g) -> kvalid k ->
  node (g_size g) (k_from k) -> node (g_size g) (k_to k) ->
  safe (g_propagate p g k) (fun x =>
    match snd x with
    | Unchanged => fst x = g /\ holds_in (cell g) k
    | Propagated => holds_in (cell (fst x)) k /\
        raised (fun t => msat (g_size g) (cell g) t /\ ksat k t) g (fst x)
    | Recovered => fst x = g
    | Fatal => False
    end).
Proof.
  intros p g k M V Kv Nf Nt. pose proof Kv as (_ & _ & Vl & Vu).
  set (Q := fun t => msat (g_size g) (cell g) t /\ ksat k t).
  unfold g_propagate. destruct (k_empty k); [simpl; auto|]. cbv zeta.
  set (f := k_from k) in *. set (u := k_to k) in *.
  replace (g_size g <=? Z.max f u) with false by (unfold node in *; lia).
  rewrite !g_lower_ok by auto. cbn [bind]. unfold tv_neg.
  assert (R0 : raised Q g g).
  { apply raised_refl; auto. intros t (S & _) _. auto. }
  assert (Ql : forall t, Q t -> k_lo k <> - oo -> k_lo k <= t u - t f).
  { intros t (_ & (H & _)) X. simpl in H. fold u f in H. tauto. }
  assert (Qu : forall t, Q t -> - k_up k <> - oo -> - k_up k <= t f - t u).
  { intros t (_ & (_ & H)) X. simpl in H. fold u f in H. lia. }
  assert (Vn : valid (- k_up k)) by (unfold valid in *; lia).
  assert (PL : forall g1, raised Q g g1 -> forall io jo, node (g_size g) io -> node (g_size g) jo ->
    safe (g_plb p g1 io jo) (fun g2 => raised Q g g2 /\
      forall a b, node (g_size g) a -> node (g_size g) b -> cell g1 a b <= cell g2 a b)).
  { intros g1 R1 io jo Ni Nj. destruct (raised_mem _ _ _ R1 M) as (M1 & S1).
    eapply safe_mono.
    - apply (plb_safe Q); auto; rewrite ?S1; auto; apply R1.
    - intros g2 R2. split; [eapply raised_trans; eauto|]. intros a b Na Nb.
      apply R2; rewrite S1; auto. }
  destruct (k_lo k <=? cell g f u) eqn:T1.
  - destruct (- k_up k <=? cell g u f) eqn:T2.
    + simpl. split; auto. unfold holds_in. fold f u. lia.
    + destruct (k_up k <? cell g f u) eqn:T3; [simpl; auto|].
      destruct (set_raised Q p g g u f (- k_up k)) as (g1 & E1 & R1 & C1); auto; [lia|].
      rewrite E1. cbn [bind]. eapply safe_bind; [apply (PL g1 R1 u f); auto|].
      intros g2 (R2 & L2). simpl. split; auto.
      unfold holds_in. fold f u. pose proof (L2 u f Nt Nf).
      pose proof (L2 f u Nf Nt). pose proof (ra_le _ _ _ R1 f u Nf Nt). lia.
  - destruct (- k_lo k <? cell g u f) eqn:T2; [simpl; auto|].
    destruct (set_raised Q p g g f u (k_lo k)) as (g1 & E1 & R1 & C1); auto; [lia|].
    rewrite E1. cbn [bind]. eapply safe_bind; [apply (PL g1 R1 f u); auto|].
    intros g2 (R2 & L2). cbv beta. destruct (raised_mem _ _ _ R2 M) as (M2 & S2).
    rewrite g_lower_ok by (auto; rewrite S2; auto). cbn [bind].
    pose proof (L2 f u Nf Nt) as Lfu.
    destruct (cell g2 u f <? - k_up k) eqn:T3.
    + destruct (set_raised Q p g g2 u f (- k_up k)) as (g3 & E3 & R3 & C3); auto; [lia|].
      rewrite E3. cbn [bind]. eapply safe_bind; [apply (PL g3 R3 u f); auto|].
      intros g4 (R4 & L4). simpl. split; auto. unfold holds_in. fold f u.
      pose proof (L4 u f Nt Nf) as Luf. pose proof (L4 f u Nf Nt) as Lfu4.
      destruct (g_set_ok p g2 u f (- k_up k)) as (g3' & E3' & _ & C3'); auto; try (rewrite S2; auto).
      rewrite E3 in E3'. injection E3' as <-. unfold node in *.
      rewrite (C3' f u) in Lfu4 by lia.
      assert (Y : f = u -> cell g2 f u = cell g2 u f) by (intros e; rewrite e; auto).
      destruct ((f =? u) && (u =? f)) eqn:X; lia.
    + simpl. split; auto. unfold holds_in. fold f u. lia.
Qed.

(** ** [propagate] on an instant outside of the graph: no propagation *)

Lemma propagate_new : forall p g k, mem_ok g -> clean g -> kvalid k -> k_empty k = false ->
  g_size g <= Z.max (k_from k) (k_to k) ->
  let m := Z.max (k_from k) (k_to k) + 1 in
  exists g', g_propagate p g k = Ret (g', Propagated) /\ g_size g' = m /\ mem_ok g' /\ clean g' /\
    exists g1, g_resize p g m = Ret g1 /\ extends (g_size g) (cell g) m (cell g1) /\
    forall a b, node m a -> node m b ->
      cell g' a b = if (a =? k_to k) && (b =? k_from k) then - k_up k
                    else if (a =? k_from k) && (b =? k_to k) then k_lo k
                    else cell g1 a b.
Proof.
  intros p g k M Cl (Hf & Ht & Vl & Vu) Ek L m. unfold g_propagate. rewrite Ek. cbv zeta.
  set (f := k_from k) in *. set (u := k_to k) in *.
  replace (g_size g <=? Z.max f u) with true by lia.
  rewrite u32_succ by lia. cbn [bind]. fold m.
  destruct (grow_ok p g m M Cl) as (g1 & E & S1 & M1 & C1 & X); [lia|].
  rewrite E. cbn [bind].
  assert (Nf : node (g_size g1) f) by (unfold node; lia).
  assert (Nu : node (g_size g1) u) by (unfold node; lia).
  destruct (g_set_ok p g1 f u (k_lo k) M1 Nf Nu) as (g2 & E2 & S2 & V2).
  rewrite E2. cbn [bind]. assert (M2 : mem_ok g2) by (eapply same_shape_mem; eauto).
  assert (Z2 : g_size g2 = g_size g1) by apply S2.
  destruct (g_set_ok p g2 u f (tv_neg (k_up k)) M2) as (g3 & E3 & S3 & V3); try (rewrite Z2; auto).
  rewrite E3. cbn [bind]. exists g3. split; auto.
  assert (S13 : same_shape g1 g3) by (eapply same_shape_trans; eauto).
  split; [destruct S13; congruence|]. split; [eapply same_shape_mem; eauto|].
  split; [apply (clean_shape g1); auto|].
  exists g1. split; auto. split; auto. intros a b Na Nb. unfold node in *.
  rewrite V3, V2 by lia. reflexivity.
Qed.

(** ** [extend] *)

Definition extm (n : Z) (D : mat) : mat := fun a b =>
  if (a <? n) && (b <? n) then D a b else if a =? b then 0 else - oo.
Definition kedges (ks : list kons) (i j w : Z) : Prop := exists k, In k ks /\ kedge k i j w.
Definition ksize (n : Z) (ks : list kons) : Z :=
  fold_left (fun m k => Z.max m (Z.max (k_from k) (k_to k) + 1)) ks n.

Lemma ksize_ge : forall ks n, n <= ksize n ks /\
  forall k, In k ks -> k_from k < ksize n ks /\ k_to k < ksize n ks.
Proof.
  unfold ksize. induction ks as [|k ks IH]; intros n; simpl.
  - split; [lia|tauto].
  - destruct (IH (Z.max n (Z.max (k_from k) (k_to k) + 1))) as (A & B). split; [lia|].
    intros k' [<-|I]; [lia|auto].
Qed.
Lemma ksize_le : forall ks n m, n <= m ->
  (forall k, In k ks -> k_from k < m /\ k_to k < m) -> ksize n ks <= m.
Proof.
  unfold ksize. induction ks as [|k ks IH]; intros n m L H; simpl; auto.
  apply IH; [specialize (H k (or_introl eq_refl)); lia|]. intros; apply H; simpl; auto.
Qed.

Lemma extm_extends : forall n D m, extends n D m (extm n D).
Proof. intros n D m a b _ _. reflexivity. Qed.

Lemma overlay_grow : forall n D K m M m' M', n <= m -> m <= m' ->
  overlay m (extm n D) K M -> (forall i j w, K i j w -> node m i /\ node m j) ->
  extends m M m' M' -> overlay m' (extm n D) K M'.
Proof.
  intros n D K m M m' M' L L' O HK X i j c Ni Nj.
  rewrite (extends_ent _ _ _ _ _ _ _ X Ni Nj). split.
  - intros [(A & B & e)|(A & <- & e)].
    + apply O in e; auto.
    + left. unfold ent, extm. replace (i <? n) with false by lia. simpl.
      rewrite Z.eqb_refl. unfold oo. lia.
  - intros [e|(w & k & Lw)].
    + destruct (Z_lt_le_dec i m); destruct (Z_lt_le_dec j m).
      * left. assert (node m i /\ node m j) as (A & B) by (unfold node in *; lia).
        split; auto. split; auto. apply O; auto.
      * exfalso. unfold ent, extm in e. replace (j <? n) with false in e by lia.
        rewrite andb_false_r in e. replace (i =? j) with false in e by lia. lia.
      * exfalso. unfold ent, extm in e. replace (i <? n) with false in e by lia.
        cbn [andb] in e. replace (i =? j) with false in e by lia. lia.
      * unfold ent, extm in e. replace (i <? n) with false in e by lia. cbn [andb] in e.
        destruct (i =? j) eqn:T; [right; lia|lia].
    + destruct (HK _ _ _ k) as (A & B). left. split; auto. split; auto. apply O; auto.
      right. eauto.
Qed.

Lemma overlay_raise : forall m X (K : Z -> Z -> Z -> Prop) M M' f u v,
  vcells m M -> node m f -> node m u -> valid v ->
  overlay m X K M ->
  (forall a b, node m a -> node m b ->
     M' a b = if (a =? f) && (b =? u) then Z.max (M f u) v else M a b) ->
  overlay m X (fun i j w => K i j w \/ (i = f /\ j = u /\ w = v /\ v <> - oo)) M'.
Proof.
  intros m X K M M' f u v VM Nf Nu Vv O H i j c Ni Nj. unfold ent at 1. rewrite H by auto.
  assert (Old : ent M i j c -> ent X i j c \/ exists w, (K i j w \/ i = f /\ j = u /\ w = v /\ v <> - oo) /\ c <= w).
  { intros e. apply O in e; auto. destruct e as [e|(w & k & e)]; eauto. }
  assert (New : ent X i j c \/ (exists w, K i j w /\ c <= w) -> ent M i j c) by (apply O; auto).
  specialize (VM i j Ni Nj). unfold valid in *.
  destruct ((i =? f) && (j =? u)) eqn:T.
  - assert (i = f) by lia. assert (j = u) by lia. subst i j. split.
    + intros (F & Lc). destruct (Z_lt_le_dec (M f u) v).
      * right. exists v. split; [right|]; lia.
      * apply Old. split; lia.
    + intros [e|(w & [k|(_ & _ & -> & F)] & e)].
      * specialize (New (or_introl e)). unfold ent in New. lia.
      * assert (e' : ent M f u c) by (apply New; eauto). unfold ent in e'. lia.
      * lia.
  - split; [exact Old|]. intros [e|(w & [k|(-> & -> & _)] & e)].
    + apply New. auto.
    + apply New. right. eauto.
    + lia.
Qed.

Lemma overlay_iff : forall n D (K K' : Z -> Z -> Z -> Prop) M, overlay n D K M ->
  (forall i j w, K i j w <-> K' i j w) -> overlay n D K' M.
Proof.
  intros n D K K' M O H i j c Ni Nj. rewrite (O i j c Ni Nj).
  split; (intros [X|(w & X & L)]; [auto|]; right; exists w; split; auto; apply H; auto).
Qed.

Lemma insert_ok : forall p g k n D (K : Z -> Z -> Z -> Prop), mem_ok g -> clean g ->
  vcells (g_size g) (cell g) -> kvalid k -> n <= g_size g ->
  overlay (g_size g) (extm n D) K (cell g) ->
  (forall i j w, K i j w -> node (g_size g) i /\ node (g_size g) j) ->
  exists g', g_insert p g k = Ret g' /\ mem_ok g' /\ clean g' /\
    g_size g' = Z.max (g_size g) (Z.max (k_from k) (k_to k) + 1) /\
    vcells (g_size g') (cell g') /\ overlay (g_size g') (extm n D) (kunion K k) (cell g').
Proof.
  intros p g k n D K M Cl V (Hf & Ht & Vl & Vu) L O HK. unfold g_insert.
  assert (S0 : 0 <= g_size g) by apply M.
  set (f := k_from k) in *. set (u := k_to k) in *.
  assert (H : exists g1, (if g_size g <=? Z.max f u then m1 <- add32 p (Z.max f u) 1;; g_resize p g m1
      else Ret g) = Ret g1 /\ mem_ok g1 /\ clean g1 /\
      g_size g1 = Z.max (g_size g) (Z.max f u + 1) /\ vcells (g_size g1) (cell g1) /\
      overlay (g_size g1) (extm n D) K (cell g1)).
  { destruct (g_size g <=? Z.max f u) eqn:T.
    - rewrite u32_succ by lia. cbn [bind].
      destruct (grow_ok p g (Z.max f u + 1) M Cl) as (g1 & E & S1 & M1 & C1 & X); [lia|].
      exists g1. split; auto. split; auto. split; auto. split; [lia|]. rewrite S1. split.
      + eapply extends_valid; eauto.
      + eapply overlay_grow; eauto. lia.
    - exists g. split; auto. split; auto. split; auto. split; [lia|]. auto. }
  destruct H as (g1 & E1 & M1 & C1 & S1 & V1 & O1). cbv zeta. rewrite E1. cbn [bind].
  assert (Nf : node (g_size g1) f) by (unfold node; lia).
  assert (Nu : node (g_size g1) u) by (unfold node; lia).
  destruct (g_raise_ok p g1 f u (k_lo k) M1 Nf Nu) as (g2 & E2 & S2 & R2).
  rewrite E2. cbn [bind]. assert (M2 : mem_ok g2) by (eapply same_shape_mem; eauto).
  assert (Z2 : g_size g2 = g_size g1) by apply S2.
  assert (V2 : vcells (g_size g1) (cell g2)).
  { intros a b Na Nb. unfold node in *. rewrite R2 by lia. unfold valid in *.
    pose proof (V1 a b ltac:(unfold node; lia) ltac:(unfold node; lia)).
    pose proof (V1 f u ltac:(unfold node; lia) ltac:(unfold node; lia)).
    unfold valid in *. destruct (_ && _); lia. }
  assert (O2 := overlay_raise (g_size g1) (extm n D) K (cell g1) (cell g2) f u (k_lo k) V1 Nf Nu Vl O1
    ltac:(intros a b (? & _) (? & _); auto)).
  destruct (g_raise_ok p g2 u f (tv_neg (k_up k)) M2) as (g3 & E3 & S3 & R3); try (rewrite Z2; auto).
  unfold tv_neg in *.
  assert (Vn : valid (- k_up k)) by (unfold valid in *; lia).
  assert (O3 := overlay_raise (g_size g1) (extm n D) _ (cell g2) (cell g3) u f (- k_up k) V2 Nu Nf Vn O2
    ltac:(intros a b (? & _) (? & _); auto)).
  assert (S13 : same_shape g1 g3) by (eapply same_shape_trans; eauto).
  assert (Z3 : g_size g3 = g_size g1) by apply S13.
  exists g3. split; auto. split; [eapply same_shape_mem; eauto|].
  split; [apply (clean_shape g1); auto|]. split; [lia|]. rewrite Z3. split.
  - intros a b Na Nb. unfold node in *. rewrite R3 by lia. unfold valid in *.
    pose proof (V2 a b ltac:(unfold node; lia) ltac:(unfold node; lia)).
    pose proof (V2 u f ltac:(unfold node; lia) ltac:(unfold node; lia)).
    unfold valid in *. destruct (_ && _); lia.
  - eapply overlay_iff; [exact O3|]. intros i j w. unfold kunion, kedge. fold f u. split.
    + intros [[X|X]|X]; auto. right. right. lia.
    + intros [X|[X|X]]; auto. right. lia.
Qed.

Lemma inserts_ok : forall p ks g n D (K : Z -> Z -> Z -> Prop), mem_ok g -> clean g ->
  vcells (g_size g) (cell g) -> Forall kvalid ks -> n <= g_size g ->
  overlay (g_size g) (extm n D) K (cell g) ->
  (forall i j w, K i j w -> node (g_size g) i /\ node (g_size g) j) ->
  exists g', ofold (g_insert p) g ks = Ret g' /\ mem_ok g' /\ clean g' /\
    g_size g' = ksize (g_size g) ks /\ vcells (g_size g') (cell g') /\
    overlay (g_size g') (extm n D) (fun i j w => K i j w \/ kedges ks i j w) (cell g').
Proof.
  intros p. induction ks as [|k ks IH]; intros g n D K M Cl V Fk L O HK; simpl.
  - exists g. split; auto. split; auto. split; auto. split; auto. split; auto.
    eapply overlay_iff; eauto. intros i j w. split; auto. intros [X|(k & [] & _)]; auto.
  - inversion Fk as [|? ? Kv Fk']; subst.
    destruct (insert_ok p g k n D K M Cl V Kv L O HK) as (g1 & E1 & M1 & C1 & S1 & V1 & O1).
    rewrite E1. cbn [bind].
    assert (HK1 : forall i j w, kunion K k i j w -> node (g_size g1) i /\ node (g_size g1) j).
    { intros i j w [X|X].
      - destruct (HK _ _ _ X). unfold node in *. lia.
      - destruct Kv as (? & ? & _). unfold node.
        destruct X as [(-> & -> & _)|(-> & -> & _)]; lia. }
    destruct (IH g1 n D (kunion K k) M1 C1 V1 Fk') as (g2 & E2 & M2 & C2 & S2 & V2 & O2); auto; [lia|].
    exists g2. split; auto. split; auto. split; auto.
    split; [rewrite S2; unfold ksize; simpl; rewrite S1; auto|]. split; auto.
    eapply overlay_iff; eauto. intros i j w. unfold kunion, kedges. split.
    + intros [[X|X]|(k' & I & X)]; auto; right; [exists k|exists k']; simpl; auto.
    + intros [X|(k' & [<-|I] & X)]; auto. right. eauto.
Qed.

Lemma kedges_nodes : forall ks n m, Forall kvalid ks -> ksize n ks <= m ->
  forall i j w, kedges ks i j w -> node m i /\ node m j.
Proof.
  intros ks n m F L i j w (k & I & X). rewrite Forall_forall in F. specialize (F k I).
  destruct F as (? & ? & _). destruct (ksize_ge ks n) as (_ & HS). specialize (HS k I).
  unfold node. destruct X as [(-> & -> & _)|(-> & -> & _)]; lia.
Qed.

Lemma kedges_sat : forall ks t, (forall i j w, kedges ks i j w -> w <= t j - t i) <-> Forall (fun k => ksat k t) ks.
Proof.
  intros ks t. rewrite Forall_forall. split.
  - intros H k I. apply ksat_edges. intros i j w X. apply H. exists k. auto.
  - intros H i j w (k & I & X). specialize (H k I). rewrite ksat_edges in H. auto.
Qed.

Lemma start_overlay : forall g, vcells (g_size g) (cell g) ->
  overlay (g_size g) (extm (g_size g) (cell g)) (fun _ _ _ => False) (cell g).
Proof.
  intros g V i j c (A & B) (A' & B'). unfold ent, extm.
  replace (i <? g_size g) with true by lia. replace (j <? g_size g) with true by lia. simpl.
  split; auto. intros [X|(w & [] & _)]; auto.
Qed.

(** What all the insertions of [extend] do *)
Lemma inserted_ok : forall p ks g, mem_ok g -> clean g -> vcells (g_size g) (cell g) ->
  Forall kvalid ks ->
  exists g1, ofold (g_insert p) g ks = Ret g1 /\ mem_ok g1 /\ clean g1 /\
    g_size g1 = ksize (g_size g) ks /\ vcells (g_size g1) (cell g1) /\
    overlay (g_size g1) (extm (g_size g) (cell g)) (kedges ks) (cell g1) /\
    (forall t, msat (g_size g1) (cell g1) t <->
       msat (g_size g) (cell g) t /\ Forall (fun k => ksat k t) ks).
Proof.
  intros p ks g M Cl V F.
  destruct (inserts_ok p ks g (g_size g) (cell g) (fun _ _ _ => False) M Cl V F)
    as (g1 & E & M1 & C1 & S1 & V1 & O1); try tauto; [lia|apply start_overlay; auto|].
  assert (O : overlay (g_size g1) (extm (g_size g) (cell g)) (kedges ks) (cell g1)).
  { eapply overlay_iff; eauto. intros i j w. tauto. }
  exists g1. repeat (split; auto).
  - apply (overlay_msat _ _ _ _ t O) in H; [|apply (kedges_nodes ks (g_size g)); auto; lia].
    destruct H as (H & _). apply (extends_msat _ _ _ _ t (extm_extends (g_size g) (cell g) (g_size g1))) in H; auto.
    rewrite S1. apply ksize_ge.
  - apply (overlay_msat _ _ _ _ t O) in H; [|apply (kedges_nodes ks (g_size g)); auto; lia].
    destruct H as (_ & H). apply kedges_sat; auto.
  - intros (H1 & H2). apply (overlay_msat _ _ _ _ t O); [apply (kedges_nodes ks (g_size g)); auto; lia|].
    split; [|apply kedges_sat; auto].
    apply (extends_msat _ _ _ _ t (extm_extends (g_size g) (cell g) (g_size g1))); auto.
    rewrite S1. apply ksize_ge.
Qed.
