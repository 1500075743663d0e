(** Queries on any minimal graph (property C107): whatever the calls that built it, its size and
    its bounds, a graph that is minimal and has a solution answers exactly.  C49, C81, C85 and
    C86 say so for the graphs of the bounded histories only. *)
From Verif Require Import Machine TimeValue Spec Tac TimeValueProofs Interval Iter TimeSet Relns
  Transl SpecSets SetProofs CollectProofs Prop_Interval SetOpsProofs Prop_TimeSet Prop_Transl SchedSets
  Graph MaxPlus FwBound GraphProofs GraphOps GraphGrow GraphSafe GraphMem GraphHist GraphTight
  SpecGraph GraphSound GraphMono GraphInv GraphIter Prop_Graph
  Prop_Propagation Prop_GraphQuery Prop_GraphRow Prop_Local Prop_Seen.

Section Any.
Variables (p : profile) (g : graph).
Hypotheses (St : stored g) (Mn : minimal p g) (Co : exists t, solution p g t).

Let M : mem_ok g := proj1 (stored_mem g) St.
Lemma any_bounds i j t : node (g_size g) i -> node (g_size g) j -> solution p g t ->
  In_ext (t j - t i) (mkI (cell g i j) (- cell g j i)).
Proof.
  intros Hi Hj S. destruct (S i j Hi Hj) as (iv & E & W). rewrite timespan_ok in E by auto.
  injection E as <-. exact W.
Qed.
Lemma any_min i j v : node (g_size g) i -> node (g_size g) j ->
  In_ext v (mkI (cell g i j) (- cell g j i)) -> exists t, solution p g t /\ t j - t i = v.
Proof.
  intros Hi Hj Q. destruct (Mn i j Hi Hj) as (iv & E & H). rewrite timespan_ok in E by auto.
  injection E as <-. auto.
Qed.
Lemma any_closed : closed (g_size g) (cell g).
Proof.
  assert (Z0 : zero_diag (g_size g) (cell g)) by (apply (min_diag p); auto). split; auto.
  intros i k j a b Ni Nk Nj A B.
  assert (G : forall v, In_ext v (mkI (cell g i j) (- cell g j i)) -> a + b <= v).
  { intros v I. destruct (any_min i j v Ni Nj I) as (t & S & <-). apply sol_msat in S; auto.
    specialize (S i k a Ni Nk A) as S1. specialize (S k j b Nk Nj B) as S2. lia. }
  destruct Co as (t0 & S0). pose proof (any_bounds i j t0 Ni Nj S0) as (W1 & W2). cbn [lower upper] in *.
  destruct (Z.eq_dec (cell g i j) (- oo)) as [e|e].
  - exfalso. assert (a + b <= Z.min (a + b - 1) (t0 j - t0 i)); [|lia]. apply G. split; cbn [lower upper]; lia.
  - split; auto. apply G. split; cbn [lower upper]; [right; lia|]. lia.
Qed.

(** [instant_cmp] and [are_distinct_instants] answer exactly what holds in all the solutions. *)
Theorem C107_cmp : forall i j, 0 <= i < g_size g -> 0 <= j < g_size g ->
  exists c, g_instant_cmp p g i j = Ret c /\
    (c = Some Lt <-> forall t, solution p g t -> t i < t j) /\
    (c = Some Gt <-> forall t, solution p g t -> t i > t j) /\
    (c = Some Eq <-> forall t, solution p g t -> t i = t j).
Proof.
  intros i j Hi Hj. destruct Co as (t0 & S0).
  unfold g_instant_cmp. replace ((g_size g <=? i) || (g_size g <=? j)) with false by lia.
  rewrite !g_lower_ok by auto. cbn [bind].
  pose proof (fun v => any_min i j v Hi Hj) as Q. pose proof (fun t => any_bounds i j t Hi Hj) as T.
  set (a := cell g i j) in *. set (b := cell g j i) in *.
  assert (P0 := T t0 S0).
  assert (A : (forall t, solution p g t -> t i < t j) <-> 0 < a).
  { split.
    - intros F. destruct (Z_lt_le_dec 0 a) as [|l]; auto. exfalso.
      destruct (Q (if a =? - oo then Z.min 0 (t0 j - t0 i) else a)) as (t & S & D).
      { unfold In_ext in *; simpl in *. destruct (a =? - oo) eqn:e; lia. }
      specialize (F t S). destruct (a =? - oo) eqn:e; lia.
    - intros L t S. destruct (T t S) as (W & _). unfold oo in *. simpl in W. lia. }
  assert (A' : (forall t, solution p g t -> t i > t j) <-> 0 < b).
  { split.
    - intros F. destruct (Z_lt_le_dec 0 b) as [|l]; auto. exfalso.
      destruct (Q (if b =? - oo then Z.max 0 (t0 j - t0 i) else - b)) as (t & S & D).
      { unfold In_ext in *; simpl in *. destruct (b =? - oo) eqn:e; lia. }
      specialize (F t S). destruct (b =? - oo) eqn:e; lia.
    - intros L t S. destruct (T t S) as (_ & W). unfold oo in *. simpl in W. lia. }
  assert (A'' : (forall t, solution p g t -> t i = t j) <-> a = 0 /\ b = 0).
  { split.
    - intros F. pose proof (F t0 S0) as F0.
      destruct (Z.eq_dec a 0) as [e|e]; [destruct (Z.eq_dec b 0) as [e'|e']; auto|]; exfalso.
      + destruct (Q 1) as (t & S & D); [unfold In_ext in *; simpl in *; lia|].
        specialize (F t S). lia.
      + destruct (Q (- 1)) as (t & S & D); [unfold In_ext in *; simpl in *; lia|].
        specialize (F t S). lia.
    - intros (e & e') t S. destruct (T t S) as (W & W'). unfold oo in *. simpl in W, W'. lia. }
  unfold is_strictly_positive.
  destruct (0 <? a) eqn:T1.
  { exists (Some Lt). rewrite A, A', A''. split; auto.
    assert (b <= 0) by (unfold In_ext, oo in *; simpl in *; lia).
    split; [|split]; split; try discriminate; intros; auto; lia. }
  cbn [bind]. destruct (0 <? b) eqn:T2.
  { exists (Some Gt). rewrite A, A', A''. split; auto. split; [|split]; split; try discriminate; intros; auto; lia. }
  destruct ((a =? 0) && (b =? 0)) eqn:T3.
  { exists (Some Eq). rewrite A, A', A''. split; auto. split; [|split]; split; try discriminate; intros; auto; lia. }
  exists None. rewrite A, A', A''. split; auto. split; [|split]; split; try discriminate; intros; lia.
Qed.
Theorem C107_distinct : forall i j, 0 <= i < g_size g -> 0 <= j < g_size g ->
  exists b, g_are_distinct p g i j = Ret b /\
    (b = true <-> forall t, solution p g t -> t i <> t j).
Proof.
  intros i j Hi Hj. destruct (C81_distinct_cmp p g i j St (proj1 Hi) (proj1 Hj)) as (c & E & D & D').
  destruct (C107_cmp i j Hi Hj) as (c' & E' & L & G & _). rewrite E in E'. injection E' as <-.
  destruct Co as (t0 & S0).
  assert (X : (forall t, solution p g t -> t i <> t j) <-> c = Some Lt \/ c = Some Gt).
  { split; [|intros [Q|Q] t S; [apply L with (t := t) in Q|apply G with (t := t) in Q]; auto; lia].
    intros F. assert (Y : ~ In_ext 0 (mkI (cell g i j) (- cell g j i))).
    { intros Y. destruct (any_min i j 0 Hi Hj Y) as (t & S & Q). apply (F t S). lia. }
    unfold In_ext in Y. cbn [lower upper] in Y. destruct (Z_lt_le_dec 0 (cell g i j)) as [l|l].
    - left. apply L. intros t S. pose proof (any_bounds i j t Hi Hj S) as (W & _). cbn [lower] in W. unfold oo in W. lia.
    - right. apply G. intros t S. pose proof (any_bounds i j t Hi Hj S) as (_ & W). cbn [upper] in W. unfold oo in *. lia. }
  destruct (g_are_distinct p g i j) as [[|]| | |] eqn:B.
  - exists true. split; auto. rewrite X, <- D. tauto.
  - exists false. split; auto. rewrite X, <- D. split; discriminate.
  - exfalso. destruct c as [[]|]; (discriminate (proj2 D (or_introl eq_refl)) || discriminate (proj2 D (or_intror eq_refl))
      || discriminate (proj2 D' (or_introl eq_refl)) || discriminate (proj2 D' (or_intror eq_refl))).
  - exfalso. destruct c as [[]|]; (discriminate (proj2 D (or_introl eq_refl)) || discriminate (proj2 D (or_intror eq_refl))
      || discriminate (proj2 D' (or_introl eq_refl)) || discriminate (proj2 D' (or_intror eq_refl))).
  - exfalso. destruct c as [[]|]; (discriminate (proj2 D (or_introl eq_refl)) || discriminate (proj2 D (or_intror eq_refl))
      || discriminate (proj2 D' (or_introl eq_refl)) || discriminate (proj2 D' (or_intror eq_refl))).
Qed.
(** The answers of [instant_cmp] are a partial order; an instant is at distance zero of itself;
    the way from [i] to [k] through [j] never tells more than the direct one. *)
Theorem C107_laws : forall i j k, 0 <= i < g_size g -> 0 <= j < g_size g -> 0 <= k < g_size g ->
  g_timespan p g i i = Ret (mkI 0 0) /\
  (exists a b c, g_timespan p g i j = Ret a /\ g_timespan p g j k = Ret b /\ g_timespan p g i k = Ret c /\
    forall v, In_ext v c -> exists x y, In_ext x a /\ In_ext y b /\ v = x + y) /\
  exists a b c, g_instant_cmp p g i j = Ret a /\ g_instant_cmp p g j k = Ret b /\ g_instant_cmp p g i k = Ret c /\
    g_instant_cmp p g i i = Ret (Some Eq) /\
    g_instant_cmp p g j i = Ret (option_map CompOpp a) /\
    (a = Some Eq -> c = b) /\ (b = Some Eq -> c = a) /\
    (a = Some Lt -> b = Some Lt -> c = Some Lt) /\ (a = Some Gt -> b = Some Gt -> c = Some Gt).
Proof.
  intros i j k Hi Hj Hk. destruct Co as (t0 & T0). split; [|split].
  { rewrite timespan_ok by auto. rewrite (proj1 any_closed i Hi). auto. }
  { rewrite !timespan_ok by auto. do 3 eexists. split; [reflexivity|]. split; [reflexivity|]. split; [reflexivity|].
    intros v V. destruct (any_min i k v Hi Hk V) as (t & T & <-). exists (t j - t i), (t k - t j).
    split; [apply any_bounds; auto|]. split; [apply any_bounds; auto|lia]. }
  destruct (C107_cmp i j Hi Hj) as (a & Ea & La & Ga & Qa).
  destruct (C107_cmp j k Hj Hk) as (b & Eb & Lb & Gb & Qb).
  destruct (C107_cmp i k Hi Hk) as (c & Ec & Lc & Gc & Qc).
  destruct (C107_cmp i i Hi Hi) as (d & Ed & _ & _ & Qd).
  destruct (C107_cmp j i Hj Hi) as (e & Ee & Le & Ge & Qe).
  assert (S : forall x y : option comparison, (x = Some Lt <-> y = Some Lt) -> (x = Some Gt <-> y = Some Gt) ->
    (x = Some Eq <-> y = Some Eq) -> x = y).
  { intros [[]|] [[]|] X Y Z; intuition discriminate || auto;
      destruct X as (X1 & X2), Y as (Y1 & Y2), Z as (Z1 & Z2);
      first [discriminate (X1 eq_refl)|discriminate (X2 eq_refl)|discriminate (Y1 eq_refl)
            |discriminate (Y2 eq_refl)|discriminate (Z1 eq_refl)|discriminate (Z2 eq_refl)]. }
  exists a, b, c. split; auto. split; auto. split; auto.
  split. { rewrite Ed. f_equal. apply Qd. auto. }
  split.
  { rewrite Ee. f_equal. apply S.
    - rewrite Le. transitivity (a = Some Gt).
      + rewrite Ga. split; intros X t T; specialize (X t T); lia.
      + destruct a as [[]|]; cbn; split; congruence.
    - rewrite Ge. transitivity (a = Some Lt).
      + rewrite La. split; intros X t T; specialize (X t T); lia.
      + destruct a as [[]|]; cbn; split; congruence.
    - rewrite Qe. transitivity (a = Some Eq).
      + rewrite Qa. split; intros X t T; specialize (X t T); lia.
      + destruct a as [[]|]; cbn; split; congruence. }
  split. { intros A. pose proof (proj1 Qa A) as X. apply S; [rewrite Lc, Lb|rewrite Gc, Gb|rewrite Qc, Qb];
    split; intros Y t T; specialize (X t T); specialize (Y t T); lia. }
  split. { intros A. pose proof (proj1 Qb A) as X. apply S; [rewrite Lc, La|rewrite Gc, Ga|rewrite Qc, Qa];
    split; intros Y t T; specialize (X t T); specialize (Y t T); lia. }
  split; intros A A'.
  - apply Lc. intros t T. pose proof (proj1 La A t T). pose proof (proj1 Lb A' t T). lia.
  - apply Gc. intros t T. pose proof (proj1 Ga A t T). pose proof (proj1 Gb A' t T). lia.
Qed.

(** Dates given to some instants that respect the intervals reported between these are part of
    a solution. *)
Theorem C107_extends : forall l t, (forall i, In i l -> 0 <= i < g_size g) -> agrees p g l t ->
  exists t', solution p g t' /\ forall i, In i l -> t' i = t i.
Proof.
  intros l t L A. destruct (closed_extends (g_size g) (cell g) l t) as (t' & E & S).
  - apply any_closed.
  - apply Forall_forall. exact L.
  - intros i j w Hi Hj (X & Y). destruct (A i j Hi Hj) as (iv & E & (Q & _)).
    rewrite timespan_ok in E by (auto; apply L; auto). injection E as <-. cbn [lower] in Q. lia.
  - exists t'. split; auto. now apply sol_msat.
Qed.
(** If they are finite, the latest and the earliest dates after the instant [r] at 0 are the
    latest and the earliest solutions. *)
Theorem C107_rows : forall r, 0 <= r < g_size g ->
  ((forall i, 0 <= i < g_size g -> finite (latest_after p g r i)) ->
    solution p g (latest_after p g r) /\ latest_after p g r r = 0 /\
    forall t i, solution p g t -> t r = 0 -> 0 <= i < g_size g -> t i <= latest_after p g r i) /\
  ((forall i, 0 <= i < g_size g -> finite (earliest_after p g r i)) ->
    solution p g (earliest_after p g r) /\ earliest_after p g r r = 0 /\
    forall t i, solution p g t -> t r = 0 -> 0 <= i < g_size g -> earliest_after p g r i <= t i).
Proof.
  intros r Hr. pose proof any_closed as (Z0 & T). split; intros F.
  - assert (Q : forall i, 0 <= i < g_size g -> latest_after p g r i = - cell g i r).
    { intros i Hi. unfold latest_after. now rewrite timespan_ok. }
    split; [|split].
    + apply sol_msat; auto. intros i j w Hi Hj E. rewrite !Q by auto.
      pose proof (F j Hj) as Fj. rewrite Q in Fj by auto.
      assert (X : ent (cell g) j r (cell g j r)) by (unfold ent, finite in *; lia).
      pose proof (T i j r w (cell g j r) Hi Hj Hr E X) as (_ & Y). lia.
    + rewrite Q by auto. rewrite (Z0 r Hr). lia.
    + intros t i S Tr Hi. apply sol_msat in S; auto.
      pose proof (F i Hi) as Fi. rewrite Q in * by auto.
      assert (X : ent (cell g) i r (cell g i r)) by (unfold ent, finite in *; lia).
      specialize (S i r _ Hi Hr X). lia.
  - assert (Q : forall i, 0 <= i < g_size g -> earliest_after p g r i = cell g r i).
    { intros i Hi. unfold earliest_after. now rewrite timespan_ok. }
    split; [|split].
    + apply sol_msat; auto. intros i j w Hi Hj E. rewrite !Q by auto.
      pose proof (F i Hi) as Fi. rewrite Q in Fi by auto.
      assert (X : ent (cell g) r i (cell g r i)) by (unfold ent, finite in *; lia).
      pose proof (T r i j (cell g r i) w Hr Hi Hj X E) as (_ & Y). lia.
    + rewrite Q by auto. apply (Z0 r Hr).
    + intros t i S Tr Hi. apply sol_msat in S; auto.
      pose proof (F i Hi) as Fi. rewrite Q in * by auto.
      assert (X : ent (cell g) r i (cell g r i)) by (unfold ent, finite in *; lia).
      specialize (S r i _ Hr Hi X). lia.
Qed.
End Any.

(** A constraint given to [propagate] narrows the reported intervals, and does not change those
    of an instant that nothing relates to the two of the constraint. *)
(** Partial: the reported intervals and the constraint are bounded by a third of the time
    values. *)
Theorem C107_local_partial : forall p C g k g' r, stored g -> minimal p g -> (exists t, solution p g t) ->
  seen p C g -> 3 * C < oo -> good (g_size g) C k -> g_propagate p g k = Ret (g', r) -> accepted r ->
  forall a b, 0 <= a < g_size g -> 0 <= b < g_size g ->
  (exists iv iv', g_timespan p g a b = Ret iv /\ g_timespan p g' a b = Ret iv' /\
    (forall v, In_ext v iv' -> In_ext v iv /\ (a = k_from k -> b = k_to k -> In_ext v (mkI (k_lo k) (k_up k))))) /\
  (unrelated p g a (k_from k) -> unrelated p g a (k_to k) -> g_timespan p g' a b = g_timespan p g a b).
Proof.
  intros p C g k g' r St Mn Co Se L G E A a b Ha Hb.
  destruct (C105_propagate_partial p C g k St Mn Co Se L G) as (g2 & r2 & E2 & _ & _ & _ & _ & X).
  rewrite E in E2. injection E2 as <- <-. destruct (X A) as (St' & Sz & Mn' & Co' & Se' & So).
  pose proof (proj1 (stored_mem g) St) as M. pose proof (proj1 (stored_mem g') St') as M'.
  assert (Ha' : 0 <= a < g_size g') by lia. assert (Hb' : 0 <= b < g_size g') by lia.
  pose proof (fun v => any_min p g' St' Mn' a b v Ha' Hb') as Q'.
  pose proof (fun v => any_min p g St Mn a b v Ha Hb) as Q.
  pose proof (fun t => any_bounds p g' St' a b t Ha' Hb') as T'.
  pose proof (fun t => any_bounds p g St a b t Ha Hb) as T.
  pose proof (timespan_ok p g a b M Ha Hb) as Ei. pose proof (timespan_ok p g' a b M' Ha' Hb') as Ei'.
  split.
  { do 2 eexists. split; [exact Ei|]. split; [exact Ei'|]. intros v V. destruct (Q' v V) as (t & S & <-).
    apply So in S. destruct S as (S & Sk). split; [apply T; auto|]. intros -> ->. exact Sk. }
  intros U1 U2. pose proof G as (_ & _ & Hf & Ht & _).
  destruct Co' as (t1 & S1). pose proof (proj1 (So t1) S1) as (Sg & Sk).
  rewrite Ei, Ei'. f_equal.
  pose proof (seen_bnd _ _ _ M Se) as B1. pose proof (seen_bnd _ _ _ M' Se') as B2.
  assert (C0 : 0 <= C).
  { pose proof (B1 a a Ha Ha) as Y. rewrite (proj1 (any_closed p g St Mn Co) a Ha) in Y.
    unfold bnd, oo in Y. lia. }
  assert (O : 0 < oo) by reflexivity.
  assert (Bd : (valid (cell g a b) /\ valid (- cell g b a) /\ cell g a b < oo /\ - oo < - cell g b a /\ cell g a b <= - cell g b a) /\
    (valid (cell g' a b) /\ valid (- cell g' b a) /\ cell g' a b < oo /\ - oo < - cell g' b a /\ cell g' a b <= - cell g' b a)).
  { pose proof (T t1 Sg) as (W1 & W2). pose proof (T' t1 S1) as (W3 & W4). cbn [lower upper] in *.
    pose proof (B1 a b Ha Hb). pose proof (B1 b a Hb Ha). pose proof (B2 a b Ha' Hb'). pose proof (B2 b a Hb' Ha').
    clear - W1 W2 W3 W4 H H0 H1 H2 L C0 O. unfold bnd, valid in *. lia. }
  destruct Bd as ((V1 & V2 & V3 & V4 & V5) & V1' & V2' & V3' & V4' & V5').
  apply ext_same; auto. intros v. split.
  { intros V. destruct (Q' v V) as (t & S & <-). apply T, So, S. }
  intros Hv.
  assert (Df : forall i, 0 <= i < g_size g -> unrelated p g a i -> a <> i /\ g_timespan p g i a = Ret (mkI (- oo) oo)).
  { intros i Hi U. unfold unrelated in U. rewrite timespan_ok in * by auto. injection U as X1 X2.
    split; [|f_equal; f_equal; lia]. intros <-. rewrite (proj1 (any_closed p g St Mn Co) a Ha) in X1. unfold oo in X1. lia. }
  destruct (Df _ Hf U1) as (N1 & U1'). destruct (Df _ Ht U2) as (N2 & U2').
  assert (Va : a = b -> v = 0).
  { intros <-. destruct (Q v Hv) as (t & _ & D). lia. }
  set (t := fun i => if i =? a then t1 b - v else t1 i).
  assert (Ta : t a = t1 b - v) by (unfold t; now rewrite Z.eqb_refl).
  assert (To : forall i, i <> a -> t i = t1 i) by (intros i Y; unfold t; now replace (i =? a) with false by lia).
  assert (Tb : t b = t1 b) by (destruct (Z.eq_dec b a) as [Y|Y]; [rewrite Y, Ta, Va by auto; rewrite <- Y; lia|auto]).
  destruct (C107_extends p g St Mn Co [k_from k; k_to k; a; b] t) as (t' & S & Y).
  - intros i [<-|[<-|[<-|[<-|[]]]]]; auto.
  - assert (Tv : exists iv, g_timespan p g a b = Ret iv /\ In_ext (t b - t a) iv).
    { eexists. split; [exact Ei|]. rewrite Ta, Tb. now replace (t1 b - (t1 b - v)) with v by lia. }
    assert (Tn : exists iv, g_timespan p g b a = Ret iv /\ In_ext (t a - t b) iv).
    { rewrite timespan_ok by auto. eexists. split; [reflexivity|]. unfold In_ext in *. cbn [lower upper] in *. rewrite Ta, Tb. lia. }
    assert (Tz : exists iv, g_timespan p g a a = Ret iv /\ In_ext (t a - t a) iv).
    { destruct (Sg a a Ha Ha) as (i0 & ? & ?). exists i0. split; auto. now rewrite !Z.sub_diag in *. }
    assert (Un : forall i, unrelated p g a i -> exists iv, g_timespan p g a i = Ret iv /\ In_ext (t i - t a) iv).
    { intros i U. eexists. split; [exact U|apply ext_all]. }
    assert (Un' : forall i, g_timespan p g i a = Ret (mkI (- oo) oo) -> exists iv, g_timespan p g i a = Ret iv /\ In_ext (t a - t i) iv).
    { intros i U. eexists. split; [exact U|apply ext_all]. }
    intros i j [<-|[<-|[<-|[<-|[]]]]] [<-|[<-|[<-|[<-|[]]]]]; auto; rewrite ?Tb, ?To by auto; auto.
  - replace v with (t' b - t' a) by (rewrite !Y by (cbn; auto); rewrite Ta, Tb; lia).
    apply T'. apply So. split; auto. unfold sat in *. rewrite !Y by (cbn; auto). rewrite !To by auto. exact Sk.
Qed.

(** ** Examples *)

(** A graph whose bounds are too large for C49, C81 and C85 *)
Example C107_case : forall p, stored gb2 /\ minimal p gb2 /\ (exists t, solution p gb2 t) /\ ~ room 3 big /\
  g_instant_cmp p gb2 0 2 = Ret (Some Lt) /\ g_are_distinct p gb2 0 2 = Ret true /\
  g_instant_cmp p gb2 1 2 = Ret None /\
  agrees p gb2 [0; 2] (fun i => if i =? 2 then big - 10 else 0) /\ finite (latest_after p gb2 0 2).
Proof.
  intros p. destruct (gb_watched p) as (Wa & Se).
  destruct (C105_watched_partial p big [b12; b01] gb2) as (St & Mn & Co & _); auto; [reflexivity|].
  split; auto. split; auto. split; auto.
  split; [intros (_ & _ & Q); revert Q; unfold big, oo; lia|].
  split; [destruct p; reflexivity|]. split; [destruct p; reflexivity|]. split; [destruct p; reflexivity|]. split.
  - intros i j [<-|[<-|[]]] [<-|[<-|[]]]; (eexists; split; [destruct p; vm_compute; reflexivity|]);
      split; right; cbn [lower upper]; vm_compute; discriminate.
  - destruct p; vm_compute; split; discriminate || reflexivity.
Qed.
(** Four instants: those of [0] and [1] are not related to those of the constraint. *)
Example C107_local_case : stored l4a /\ minimal Debug l4a /\ (exists t, solution Debug l4a t) /\ seen Debug 10 l4a /\
  good (g_size l4a) 10 k23 /\ g_propagate Debug l4a k23 = Ret (l4, Propagated) /\
  unrelated Debug l4a 0 2 /\ unrelated Debug l4a 0 3 /\ g_timespan Debug l4 0 1 = Ret (mkI 5 10) /\
  g_timespan Debug l4a 2 3 = Ret (mkI (- oo) oo) /\ g_timespan Debug l4 2 3 = Ret (mkI 7 8).
Proof.
  destruct (C40_solutions_partial Debug 4 10 [k01] l4a (fun _ => 0) room4 l4a_history) as (_ & Mn & Co).
  assert (M : stored l4a) by (unfold stored; simpl; lia).
  assert (In4 : forall i, node 4 i -> i = 0 \/ i = 1 \/ i = 2 \/ i = 3) by (unfold node; lia).
  split; auto. split; auto. split; auto.
  split.
  { apply bnd_seen; [apply M|]. intros i j Ni Nj. cbn [g_size l4a] in *.
    destruct (In4 i Ni) as [->|[->|[-> | ->]]]; destruct (In4 j Nj) as [->|[->|[-> | ->]]]; vm_compute;
      (left; reflexivity) || (right; split; discriminate). }
  split; [unfold good, wf_iv, within, k23; simpl; unfold oo; lia|].
  repeat split; vm_compute; reflexivity.
Qed.

Print Assumptions C107_cmp.
Print Assumptions C107_distinct.
Print Assumptions C107_laws.
Print Assumptions C107_extends.
Print Assumptions C107_rows.
Print Assumptions C107_local_partial.
