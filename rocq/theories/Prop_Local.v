(** A constraint acts on the instants related to its own only (property C86). *)
From Verif Require Import Machine TimeValue Interval Spec SpecSets Tac TimeValueProofs Graph MaxPlus
  GraphProofs SpecGraph GraphInv Prop_Graph Prop_Propagation Prop_GraphRow.

(** Nothing is known between the instants [i] and [j]. *)
Definition unrelated (p : profile) (g : graph) (i j : Z) : Prop := g_timespan p g i j = Ret (mkI (- oo) oo).

Lemma ext_all v : In_ext v (mkI (- oo) oo).
Proof. split; cbn; auto. Qed.
(** Intervals are equal if they have the same durations. *)
Lemma ext_same a b : valid (lower a) -> valid (upper a) -> valid (lower b) -> valid (upper b) ->
  lower a < oo -> - oo < upper a -> lower b < oo -> - oo < upper b -> lower a <= upper a -> lower b <= upper b ->
  (forall v, In_ext v a <-> In_ext v b) -> a = b.
Proof.
  intros Va Va' Vb Vb' La Ua Lb Ub Wa Wb E. destruct a as (l & u), b as (l' & u'). unfold In_ext, valid in *. cbn [lower upper] in *.
  assert (El : l = l').
  { destruct (Z.eq_dec l (- oo)) as [D|D].
    - destruct (Z.eq_dec l' (- oo)) as [D'|D']; [lia|]. specialize (E (Z.min (l' - 1) u)). lia.
    - destruct (Z.eq_dec l' (- oo)) as [D'|D'].
      + specialize (E (Z.min (l - 1) u')). lia.
      + destruct (Z.lt_trichotomy l l') as [X|[X|X]]; auto; [specialize (E l)|specialize (E l')]; lia. }
  subst l'. f_equal. destruct (Z.eq_dec u oo) as [D|D].
  - destruct (Z.eq_dec u' oo) as [D'|D']; [lia|]. specialize (E (Z.max (u' + 1) l)). lia.
  - destruct (Z.eq_dec u' oo) as [D'|D'].
    + specialize (E (Z.max (u + 1) l)). lia.
    + destruct (Z.lt_trichotomy u u') as [X|[X|X]]; auto; [specialize (E u')|specialize (E u)]; lia.
Qed.

Section Local.
Variables (p : profile) (N B : Z) (ks : list kons) (g : graph).
Hypotheses (R : room N B) (H : history p N B ks g).
Variables (k : kons) (g' : graph) (r : presult).
Hypotheses (G : good N B k) (In1 : inside g k) (E : g_propagate p g k = Ret (g', r)) (A : accepted r).

Let H' : history p N B (k :: ks) g' := h_propagate p N B ks g k g' r H G In1 E A.
Lemma local_size : g_size g' = g_size g.
Proof.
  destruct (propagate_inv p N B ks g k R (history_inv _ _ _ _ _ R H) G In1) as (g2 & r2 & E2 & S & _).
  rewrite E in E2. now injection E2 as <- <-.
Qed.
Lemma reported g0 ks0 i j : history p N B ks0 g0 -> 0 <= i < g_size g0 -> 0 <= j < g_size g0 ->
  exists iv, g_timespan p g0 i j = Ret iv /\ valid (lower iv) /\ valid (upper iv) /\
    lower iv < oo /\ - oo < upper iv /\ lower iv <= upper iv /\
    forall v, In_ext v iv <-> exists t, Forall (fun k => sat k t) ks0 /\ t j - t i = v.
Proof.
  intros H0 Hi Hj. destruct (C40_minimal_partial p N B ks0 g0 R H0 i j Hi Hj) as (iv & Ei & L & Q).
  pose proof (history_inv _ _ _ _ _ R H0) as I0. destruct (inv_finite _ _ _ _ R I0) as (V & F).
  exists iv. split; auto. rewrite timespan_ok in Ei by (auto; apply I0). injection Ei as <-. cbn [lower upper] in *.
  pose proof (V i j Hi Hj). pose proof (V j i Hj Hi). pose proof (F i j Hi Hj). pose proof (F j i Hj Hi).
  unfold valid in *.
  split; [lia|]. split; [lia|]. split; [lia|]. split; [lia|]. split; [exact L|]. exact Q.
Qed.

(** The intervals get narrower, and the one of the constraint holds. *)
(** Partial: the limits of [room] and [history]. *)
Theorem C86_narrower_partial : forall i j, 0 <= i < g_size g -> 0 <= j < g_size g ->
  exists iv iv', g_timespan p g i j = Ret iv /\ g_timespan p g' i j = Ret iv' /\
    (forall v, In_ext v iv' -> In_ext v iv /\ (i = k_from k -> j = k_to k -> In_ext v (mkI (k_lo k) (k_up k)))).
Proof.
  intros i j Hi Hj. destruct (reported g ks i j H Hi Hj) as (iv & Ei & _ & _ & _ & _ & _ & Q).
  destruct (reported g' (k :: ks) i j H') as (iv' & Ei' & _ & _ & _ & _ & _ & Q'); try (rewrite local_size; auto).
  exists iv, iv'. split; auto. split; auto. intros v Hv. apply Q' in Hv as (t & S & D). inversion S as [|? ? Sk Sr]; subst.
  split; [apply Q; eauto|]. intros -> ->. exact Sk.
Qed.
(** If nothing relates the instant [a] to those of the constraint, the intervals of [a] stay the same. *)
(** Partial: the limits of [room] and [history]. *)
Theorem C86_local_partial : forall a b, 0 <= a < g_size g -> 0 <= b < g_size g ->
  unrelated p g a (k_from k) -> unrelated p g a (k_to k) -> g_timespan p g' a b = g_timespan p g a b.
Proof.
  intros a b Ha Hb U1 U2.
  assert (Hf : 0 <= k_from k < g_size g) by (pose proof G as (_ & _ & ? & _); pose proof In1 as []; lia).
  assert (Ht : 0 <= k_to k < g_size g) by (pose proof G as (_ & _ & _ & ? & _); pose proof In1 as []; lia).
  destruct (reported g ks a b H Ha Hb) as (iv & Ei & V1 & V2 & V3 & V4 & V5 & Q).
  destruct (reported g' (k :: ks) a b H') as (iv' & Ei' & V1' & V2' & V3' & V4' & V5' & Q'); try (rewrite local_size; auto).
  rewrite Ei, Ei'. f_equal. apply ext_same; auto. intros v. split.
  { intros Hv. apply Q' in Hv as (t & S & D). inversion S; subst. apply Q. eauto. }
  intros Hv.
  assert (Df : forall i, 0 <= i < g_size g -> unrelated p g a i -> a <> i /\ g_timespan p g i a = Ret (mkI (- oo) oo)).
  { intros i Hi U. pose proof (history_inv _ _ _ _ _ R H) as I. unfold unrelated in U.
    rewrite timespan_ok in * by (auto; apply I). injection U as X Y.
    split; [|f_equal; f_equal; lia]. intros <-. destruct (i_tight _ _ _ _ I) as ((Z0 & _) & _).
    rewrite (Z0 a Ha) in X. unfold oo in X. lia. }
  destruct (Df _ Hf U1) as (N1 & U1'). destruct (Df _ Ht U2) as (N2 & U2').
  destruct (C40_solutions_partial p N B (k :: ks) g' (fun _ => 0) R H') as (_ & _ & (t1 & T1)).
  apply (C40_solutions_partial p N B (k :: ks) g' t1 R H') in T1. inversion T1 as [|? ? Tk Tr]; subst.
  assert (Ag : forall i j, 0 <= i < g_size g -> 0 <= j < g_size g ->
    exists iv, g_timespan p g i j = Ret iv /\ In_ext (t1 j - t1 i) iv).
  { apply (C40_solutions_partial p N B ks g t1 R H). exact Tr. }
  assert (Va : a = b -> v = 0).
  { intros <-. apply Q in Hv as (t & _ & D). lia. }
  set (t := fun i => if i =? a then t1 b - v else t1 i).
  assert (Ta : t a = t1 b - v) by (unfold t; now rewrite Z.eqb_refl).
  assert (To : forall i, i <> a -> t i = t1 i) by (intros i X; unfold t; now replace (i =? a) with false by lia).
  assert (Tb : t b = t1 b) by (destruct (Z.eq_dec b a) as [X|X]; [rewrite X, Ta, Va by auto; rewrite <- X; lia|auto]).
  destruct (C85_extends_partial p N B ks g R H [k_from k; k_to k; a; b] t) as (t' & S & X).
  - intros i [<-|[<-|[<-|[<-|[]]]]]; auto.
  - assert (Tv : exists iv, g_timespan p g a b = Ret iv /\ In_ext (t b - t a) iv).
    { exists iv. split; auto. rewrite Ta, Tb. now replace (t1 b - (t1 b - v)) with v by lia. }
    assert (Tn : exists iv, g_timespan p g b a = Ret iv /\ In_ext (t a - t b) iv).
    { pose proof (history_inv _ _ _ _ _ R H) as I. rewrite timespan_ok in * by (auto; apply I).
      eexists. split; [reflexivity|]. injection Ei as <-. unfold In_ext in *. cbn [lower upper] in *. rewrite Ta, Tb. lia. }
    assert (Tz : exists iv, g_timespan p g a a = Ret iv /\ In_ext (t a - t a) iv).
    { destruct (Ag a a Ha Ha) as (i0 & ? & ?). exists i0. split; auto. now rewrite !Z.sub_diag in *. }
    assert (Un : forall i, unrelated p g a i -> exists iv, g_timespan p g a i = Ret iv /\ In_ext (t i - t a) iv).
    { intros i U. eexists. split; [exact U|apply ext_all]. }
    assert (Un' : forall i, g_timespan p g i a = Ret (mkI (- oo) oo) -> exists iv, g_timespan p g i a = Ret iv /\ In_ext (t a - t i) iv).
    { intros i U. eexists. split; [exact U|apply ext_all]. }
    intros i j [<-|[<-|[<-|[<-|[]]]]] [<-|[<-|[<-|[<-|[]]]]]; auto; rewrite ?Tb, ?To by auto; auto.
  - apply Q'. exists t'. split.
    + constructor; auto. unfold sat in *. rewrite !X by (cbn; auto). rewrite !To by auto. exact Tk.
    + rewrite !X by (cbn; auto). rewrite Ta, Tb. lia.
Qed.
End Local.

(** Four instants, of which 0 and 1 are constrained, then 2 and 3. *)
Definition l4 : graph := mkG 4 [0; - 10; 0; 5; - oo; - oo; 0; - oo; - oo; - oo; - oo; - 8; 0; 7; - oo; - oo].
Definition l4a : graph := mkG 4 [0; - 10; 0; 5; - oo; - oo; 0; - oo; - oo; - oo; - oo; - oo; 0; - oo; - oo; - oo].
Definition k23 : kons := mkK 2 3 false 7 8.
Definition k13 : kons := mkK 1 3 false 7 8.
Lemma l4a_history : history Debug 4 10 [k01] l4a.
Proof.
  destruct (g_with_size Debug 4) as [g| | |] eqn:Eg; try discriminate Eg.
  eapply h_propagate with (g := g) (r := Propagated).
  - eapply h_new with (n := 4); [lia|exact Eg].
  - unfold good, wf_iv, within, k01; simpl. unfold oo. lia.
  - injection Eg as <-. unfold inside; simpl. lia.
  - injection Eg as <-. vm_compute. reflexivity.
  - right. reflexivity.
Qed.
Lemma room4 : room 4 10.
Proof. unfold room, oo. lia. Qed.
Example C86_case : history Debug 4 10 [k01] l4a /\ room 4 10 /\ good 4 10 k23 /\ inside l4a k23 /\
  g_propagate Debug l4a k23 = Ret (l4, Propagated) /\ accepted Propagated /\
  unrelated Debug l4a 0 2 /\ unrelated Debug l4a 0 3 /\ g_timespan Debug l4a 0 1 = Ret (mkI 5 10) /\
  g_timespan Debug l4 0 1 = Ret (mkI 5 10) /\ g_timespan Debug l4a 2 3 <> g_timespan Debug l4 2 3.
Proof.
  split; [exact l4a_history|]. split; [exact room4|].
  split; [unfold good, wf_iv, within, k23; simpl; unfold oo; lia|]. split; [unfold inside; simpl; lia|].
  split; [vm_compute; reflexivity|]. split; [right; reflexivity|]. split; [vm_compute; reflexivity|].
  split; [vm_compute; reflexivity|]. split; [vm_compute; reflexivity|]. split; [vm_compute; reflexivity|].
  vm_compute. discriminate.
Qed.
(** It is not enough that the instant is unrelated to one of the two. *)
Theorem C86_one_refuted : exists p N B ks g k g' r a b, room N B /\ history p N B ks g /\ good N B k /\ inside g k /\
  g_propagate p g k = Ret (g', r) /\ accepted r /\ 0 <= a < g_size g /\ 0 <= b < g_size g /\
  unrelated p g a (k_to k) /\ g_timespan p g' a b <> g_timespan p g a b.
Proof.
  exists Debug, 4, 10, [k01], l4a, k13. do 2 eexists. exists 0, 3.
  split; [exact room4|]. split; [exact l4a_history|].
  split; [unfold good, wf_iv, within, k13; simpl; unfold oo; lia|]. split; [unfold inside; simpl; lia|].
  split; [vm_compute; reflexivity|]. split; [right; reflexivity|]. split; [simpl; lia|]. split; [simpl; lia|].
  split; [vm_compute; reflexivity|]. vm_compute. discriminate.
Qed.

Print Assumptions C86_narrower_partial.
Print Assumptions C86_local_partial.
Print Assumptions C86_one_refuted.
