(** Dates can be read off a graph (property C85). *)
From Verif Require Import Machine TimeValue Interval Spec SpecSets Tac TimeValueProofs Graph MaxPlus
  GraphProofs SpecGraph GraphInv Prop_Graph Prop_Propagation.

(** The dates furthest after (before) the instant [r] *)
Definition latest_after (p : profile) (g : graph) (r i : Z) : Z :=
  match g_timespan p g r i with Ret iv => upper iv | _ => 0 end.
Definition earliest_after (p : profile) (g : graph) (r i : Z) : Z :=
  match g_timespan p g r i with Ret iv => lower iv | _ => 0 end.
(** The dates [t] of the instants of [l] respect the intervals reported for them. *)
Definition agrees (p : profile) (g : graph) (l : list Z) (t : Z -> Z) : Prop :=
  forall i j, In i l -> In j l -> exists iv, g_timespan p g i j = Ret iv /\ In_ext (t j - t i) iv.

Section Row.
Variables (p : profile) (N B : Z) (ks : list kons) (g : graph).
Hypotheses (R : room N B) (H : history p N B ks g).
Let I : inv N B ks g := history_inv _ _ _ _ _ R H.
Let M : mem_ok g := i_mem _ _ _ _ I.

(** Dates given to some instants that respect the intervals between these are part of a solution of
    all the constraints: the dates can be chosen instant by instant. *)
(** Partial: the limits of [room] and [history]; false if [propagate] adds instants (C85_growth_refuted). *)
Theorem C85_extends_partial : forall l t, (forall i, In i l -> 0 <= i < g_size g) -> agrees p g l t ->
  exists t', Forall (fun k => sat k t') ks /\ forall i, In i l -> t' i = t i.
Proof.
  intros l t L A. destruct (closed_extends (g_size g) (cell g) l t) as (t' & E & S).
  - apply (i_tight _ _ _ _ I).
  - apply Forall_forall. exact L.
  - intros i j w Hi Hj (X & Y). destruct (A i j Hi Hj) as (iv & E & (Q & _)).
    rewrite timespan_ok in E by (auto; apply L; auto). injection E as <-. cbn [lower] in Q. lia.
  - exists t'. split; auto. apply (inv_sat p N B ks g t' I). now apply sol_msat.
Qed.

(** If it is finite, the row of [r] gives the latest, or the earliest, solution with [r] at 0. *)
(** Partial: as C85_extends_partial. *)
Theorem C85_latest_partial : forall r, 0 <= r < g_size g ->
  (forall i, 0 <= i < g_size g -> finite (latest_after p g r i)) ->
  Forall (fun k => sat k (latest_after p g r)) ks /\ latest_after p g r r = 0 /\
  forall t i, Forall (fun k => sat k t) ks -> t r = 0 -> 0 <= i < g_size g -> t i <= latest_after p g r i.
Proof.
  intros r Hr F.
  assert (Q : forall i, 0 <= i < g_size g -> latest_after p g r i = - cell g i r).
  { intros i Hi. unfold latest_after. now rewrite timespan_ok. }
  destruct (i_tight _ _ _ _ I) as ((Z0 & T) & _).
  split; [|split].
  - apply (inv_sat p N B ks g _ I). apply sol_msat; auto. intros i j w Hi Hj E. rewrite !Q by auto.
    pose proof (F j Hj) as Fj. rewrite Q in Fj by auto.
    assert (X : ent (cell g) j r (cell g j r)) by (unfold ent, finite in *; lia).
    pose proof (T i j r w (cell g j r) Hi Hj Hr E X) as (_ & Y). lia.
  - rewrite Q by auto. rewrite (Z0 r Hr). lia.
  - intros t i S Tr Hi. apply (inv_sat p N B ks g t I) in S. apply sol_msat in S; auto.
    pose proof (F i Hi) as Fi. rewrite Q in * by auto.
    assert (X : ent (cell g) i r (cell g i r)) by (unfold ent, finite in *; lia).
    specialize (S i r _ Hi Hr X). lia.
Qed.
(** Partial: as C85_extends_partial. *)
Theorem C85_earliest_partial : forall r, 0 <= r < g_size g ->
  (forall i, 0 <= i < g_size g -> finite (earliest_after p g r i)) ->
  Forall (fun k => sat k (earliest_after p g r)) ks /\ earliest_after p g r r = 0 /\
  forall t i, Forall (fun k => sat k t) ks -> t r = 0 -> 0 <= i < g_size g -> earliest_after p g r i <= t i.
Proof.
  intros r Hr F.
  assert (Q : forall i, 0 <= i < g_size g -> earliest_after p g r i = cell g r i).
  { intros i Hi. unfold earliest_after. now rewrite timespan_ok. }
  destruct (i_tight _ _ _ _ I) as ((Z0 & T) & _).
  split; [|split].
  - apply (inv_sat p N B ks g _ I). apply sol_msat; auto. intros i j w Hi Hj E. rewrite !Q by auto.
    pose proof (F i Hi) as Fi. rewrite Q in Fi by auto.
    assert (X : ent (cell g) r i (cell g r i)) by (unfold ent, finite in *; lia).
    pose proof (T r i j (cell g r i) w Hr Hi Hj X E) as (_ & Y). lia.
  - rewrite Q by auto. apply (Z0 r Hr).
  - intros t i S Tr Hi. apply (inv_sat p N B ks g t I) in S. apply sol_msat in S; auto.
    pose proof (F i Hi) as Fi. rewrite Q in * by auto.
    assert (X : ent (cell g) r i (cell g r i)) by (unfold ent, finite in *; lia).
    specialize (S r i _ Hr Hi X). lia.
Qed.
End Row.

Example C85_case : history Debug 3 10 [k12; k01] h3 /\ room 3 10 /\
  agrees Debug h3 [0; 2] (fun i => if i =? 2 then 13 else 0) /\
  (forall i, 0 <= i < 3 -> finite (latest_after Debug h3 0 i)) /\ latest_after Debug h3 0 2 = 18 /\
  (forall i, 0 <= i < 3 -> finite (earliest_after Debug h3 2 i)) /\ earliest_after Debug h3 2 0 = -18.
Proof.
  assert (C : forall i, 0 <= i < 3 -> i = 0 \/ i = 1 \/ i = 2) by lia.
  split; [apply h3_history; lia|]. split; [exact room3|]. split.
  { intros i j [<-|[<-|[]]] [<-|[<-|[]]]; eexists; (split; [vm_compute; reflexivity|]); unfold In_ext, oo; cbn [lower upper]; simpl; lia. }
  split; [intros i Hi; apply C in Hi as [->|[->| ->]]; unfold finite; vm_compute; auto|]. split; [reflexivity|].
  split; [intros i Hi; apply C in Hi as [->|[->| ->]]; unfold finite; vm_compute; auto|reflexivity].
Qed.
(** The graph [gq] of C40_growth_refuted: dates of the instants 0 and 2 that respect the reported
    interval have no date of the instant 1 between them. *)
Theorem C85_growth_refuted : exists p g t, one_by_one p g_default [k01; k12] g /\ agrees p g [0; 2] t /\
  forall t', sat k01 t' -> sat k12 t' -> ~ (t' 0 = t 0 /\ t' 2 = t 2).
Proof.
  exists Debug, gq, (fun i => if i =? 2 then 11 else 0). split.
  { eapply obo_cons with (g1 := h3a) (r := Propagated); [vm_compute; reflexivity|right; auto|].
    eapply obo_cons with (g1 := gq) (r := Propagated); [vm_compute; reflexivity|right; auto|].
    constructor. }
  split.
  { intros i j [<-|[<-|[]]] [<-|[<-|[]]]; eexists; (split; [vm_compute; reflexivity|]); unfold In_ext, oo; cbn [lower upper]; simpl; lia. }
  intros t' (A1 & A2) (B1 & B2) (C1 & C2). simpl in *. unfold oo in *. lia.
Qed.

Print Assumptions C85_extends_partial.
Print Assumptions C85_latest_partial.
Print Assumptions C85_earliest_partial.
Print Assumptions C85_growth_refuted.
