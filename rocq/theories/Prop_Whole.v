(** From given constraints and requests to dates, with conditions on what is given only (property
    C119): any constraints within [B] between [n] instants, contradictory or not, then any requests
    within [W], possible or not. *)
From Verif Require Import Machine TimeValue Spec Tac TimeValueProofs Interval Iter TimeSet Relns
  Transl SpecSets SetProofs CollectProofs Prop_Interval SetOpsProofs Prop_TimeSet Prop_Transl SchedSets
  Graph MaxPlus FwBound GraphProofs GraphOps GraphGrow GraphSafe GraphMem GraphHist GraphTight SpecGraph
  GraphSound GraphInv GraphCalls Prop_Graph Prop_Propagation Scheduler SpecSched SchedProofs SchedBox SchedConv Prop_Scheduler
  Prop_SchedConvex Prop_SchedStep Prop_SchedOrder Prop_Seen Prop_Queries Prop_Fits Prop_Represent Prop_Program Prop_Plan Prop_Bounded.

(** ** Specification *)

(** All the requests of a session have a date and finite bounds at most [W] in absolute value. *)
Fixpoint asks (n W : Z) (l : plan) : Prop :=
  match l with Start => True | Ask l q => asks n W l /\ modest n W q end.

(** ** Proofs *)

Lemma greedy_all (P : kons -> Prop) acc ks kept : greedy acc ks kept -> Forall P acc -> Forall P ks -> Forall P kept.
Proof.
  induction 1 as [|acc k ks r _ _ IH|acc k ks r _ _ IH]; intros A F; auto; inversion F; subst; auto.
Qed.
Lemma remain_total p m n S C W g : means m n S -> run p m = Ret g -> seen p C g -> 0 <= C -> 0 <= W -> 4 * W + 9 * C < oo ->
  forall l, asks n W l -> exists T, remain n W S l T.
Proof.
  intros H R Sn C0 W0 Sp. induction l as [|l IH q]; intros A.
  - eexists. apply rm_start.
  - destruct A as (A & Mo). destruct (IH A) as (T & Rm).
    destruct (plan_graph p m n S g H R) as (St & Mn & Co & Sz & Q).
    pose proof Rm as Rm'. rewrite <- Sz in Rm'.
    destruct (exec_exact p C g W St Mn Co Sn C0 W0 Sp S l T Q Rm') as (s & E & Se & G). pose proof Mo as Mo'. rewrite <- Sz in Mo'.
    destruct (ask_exact p C g W St Mn Co Sn C0 W0 Sp s q Se Mo') as (s' & r & _ & _ & D). rewrite Sz in D.
    destruct D as [(_ & (t & X & Y) & _)|(_ & _ & N)].
    + eexists. apply rm_yes; [exact Rm|exact Mo|]. exists t. split; auto. apply G. exact X.
    + eexists. apply rm_no; [exact Rm|exact Mo|]. intros t (X & Y). apply (N t). split; auto. apply G. exact X.
Qed.
(** Partial: requests by sets of dates are excluded, for which it is false (C55_refuted). *)
Theorem C119_whole_partial : forall p n B W ks l, 1 <= n <= 65535 -> 0 <= B -> 0 <= W -> 4 * W + 9 * ((n - 1) * B) < oo ->
  Forall (good n B) ks -> asks n W l ->
  exists g kept D T s, run p (fold_left Add ks (Resize New n)) = Ret g /\ greedy [] ks kept /\
    (forall t, D t <-> Forall (fun k => sat k t) kept) /\ remain n W D l T /\ exec p g l = Ret s /\
    (exists t, T t) /\ (forall t, schedule p s t <-> T t) /\
    forall i, 0 <= i < n -> exists iv, sc_scheduling s i = Some [iv] /\
      (lower iv = - oo \/ (exists t, T t /\ t i = lower iv) /\ forall t, T t -> lower iv <= t i) /\
      (upper iv = oo \/ (exists t, T t /\ t i = upper iv) /\ forall t, T t -> t i <= upper iv).
Proof.
  intros p n B W ks l N B0 W0 Sp G A. assert (C0 : 0 <= (n - 1) * B) by nia.
  destruct (adds_means n B ks ltac:(lia) B0 ltac:(lia) G (Resize New n) (fun t => exists t', True /\ forall i, 0 <= i < n -> t i = t' i) []) as (kept & D & H & Gr & Q).
  { eapply m_resize; [apply m_new|lia]. }
  { intros t. split; auto. intros _. exists t. auto. }
  { constructor. }
  destruct (C110_program p _ n D H) as (g & R & _ & An & (t0 & T0)).
  assert (Sn : seen p ((n - 1) * B) g).
  { apply (C118_reported p n B kept); auto; [lia| | |].
    - eapply greedy_all; [exact Gr|constructor|exact G].
    - exists t0. apply Q. exact T0.
    - eapply answer_ext; [exact Q|exact An]. }
  destruct (remain_total p _ n D ((n - 1) * B) W g H R Sn C0 W0 Sp l A) as (T & Rm).
  destruct (C115_plan_partial p _ n D ((n - 1) * B) W g H R Sn C0 W0 Sp l T Rm) as (s & E & Ex & Sc).
  exists g, kept, D, T, s. split; [exact R|]. split; [exact Gr|]. split; [exact Q|]. split; [exact Rm|]. split; [exact E|].
  split; [exact Ex|]. split; [exact Sc|]. intros i Hi.
  destruct (C115_dates_partial p _ n D ((n - 1) * B) W g H R Sn C0 W0 Sp l T i Rm Hi) as (s' & iv & E' & I & Lo & Up & _).
  rewrite E in E'. injection E' as <-. exists iv. auto.
Qed.
(** Each further request is accepted exactly if it leaves some dates. *)
Theorem C119_next_partial : forall p n B W ks l q, 1 <= n <= 65535 -> 0 <= B -> 0 <= W -> 4 * W + 9 * ((n - 1) * B) < oo ->
  Forall (good n B) ks -> asks n W l -> modest n W q ->
  exists g s s' r, run p (fold_left Add ks (Resize New n)) = Ret g /\ exec p g l = Ret s /\ ask p s q = Ret (s', r) /\
    (accepted r <-> exists t, schedule p s t /\ meets n q t) /\ (r = Recovered <-> forall t, schedule p s t -> ~ meets n q t).
Proof.
  intros p n B W ks l q N B0 W0 Sp G A Mo. assert (C0 : 0 <= (n - 1) * B) by nia.
  destruct (adds_means n B ks ltac:(lia) B0 ltac:(lia) G (Resize New n) (fun t => exists t', True /\ forall i, 0 <= i < n -> t i = t' i) []) as (kept & D & H & Gr & Q).
  { eapply m_resize; [apply m_new|lia]. }
  { intros t. split; auto. intros _. exists t. auto. }
  { constructor. }
  destruct (C110_program p _ n D H) as (g & R & _ & An & (t0 & T0)).
  assert (Sn : seen p ((n - 1) * B) g).
  { apply (C118_reported p n B kept); auto; [lia| | |].
    - eapply greedy_all; [exact Gr|constructor|exact G].
    - exists t0. apply Q. exact T0.
    - eapply answer_ext; [exact Q|exact An]. }
  destruct (remain_total p _ n D ((n - 1) * B) W g H R Sn C0 W0 Sp l A) as (T & Rm).
  destruct (C115_plan_partial p _ n D ((n - 1) * B) W g H R Sn C0 W0 Sp l T Rm) as (s & E & Ex & Sc).
  destruct (C115_request_partial p _ n D ((n - 1) * B) W g H R Sn C0 W0 Sp l T q Rm Mo) as (s2 & s' & r & E2 & Ea & A1 & A2).
  rewrite E in E2. injection E2 as <-. exists g, s, s', r. split; [exact R|]. split; [exact E|]. split; [exact Ea|]. split.
  - rewrite A1. split; intros (t & X & Y); exists t; (split; [apply Sc; exact X|exact Y]).
  - rewrite A2. split; intros X t Y; apply X, Sc; exact Y.
Qed.
(** The same for compatible constraints given at once. *)
Theorem C119_from_iter_partial : forall p hint n B W ks l, 1 <= n <= 65535 -> 0 <= B -> 0 <= W -> 4 * W + 9 * ((n - 1) * B) < oo ->
  Forall (good n B) ks -> hint <> Some 0 -> hint <> Some 1 -> Exists (fun k => n = k_from k + 1 \/ n = k_to k + 1) ks ->
  (exists t, Forall (fun k => sat k t) ks) -> asks n W l ->
  exists g T s, g_from_iter p hint ks = Ret g /\ remain n W (fun t => True /\ Forall (fun k => sat k t) ks) l T /\
    exec p g l = Ret s /\ (exists t, T t) /\ (forall t, schedule p s t <-> T t) /\
    forall i, 0 <= i < n -> exists iv, sc_scheduling s i = Some [iv] /\
      (lower iv = - oo \/ (exists t, T t /\ t i = lower iv) /\ forall t, T t -> lower iv <= t i) /\
      (upper iv = oo \/ (exists t, T t /\ t i = upper iv) /\ forall t, T t -> t i <= upper iv).
Proof.
  intros p hint n B W ks l N B0 W0 Sp G H0 H1 X Co A. assert (C0 : 0 <= (n - 1) * B) by nia.
  set (D := fun t => True /\ Forall (fun k => sat k t) ks).
  assert (Lk : Forall legal ks).
  { eapply Forall_impl; [|exact G]. intros k Gk. apply (good_legal n); [lia|]. apply (good_any n B k Gk). }
  assert (F : Forall (fun k => k_from k < n /\ k_to k < n) ks).
  { eapply Forall_impl; [|exact G]. intros k (_ & _ & Nf & Nt & _). lia. }
  assert (Spr : spread n (fun t => Forall (fun k => sat k t) ks)) by (apply (C118_spread n B); auto; lia).
  destruct (C118_from_iter p hint n B ks ltac:(lia) B0 ltac:(lia) G H0 H1 (or_intror X) Co) as (g & E & An).
  assert (R : run p (AddAll New hint ks) = Ret g).
  { cbn [run bind]. revert E. unfold g_from_iter, g_extend_expect.
    destruct (g_extend p g_default hint ks) as [[g' r]| | |]; cbn; try discriminate. destruct r; congruence. }
  assert (H : means (AddAll New hint ks) n D).
  { apply (m_all New 0 (fun _ => True)); auto; [constructor|lia| |].
    - destruct Co as (t & Ct). exists t. auto.
    - eapply spread_ext; [|exact Spr]. intros t. tauto. }
  assert (Sn : seen p ((n - 1) * B) g) by (apply (C118_reported p n B ks); auto; lia).
  destruct (remain_total p _ n D ((n - 1) * B) W g H R Sn C0 W0 Sp l A) as (T & Rm).
  destruct (C115_plan_partial p _ n D ((n - 1) * B) W g H R Sn C0 W0 Sp l T Rm) as (s & Ee & Ex & Sc).
  exists g, T, s. split; [exact E|]. split; [exact Rm|]. split; [exact Ee|]. split; [exact Ex|]. split; [exact Sc|]. intros i Hi.
  destruct (C115_dates_partial p _ n D ((n - 1) * B) W g H R Sn C0 W0 Sp l T i Rm Hi) as (s' & iv & E' & I & Lo & Up & _).
  rewrite Ee in E'. injection E' as <-. exists iv. auto.
Qed.

(** ** Example *)

(** The second constraint contradicts the first one and is refused; so is the deadline 3. *)
Example C119_case : let ks := [mkK 0 1 false 4 6; mkK 1 0 false 1 oo; mkK 1 2 false (- oo) 2] in
  let l := Ask (Ask Start (Since 0)) (Until 3) in
  4 * 3 + 9 * ((3 - 1) * 6) < oo /\ Forall (good 3 6) ks /\ asks 3 3 l /\
  forall p, exists g, run p (fold_left Add ks (Resize New 3)) = Ret g /\
    exec p g l = Ret (mkS g [[mkI 0 oo]; [mkI 4 oo]; [mkI 0 oo]]).
Proof.
  cbv zeta. split; [reflexivity|]. split; [repeat (constructor; [goodk|]); constructor|]. split; [cbn; lia|].
  intros p. destruct p; eexists; (split; [vm_compute; reflexivity|]); vm_compute; reflexivity.
Qed.
(** Two compatible constraints given at once; then the deadline 3 is refused and 4 accepted. *)
Example C119_from_iter_case : let ks := [mkK 0 1 false 4 6; mkK 1 2 false (- oo) (- 2)] in
  let l := Ask (Ask (Ask Start (Since 0)) (Until 3)) (Until 4) in
  4 * 4 + 9 * ((3 - 1) * 6) < oo /\ Forall (good 3 6) ks /\ Exists (fun k => 3 = k_from k + 1 \/ 3 = k_to k + 1) ks /\
  (exists t, Forall (fun k => sat k t) ks) /\ asks 3 4 l /\
  forall p, exists g, g_from_iter p None ks = Ret g /\
    exec p g l = Ret (mkS g [[mkI 0 0]; [mkI 4 4]; [mkI 0 2]]).
Proof.
  cbv zeta. split; [reflexivity|]. split; [repeat (constructor; [goodk|]); constructor|].
  split; [right; left; cbn; lia|].
  split; [exists (fun i => if i =? 1 then 4 else if i =? 2 then 1 else 0)|].
  { constructor; [split; right; discriminate|]. constructor; [split; [left; reflexivity|right; discriminate]|]. constructor. }
  split; [cbn; lia|].
  intros p. destruct p; eexists; (split; [vm_compute; reflexivity|]); vm_compute; reflexivity.
Qed.
