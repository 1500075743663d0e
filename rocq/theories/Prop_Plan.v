(** From the constraints to the dates (property C115): a program builds a graph, a session restricts
    its dates by intervals, deadlines and start lines; what the scheduler accepts, and the dates it
    keeps, are those of the choices of dates that meet all of these. *)
From Verif Require Import Machine TimeValue Spec Tac TimeValueProofs Interval Iter TimeSet Relns
  Transl SpecSets SetProofs CollectProofs Prop_Interval SetOpsProofs Prop_TimeSet Prop_Transl SchedSets
  Graph MaxPlus FwBound GraphProofs GraphOps GraphFits GraphWarshall GraphGrow GraphSafe GraphMem GraphHist GraphTight
  SpecGraph GraphSound GraphMono GraphInv GraphIter GraphCalls Prop_Graph
  Prop_Propagation Prop_GraphQuery Prop_GraphIter Scheduler SpecSched SchedProofs SchedBox SchedConv Prop_Scheduler
  Prop_SchedConvex Prop_SchedStep Prop_SchedOrder Prop_Seen Prop_Queries Prop_Fits Prop_Represent Prop_Program.

(** ** Specification *)

(** The requests of a session, in order: scheduler.rs:97-115, 56-71 and 75-90 *)
Inductive request := Keep (i : Z) (c : convex) | Until (d : Z) | Since (d : Z).
Inductive plan := Start | Ask (l : plan) (q : request).
Definition ask (p : profile) (s : sched) (q : request) : outcome (sched * presult) :=
  match q with
  | Keep i c => sc_retain p s i (WCx c)
  | Until d => sc_set_deadline p s d
  | Since d => sc_set_startline p s d
  end.
(** The execution, and what the last request reports *)
Fixpoint exec (p : profile) (g : graph) (l : plan) : outcome sched :=
  match l with
  | Start => Ret (sc_new g)
  | Ask l q => s <- exec p g l ;; x <- ask p s q ;; Ret (fst x)
  end.
(** The dates [t] of [n] instants meet the request. *)
Definition meets (n : Z) (q : request) (t : Z -> Z) : Prop :=
  match q with
  | Keep i c => In_cx (t i) c
  | Until d => forall i, 0 <= i < n -> t i <= d
  | Since d => forall i, 0 <= i < n -> d <= t i
  end.
(** The finite bounds of the request are at most [W] in absolute value, and its interval has a date. *)
Definition modest (n W : Z) (q : request) : Prop :=
  match q with Keep i c => 0 <= i < n /\ narrow W c | Until d | Since d => Z.abs d <= W end.
(** The dates that remain: a request that nothing meets is refused, and ignored. *)
Inductive remain (n W : Z) (S : (Z -> Z) -> Prop) : plan -> ((Z -> Z) -> Prop) -> Prop :=
| rm_start : remain n W S Start (fun t => S t /\ forall i, 0 <= i < n -> finite (t i))
| rm_yes l q T : remain n W S l T -> modest n W q -> (exists t, T t /\ meets n q t) ->
    remain n W S (Ask l q) (fun t => T t /\ meets n q t)
| rm_no l q T : remain n W S l T -> modest n W q -> (forall t, ~ (T t /\ meets n q t)) -> remain n W S (Ask l q) T.

(** ** Proofs *)

Section Plan.
Variables (p : profile) (C : Z) (g : graph) (W : Z).
Hypotheses (St : stored g) (Mn : minimal p g) (Co : exists t, solution p g t) (Sn : seen p C g).
Hypotheses (C0 : 0 <= C) (W0 : 0 <= W) (Sp : 4 * W + 9 * C < oo).

Let Me : mem_ok g := proj1 (stored_mem g) St.
Lemma plan_sp : W + 2 * C < oo.
Proof. lia. Qed.
Let Cl : closed (g_size g) (cell g) := seen_cl p C g W St Mn Co Sn C0 W0 plan_sp.
Let Pr : proper p g := seen_proper p C g W St Co Sn W0 plan_sp.
Let Bd : all_bnd (g_size g) C (cell g) := seen_bnd p C g Me Sn.

Lemma plan_box s : convex_session p g W s -> sc_graph s = g /\
  exists f u, forall i, 0 <= i < g_size g -> sc_scheduling s i = Some [mkI (f i) (- u i)] /\
    bnd (W + C) (f i) /\ bnd (W + C) (u i) /\ apart1 (f i) (u i) /\
    forall x, possible s i x <-> finite x /\ f i <= x <= - u i.
Proof.
  intros S'. destruct (convex_box p g C W Me Cl Bd C0 W0) with (s := s) as (f & u & Bo); [lia|auto|].
  pose proof Bo as (Eg & Bx). split; auto. exists f, u. intros i Hi.
  pose proof (b_slot _ _ _ _ _ Bx i Hi) as Sl. pose proof (b_len _ _ _ _ _ Bx) as Ln.
  split. { change [mkI (f i) (- u i)] with (piece (f i) (u i)). rewrite <- Sl. unfold sc_scheduling, sl.
    apply nth_error_nth'. lia. }
  split; [apply (h_bnd _ _ _ _ (b_low _ _ _ _ _ Bx) i Hi)|]. split; [apply (h_bnd _ _ _ _ (b_up _ _ _ _ _ Bx) i Hi)|].
  split; [apply (b_apart _ _ _ _ _ Bx i Hi)|]. intros x. apply (box_possible g (W + C) s f u); auto.
Qed.
Lemma plan_through X s i x : 2 * W + 2 * X + 7 * C < oo -> convex_session p g W s -> 0 <= i < g_size g ->
  Z.abs x <= X -> possible s i x -> exists t, schedule p s t /\ t i = x.
Proof.
  intros L Se. apply (C105_feasible_partial p C g W s St Mn Co Sn C0 W0 plan_sp Se). auto.
Qed.
Lemma plan_some s : convex_session p g W s -> exists t, schedule p s t.
Proof.
  intros Se. destruct (plan_box s Se) as (Eg & f & u & Bx). destruct (Z_lt_le_dec 0 (g_size g)) as [L|L].
  - destruct (Bx 0) as (_ & Bf & Bu & A & P); [lia|].
    set (x := if f 0 =? - oo then if u 0 =? - oo then 0 else - u 0 else f 0).
    assert (X : finite x /\ f 0 <= x <= - u 0 /\ Z.abs x <= W + C).
    { subst x. unfold finite, bnd, apart1, oo in *. tests; lia. }
    destruct (plan_through (W + C) s 0 x) as (t & S & _); eauto; try lia. apply P. tauto.
  - exists (fun _ => 0). split; [intros i j Ni|intros i Ni]; rewrite Eg in Ni; lia.
Qed.
Lemma plan_sched s : convex_session p g W s -> forall t, schedule p s t <->
  solution p g t /\ forall i, 0 <= i < g_size g -> possible s i (t i).
Proof. intros Se t. destruct (plan_box s Se) as (Eg & _). unfold schedule. rewrite Eg. tauto. Qed.

(** Each request *)
Lemma ask_exact s q : convex_session p g W s -> modest (g_size g) W q ->
  exists s' r, ask p s q = Ret (s', r) /\ convex_session p g W s' /\
    ((accepted r /\ (exists t, schedule p s t /\ meets (g_size g) q t) /\
      forall t, schedule p s' t <-> schedule p s t /\ meets (g_size g) q t) \/
     (r = Recovered /\ s' = s /\ forall t, ~ (schedule p s t /\ meets (g_size g) q t))).
Proof.
  intros Se Mo. pose proof plan_sp as sp. assert (Wl : W < oo) by lia.
  pose proof (convex_session_session p g W s Wl Se) as Ss. pose proof (plan_sched s Se) as Q.
  destruct (C105_calls_partial p C g W s St Mn Co Sn C0 W0 sp Se) as (K1 & K2 & K3).
  destruct q as [i c|d|d]; cbn [ask modest meets] in *.
  - destruct Mo as (Hi & Na). pose proof (narrow_window W c Na) as Wo.
    destruct (K1 i c Hi Na) as (s' & r & E & D & _). exists s', r. split; auto.
    pose proof (v_retain p g W s i c s' r Se (proj1 Hi) Na E) as Se'. split; auto. pose proof (plan_sched s' Se') as Q'.
    destruct D as [->|A]; [right|left].
    + destruct (C53_recovered p g s St Pr Ss i (WCx c) s' (proj1 Hi) Wo E) as (-> & N). split; auto. split; auto.
      intros t (X & Y). apply Q in X. apply (N (t i)); auto. apply X. auto.
    + split; auto.
      assert (G : forall t, schedule p s' t <-> schedule p s t /\ In_cx (t i) c).
      { intros t. split.
        - intros X. apply Q' in X. destruct X as (X1 & X2). split.
          + apply Q. split; auto. intros j Hj. apply (C52_shrinks p g s St Pr Ss i (WCx c) s' r j (t j)); auto; lia.
          + apply (C52_shrinks p g s St Pr Ss i (WCx c) s' r i (t i)); auto; lia.
        - intros (X & Y). apply (C52_retain p g s St Pr Ss i (WCx c) s' r t); auto. lia. }
      split; auto. destruct (plan_some s' Se') as (t & X). exists t. apply G. auto.
  - assert (Fd : finite d) by (unfold finite; lia). destruct (K2 d Mo) as (s' & r & E & D & _). exists s', r. split; auto.
    pose proof (v_deadline p g W s d s' r Se Mo E) as Se'. split; auto. pose proof (plan_sched s' Se') as Q'.
    destruct (C56_deadline_partial p g s St Pr Ss d s' r Fd E) as [(-> & -> & i & Hi & N)|(A & _ & K)]; [right|left].
    + split; auto. split; auto. intros t (X & Y). apply Q in X. specialize (N (t i) (proj2 X i Hi)). specialize (Y i Hi). lia.
    + split; auto.
      assert (G : forall t, schedule p s' t <-> schedule p s t /\ forall i, 0 <= i < g_size g -> t i <= d).
      { intros t. split.
        - intros X. apply Q' in X. destruct X as (X1 & X2). split; [apply Q; split; auto|]; intros j Hj; apply (K j (t j)); auto.
        - intros (X & Y). apply (C52_deadline p g s St Pr Ss d s' r t); auto. }
      split; auto. destruct (plan_some s' Se') as (t & X). exists t. apply G. auto.
  - assert (Fd : finite d) by (unfold finite; lia). destruct (K3 d Mo) as (s' & r & E & D & _). exists s', r. split; auto.
    pose proof (v_startline p g W s d s' r Se Mo E) as Se'. split; auto. pose proof (plan_sched s' Se') as Q'.
    destruct (C56_startline_partial p g s St Pr Ss d s' r Fd E) as [(-> & -> & i & Hi & N)|(A & _ & K)]; [right|left].
    + split; auto. split; auto. intros t (X & Y). apply Q in X. specialize (N (t i) (proj2 X i Hi)). specialize (Y i Hi). lia.
    + split; auto.
      assert (G : forall t, schedule p s' t <-> schedule p s t /\ forall i, 0 <= i < g_size g -> d <= t i).
      { intros t. split.
        - intros X. apply Q' in X. destruct X as (X1 & X2). split; [apply Q; split; auto|]; intros j Hj; apply (K j (t j)); auto.
        - intros (X & Y). apply (C52_startline p g s St Pr Ss d s' r t); auto. }
      split; auto. destruct (plan_some s' Se') as (t & X). exists t. apply G. auto.
Qed.
(** ... and the whole session *)
Lemma exec_exact S l T : (forall t, solution p g t <-> S t) -> remain (g_size g) W S l T ->
  exists s, exec p g l = Ret s /\ convex_session p g W s /\ forall t, schedule p s t <-> T t.
Proof.
  intros E H. induction H as [|l q T H (s & Ex & Se & Q) Mo Ok|l q T H (s & Ex & Se & Q) Mo No].
  - exists (sc_new g). split; auto. split; [constructor|]. intros t. rewrite plan_sched by constructor. rewrite E.
    split; intros (A & B); (split; [exact A|]); intros i Hi; apply (new_possible g i (t i) Me Hi); auto.
  - destruct (ask_exact s q Se Mo) as (s' & r & Ea & Se' & D). exists s'. cbn [exec]. rewrite Ex. cbn [bind]. rewrite Ea.
    split; auto. split; auto. destruct D as [(_ & _ & G)|(_ & _ & N)]; [intros t; rewrite G, Q; tauto|].
    destruct Ok as (t & X & Y). destruct (N t). split; auto. apply Q; auto.
  - destruct (ask_exact s q Se Mo) as (s' & r & Ea & Se' & D). exists s'. cbn [exec]. rewrite Ex. cbn [bind]. rewrite Ea.
    split; auto. split; auto. destruct D as [(_ & (t & X & Y) & _)|(_ & -> & _)]; [|auto].
    destruct (No t). split; auto. apply Q; auto.
Qed.
End Plan.

(** ** C115 *)

(** Partial: the reported intervals are within [C], the requests are intervals, deadlines and start
    lines within [W], and 4W + 9C is a time value; it is false for sets (C55_refuted) and beyond all
    margins (C54_overflow_refuted). *)
Section Theorems.
Variables (p : profile) (m : prog) (n : Z) (S : (Z -> Z) -> Prop) (C W : Z) (g : graph).
Hypotheses (H : means m n S) (R : run p m = Ret g) (Sn : seen p C g).
Hypotheses (C0 : 0 <= C) (W0 : 0 <= W) (Sp : 4 * W + 9 * C < oo).

Lemma plan_graph : stored g /\ minimal p g /\ (exists t, solution p g t) /\ g_size g = n /\ forall t, solution p g t <-> S t.
Proof.
  destruct (C110_program p m n S H) as (g' & R' & _ & (St & Sz & Mn & _ & Q) & t & T). rewrite R in R'. injection R' as <-.
  split; auto. split; auto. split; auto. exists t. apply Q. auto.
Qed.
(** The session returns, and its schedules are the dates that remain. *)
Theorem C115_plan_partial : forall l T, remain n W S l T ->
  exists s, exec p g l = Ret s /\ (exists t, T t) /\ forall t, schedule p s t <-> T t.
Proof.
  intros l T Rm. destruct plan_graph as (St & Mn & Co & Sz & Q). rewrite <- Sz in Rm.
  destruct (exec_exact p C g W St Mn Co Sn C0 W0 Sp S l T Q Rm) as (s & E & Se & G). exists s. split; auto. split; auto.
  destruct (plan_some p C g W St Mn Co Sn C0 W0 Sp s Se) as (t & X). exists t. apply G. auto.
Qed.
(** A request is accepted exactly if some of the dates that remain meet it. *)
Theorem C115_request_partial : forall l T q, remain n W S l T -> modest n W q ->
  exists s s' r, exec p g l = Ret s /\ ask p s q = Ret (s', r) /\
    (accepted r <-> exists t, T t /\ meets n q t) /\ (r = Recovered <-> forall t, T t -> ~ meets n q t).
Proof.
  intros l T q Rm Mo. destruct plan_graph as (St & Mn & Co & Sz & Q). rewrite <- Sz in Rm, Mo. rewrite <- Sz.
  destruct (exec_exact p C g W St Mn Co Sn C0 W0 Sp S l T Q Rm) as (s & E & Se & G).
  destruct (ask_exact p C g W St Mn Co Sn C0 W0 Sp s q Se Mo) as (s' & r & Ea & _ & D). exists s, s', r. split; auto. split; auto.
  destruct D as [(A & (t & X & Y) & _)|(-> & _ & N)].
  - apply G in X. split; [split; eauto|]. split; [intros ->; destruct A; discriminate|]. intros F. destruct (F t X Y).
  - split.
    + split; [intros [A|A]; discriminate|]. intros (t & X & Y). destruct (N t). split; auto. apply G; auto.
    + split; auto. intros _ t X Y. apply (N t). split; auto. apply G; auto.
Qed.
(** Each instant has one interval of dates: its finite ends are the first and the last possible date,
    and each date (at most [X]) is possible exactly if it is part of a choice that remains. *)
Theorem C115_dates_partial : forall l T i, remain n W S l T -> 0 <= i < n ->
  exists s iv, exec p g l = Ret s /\ sc_scheduling s i = Some [iv] /\
    (lower iv = - oo \/ (exists t, T t /\ t i = lower iv) /\ forall t, T t -> lower iv <= t i) /\
    (upper iv = oo \/ (exists t, T t /\ t i = upper iv) /\ forall t, T t -> t i <= upper iv) /\
    forall X x, 2 * W + 2 * X + 7 * C < oo -> Z.abs x <= X -> (lower iv <= x <= upper iv <-> exists t, T t /\ t i = x).
Proof.
  intros l T i Rm Hi. destruct plan_graph as (St & Mn & Co & Sz & Q). rewrite <- Sz in Rm, Hi.
  destruct (exec_exact p C g W St Mn Co Sn C0 W0 Sp S l T Q Rm) as (s & E & Se & G).
  destruct (plan_box p C g W St Mn Co Sn C0 W0 Sp s Se) as (Eg & f & u & Bx).
  destruct (Bx i Hi) as (Es & Bf & Bu & A & P). exists s, (mkI (f i) (- u i)). split; auto. split; auto. cbn [lower upper].
  assert (P' : forall t, T t -> f i <= t i <= - u i).
  { intros t X. apply G in X. apply (plan_sched p C g W St Mn Co Sn C0 W0 Sp s Se) in X. apply P. apply X. auto. }
  assert (Th : forall X x, 2 * W + 2 * X + 7 * C < oo -> Z.abs x <= X -> f i <= x <= - u i -> exists t, T t /\ t i = x).
  { intros X x L Hx In. destruct (plan_through p C g W St Mn Co Sn C0 W0 Sp X s i x) as (t & Y & Z0); auto.
    - apply P. split; auto. unfold finite. lia.
    - exists t. split; auto. apply G. auto. }
  split; [|split].
  - destruct Bf as [Bf|Bf]; [left; auto|right]. split; [|intros t X; apply P'; auto].
    apply (Th (W + C)); [lia|lia|]. unfold apart1, bnd in *. lia.
  - destruct Bu as [Bu|Bu]; [left; lia|right]. split; [|intros t X; apply P'; auto].
    apply (Th (W + C)); [lia|lia|]. unfold apart1, bnd in *. lia.
  - intros X x L Hx. split; [apply (Th X); auto|]. intros (t & Y & <-). apply P'. auto.
Qed.
End Theorems.

(** ** Example *)

(** Two instants about 2^59 ticks apart, ending before 0, starting after -2^59, the second one kept
    between -3 and 5; then the deadline -4 is refused. *)
Definition e_far : prog := Add New b01.
Definition g_far : graph := mkG 2 [0; - big; 0; big - 5].
Definition e_plan : plan := Ask (Ask (Ask (Ask Start (Until 0)) (Since (- big))) (Keep 1 (CRangeIncl (-3) 5))) (Until (-4)).
Example C115_case : exists S T, means e_far 2 S /\ remain 2 big S e_plan T /\ 4 * big + 9 * big < oo /\
  (forall t, T t <-> big - 5 <= t 1 - t 0 <= big /\ - big <= t 0 /\ -3 <= t 1 <= 0) /\
  forall p, run p e_far = Ret g_far /\ seen p big g_far /\
    exec p g_far e_plan = Ret (mkS g_far [[mkI (- big) (5 - big)]; [mkI (-3) 0]]).
Proof.
  assert (B : big = 576460752303423488) by reflexivity.
  set (S := fun t : Z -> Z => True /\ sat b01 t).
  assert (HS : means e_far 2 S).
  { apply (m_more New 0 (fun _ => True) b01); [constructor|unfold b01; rewrite B; goodk|cbn; lia..]. }
  assert (E : forall t, S t <-> big - 5 <= t 1 - t 0 <= big).
  { intros t. unfold S, sat, In_ext, b01. cbn [k_from k_to k_lo k_up lower upper]. rewrite B. unfold oo, INF, i64_max. lia. }
  assert (O : 100 * 1 < big /\ 13 * big < oo) by (rewrite B; split; reflexivity).
  set (u := fun i : Z => if i =? 1 then 0 else - big).
  assert (I2 : forall P : Z -> Prop, (forall i, 0 <= i < 2 -> P i) <-> P 0 /\ P 1).
  { intros P. split; [intros X; split; apply X; lia|]. intros (X & Y) i Hi. assert (i = 0 \/ i = 1) as [-> | ->] by lia; auto. }
  assert (Fi : forall x y, finite x /\ finite y <-> - oo < x < oo /\ - oo < y < oo) by (unfold finite; tauto).
  assert (U0 : u 0 = - big) by reflexivity. assert (U1 : u 1 = 0) by reflexivity.
  exists S, (fun t => (((S t /\ forall i, 0 <= i < 2 -> finite (t i)) /\ meets 2 (Until 0) t) /\ meets 2 (Since (- big)) t) /\
    meets 2 (Keep 1 (CRangeIncl (-3) 5)) t).
  assert (Q : forall t, ((((S t /\ forall i, 0 <= i < 2 -> finite (t i)) /\ meets 2 (Until 0) t) /\ meets 2 (Since (- big)) t) /\
    meets 2 (Keep 1 (CRangeIncl (-3) 5)) t) <-> big - 5 <= t 1 - t 0 <= big /\ - big <= t 0 /\ -3 <= t 1 <= 0).
  { intros t. cbn [meets]. rewrite E, !I2, Fi. unfold In_cx, finite. lia. }
  assert (Qu : (((S u /\ forall i, 0 <= i < 2 -> finite (u i)) /\ meets 2 (Until 0) u) /\ meets 2 (Since (- big)) u) /\
    meets 2 (Keep 1 (CRangeIncl (-3) 5)) u) by (apply Q; rewrite U0, U1; lia).
  split; auto. split; [|split; [lia|split; [exact Q|]]].
  - unfold e_plan. apply rm_no; [apply rm_yes; [apply rm_yes; [apply rm_yes; [apply rm_start| |]| |]| |]| |].
    + cbn. lia.
    + exists u. tauto.
    + cbn. lia.
    + exists u. tauto.
    + split; [lia|]. apply narrow_incl; lia.
    + exists u. exact Qu.
    + cbn. lia.
    + intros t (X & Y). apply Q in X. cbn [meets] in Y. rewrite I2 in Y. lia.
  - intros p. split; [destruct p; vm_compute; reflexivity|]. split; [|destruct p; vm_compute; reflexivity].
    apply bnd_seen; [vm_compute; repeat split; discriminate|]. intros i j Ni Nj. cbn [g_far g_size] in Ni, Nj. unfold node in *.
    assert (i = 0 \/ i = 1) as [-> | ->] by (clear - Ni; lia); assert (j = 0 \/ j = 1) as [-> | ->] by (clear - Nj; lia);
      right; split; vm_compute; discriminate.
Qed.
