(** C103: the numbers of the instants do not matter. *)
From Verif Require Import Machine TimeValue Spec Tac TimeValueProofs Interval Iter TimeSet Relns
  SpecSets SetProofs Prop_Interval Prop_TimeSet
  Graph SpecGraph GraphProofs GraphInv GraphHist GraphSound Prop_Graph Prop_Propagation
  Scheduler SpecSched SchedProofs SchedBox SchedConv Prop_Scheduler Prop_SchedConvex Prop_Direction.

(** [pi] gives new numbers to the instants below [n], and [sg] the old ones back. *)
Definition renaming (n : Z) (pi sg : Z -> Z) : Prop :=
  forall i, 0 <= i < n -> (0 <= pi i < n /\ sg (pi i) = i) /\ (0 <= sg i < n /\ pi (sg i) = i).
(** the same constraint with the new numbers *)
Definition rename (pi : Z -> Z) (k : kons) : kons :=
  mkK (pi (k_from k)) (pi (k_to k)) (k_empty k) (k_lo k) (k_up k).

Lemma sat_rename pi k t : sat (rename pi k) t <-> sat k (fun i => t (pi i)).
Proof. reflexivity. Qed.
Lemma sats_rename pi ks t : Forall (fun k => sat k t) (map (rename pi) ks) <->
  Forall (fun k => sat k (fun i => t (pi i))) ks.
Proof. rewrite Forall_map. reflexivity. Qed.
(** only the dates of the instants of the graph matter *)
Lemma sat_near n k t u : 0 <= k_from k < n -> 0 <= k_to k < n ->
  (forall i, 0 <= i < n -> t i = u i) -> sat k t <-> sat k u.
Proof. intros F T E. unfold sat. now rewrite !E by auto. Qed.
Lemma sats_near n ks t u : Forall (fun k => 0 <= k_from k < n /\ 0 <= k_to k < n) ks ->
  (forall i, 0 <= i < n -> t i = u i) -> Forall (fun k => sat k t) ks <-> Forall (fun k => sat k u) ks.
Proof.
  intros A E. rewrite !Forall_forall in *. split; intros F k Ik; specialize (A k Ik);
    specialize (F k Ik); eapply sat_near; try exact F; try apply A; firstorder.
Qed.
Lemma solution_near p g t u : (forall i, 0 <= i < g_size g -> t i = u i) ->
  solution p g t <-> solution p g u.
Proof.
  intros E. unfold solution. split; intros F i j Hi Hj; specialize (F i j Hi Hj).
  - now rewrite <- !E by auto.
  - now rewrite !E by auto.
Qed.
Lemma history_inside p N B ks g : room N B -> history p N B ks g ->
  Forall (fun k => 0 <= k_from k < g_size g /\ 0 <= k_to k < g_size g) ks.
Proof.
  intros R H. pose proof (history_inv _ _ _ _ _ R H) as I.
  pose proof (i_good _ _ _ _ I) as G. pose proof (i_inside _ _ _ _ I) as J.
  rewrite Forall_forall in *. intros k Ik. specialize (G k Ik). specialize (J k Ik).
  unfold good, inside in *. lia.
Qed.
Lemma rename_good N B n pi sg k : renaming n pi sg -> n <= N -> good N B k ->
  k_from k < n -> k_to k < n -> good N B (rename pi k).
Proof.
  intros Re L G F T. unfold good, rename in *. cbn [k_from k_to k_empty k_lo k_up].
  destruct (Re (k_from k)) as [[A _] _]; [lia|]. destruct (Re (k_to k)) as [[A' _] _]; [lia|].
  intuition lia.
Qed.

(** A set of constraints that can be satisfied makes a graph. *)
Lemma history_made p N B n ks t : room N B -> 0 <= n <= N -> Forall (good N B) ks ->
  Forall (fun k => k_from k < n /\ k_to k < n) ks -> Forall (fun k => sat k t) ks ->
  exists g, history p N B ks g /\ g_size g = n.
Proof.
  intros R Hn G In S. destruct (with_size_inv p N B n) as (g0 & E0 & S0 & I0); [apply R|auto|].
  pose proof (h_new p N B n g0 Hn E0) as H0.
  destruct (C44_extend_partial p N B [] g0 None ks R H0 G) as (g & r & E & A & _); [exact Logic.I|discriminate|].
  assert (Ac : accepted r).
  { apply A. exists t. split; [|exact S]. apply (C40_solutions_partial p N B [] g0 t R H0). constructor. }
  destruct (extend_any p N B [] g0 None ks R I0 G) as (g2 & r2 & E2 & C); [exact Logic.I|discriminate|].
  rewrite E in E2. injection E2 as <- <-.
  exists g. split.
  - rewrite <- (app_nil_r ks). exact (h_extend p N B [] g0 None ks g r H0 G Logic.I ltac:(discriminate) E Ac).
  - destruct C as [(_ & Sz & _)|[(X & _)|(X & _)]]; [|discriminate|subst r; destruct Ac; discriminate].
    rewrite Sz, S0. rewrite Forall_forall in In. pose proof (ksize_ge ks n). pose proof (ksize_le ks n n (Z.le_refl n) In). lia.
Qed.

(** ** Graphs *)

(** The constraints with the new numbers make a graph which reports the same intervals
    under the new numbers and answers the same to the constraints with the new numbers. *)
(** Partial: the limits of [room] and [history]. *)
Theorem C103_graph_partial : forall p N B ks g pi sg, room N B -> history p N B ks g ->
  renaming (g_size g) pi sg ->
  (exists g', history p N B (map (rename pi) ks) g' /\ g_size g' = g_size g) /\
  forall ks' g', history p N B ks' g' -> g_size g' = g_size g ->
  (forall k, In k ks' <-> In k (map (rename pi) ks)) ->
  (forall i j, 0 <= i < g_size g -> 0 <= j < g_size g ->
    exists iv, g_timespan p g i j = Ret iv /\ g_timespan p g' (pi i) (pi j) = Ret iv) /\
  (forall t, solution p g' t <-> solution p g (fun i => t (pi i))) /\
  (forall t, solution p g t <-> solution p g' (fun i => t (sg i))) /\
  forall k, good N B k -> inside g k -> exists h h' r, g_propagate p g k = Ret (h, r) /\
    g_propagate p g' (rename pi k) = Ret (h', r) /\
    (accepted r -> history p N B (k :: ks) h /\ history p N B (rename pi k :: ks') h' /\
       g_size h = g_size g /\ g_size h' = g_size g).
Proof.
  intros p N B ks g pi sg R H Re. pose proof (history_inv _ _ _ _ _ R H) as I.
  pose proof (history_inside p N B ks g R H) as In. pose proof (i_good _ _ _ _ I) as Go.
  assert (Back : forall u, Forall (fun k => sat k (fun i => u (sg (pi i)))) ks <-> Forall (fun k => sat k u) ks).
  { intros u. apply (sats_near (g_size g)); auto. intros i Hi. now rewrite (proj2 (proj1 (Re i Hi))). }
  split.
  { destruct (proj2 (proj2 (C40_solutions_partial p N B ks g (fun _ => 0) R H))) as (t & St).
    apply (C40_solutions_partial p N B ks g t R H) in St.
    apply (history_made p N B (g_size g) _ (fun i => t (sg i))); auto.
    - pose proof (i_size _ _ _ _ I). destruct (i_mem _ _ _ _ I). lia.
    - rewrite Forall_map. rewrite Forall_forall in *. intros k Ik. specialize (In k Ik).
      apply (rename_good N B (g_size g) pi sg); auto; try lia. apply I.
    - rewrite Forall_map. rewrite Forall_forall in *. intros k Ik. specialize (In k Ik).
      cbn [rename k_from k_to]. destruct (Re (k_from k)), (Re (k_to k)); lia.
    - apply sats_rename. now apply Back. }
  intros ks' g' H' Sz K.
  assert (Q : forall t, Forall (fun k => sat k t) ks' <-> Forall (fun k => sat k (fun i => t (pi i))) ks).
  { intros t. rewrite <- (sats_rename pi ks). rewrite !Forall_forall. split; intros F k Ik; apply F, K, Ik. }
  assert (Sol : forall t, solution p g' t <-> solution p g (fun i => t (pi i))).
  { intros t. rewrite (proj1 (C40_solutions_partial p N B ks' g' t R H')).
    rewrite (proj1 (C40_solutions_partial p N B ks g _ R H)). apply Q. }
  assert (Sol' : forall t, solution p g t <-> solution p g' (fun i => t (sg i))).
  { intros t. rewrite Sol. apply solution_near. intros i Hi. now rewrite (proj2 (proj1 (Re i Hi))). }
  split; [|split; [auto|split; [auto|]]].
  - intros i j Hi Hj.
    destruct (C40_minimal_partial p N B ks g R H i j Hi Hj) as (a & Ea & La & Xa).
    pose proof (proj1 (proj1 (Re i Hi))) as Hi'. pose proof (proj1 (proj1 (Re j Hj))) as Hj'.
    rewrite <- Sz in Hi', Hj'.
    destruct (C40_minimal_partial p N B ks' g' R H' _ _ Hi' Hj') as (b & Eb & Lb & Xb).
    pose proof (history_bounds p N B ks' g' _ _ b R H' Hi' Hj' Eb) as Bb.
    pose proof (history_bounds p N B ks g i j a R H Hi Hj Ea) as Ba.
    exists a. split; auto. rewrite Eb. f_equal.
    apply ext_unique; unfold valid in *; try lia.
    intros v. rewrite Xb, Xa. split; intros (t & F & E).
    + exists (fun i => t (pi i)). split; [now apply Q|exact E].
    + exists (fun i => t (sg i)). split; [apply Q, Back, F|].
      now rewrite (proj2 (proj1 (Re i Hi))), (proj2 (proj1 (Re j Hj))).
  - intros k G Ik.
    assert (Ik' : 0 <= k_from k < g_size g /\ 0 <= k_to k < g_size g) by (unfold good, inside in *; lia).
    assert (G' : good N B (rename pi k)) by (apply (rename_good N B (g_size g) pi sg); auto; try lia; apply I).
    assert (In' : inside g' (rename pi k)).
    { unfold inside, rename; cbn [k_from k_to]. rewrite Sz. destruct (Re (k_from k)), (Re (k_to k)); lia. }
    destruct (C41_exact_partial p N B ks g k R H G Ik) as (h & r & E & NF & Rec & _).
    destruct (C41_exact_partial p N B ks' g' (rename pi k) R H' G' In') as (h' & r' & E' & NF' & Rec' & _).
    destruct (C42_exact_partial p N B ks g k h r R H G Ik E) as (Un & _ & Pr).
    destruct (C42_exact_partial p N B ks' g' (rename pi k) h' r' R H' G' In' E') as (Un' & _ & Pr').
    assert (Sk : forall t, sat (rename pi k) (fun i => t (sg i)) <-> sat k t).
    { intros t. rewrite sat_rename. apply (sat_near (g_size g)); try lia.
      intros i Hi. now rewrite (proj2 (proj1 (Re i Hi))). }
    assert (r' = r).
    { assert (A1 : r = Recovered <-> r' = Recovered).
      { rewrite Rec, Rec'. split; intros F t [X Y].
        - apply (F (fun i => t (pi i))). rewrite <- Sol. split; auto.
        - apply (F (fun i => t (sg i))). rewrite <- Sol', Sk. auto. }
      assert (A2 : r = Unchanged <-> r' = Unchanged).
      { rewrite Un, Un'. split; intros F t X.
        - apply sat_rename, F. now rewrite <- Sol.
        - apply Sk, F. now rewrite <- Sol'. }
      destruct r, r'; try reflexivity; try congruence; exfalso; intuition congruence. }
    subst r'. exists h, h', r. split; auto. split; auto. intros A.
    pose proof (history_inv _ _ _ _ _ R H') as I'.
    destruct (propagate_inv p N B ks g k R I G Ik) as (h2 & r2 & E2 & S & _).
    destruct (propagate_inv p N B ks' g' (rename pi k) R I' G' In') as (h2' & r2' & E2' & S' & _).
    rewrite E in E2. rewrite E' in E2'. injection E2 as <- <-. injection E2' as <- <-.
    split; [eapply h_propagate; eauto|]. split; [eapply h_propagate; eauto|]. split; congruence.
Qed.

(** ** Schedulers *)

(** two sets of dates between bounds that agree on the near dates are the same *)
Lemma box_same (P Q : Z -> Prop) a b a' b' M X : 0 <= M -> M < X -> X < oo ->
  (forall x, P x <-> finite x /\ a <= x <= b) -> (forall x, Q x <-> finite x /\ a' <= x <= b') ->
  (a = - oo \/ Z.abs a <= M) -> (b = oo \/ Z.abs b <= M) ->
  (a' = - oo \/ Z.abs a' <= M) -> (b' = oo \/ Z.abs b' <= M) ->
  (forall x, Z.abs x <= X -> (Q x <-> P x)) -> forall x, Q x <-> P x.
Proof.
  intros M0 L Lo HP HQ A1 A2 A3 A4 Ag x.
  rewrite <- (Z.opp_involutive x) at 2.
  refine (box_agree (fun x => P (- x)) Q (- b) (- a) a' b' M X M0 L Lo _ HQ _ _ A3 A4 _ x); try lia.
  - intros y. rewrite HP. unfold finite. lia.
  - intros y Hy. rewrite Z.opp_involutive. auto.
Qed.
Lemma convex_graph p N B ks g W s : room N B -> history p N B ks g -> 0 <= W -> W + 2 * (N * B) < oo ->
  convex_session p g W s -> sc_graph s = g.
Proof.
  intros R H W0 Sp Se. pose proof (c0 N B R) as K0.
  destruct (convex_box p g (N * B) W (i_mem _ _ _ _ (history_inv _ _ _ _ _ R H)) (cl p N B ks g R H) (bd p N B ks g R H) K0 W0)
    with (s := s) as (f & u & Eg & _); auto. lia.
Qed.

(** Two schedulers with the same dates, but for the numbers of the instants, accept the same
    restrictions and have the same dates afterwards. *)
(** Partial: restrictions by intervals within [W], graphs with the margins of [room]. *)
Theorem C103_scheduler_partial : forall p N B ks ks' g g' pi sg W s s' i c, room N B ->
  history p N B ks g -> history p N B ks' g' -> g_size g' = g_size g -> renaming (g_size g) pi sg ->
  (forall k, In k ks' <-> In k (map (rename pi) ks)) ->
  0 <= W -> 4 * W + 9 * (N * B) + 2 < oo ->
  convex_session p g W s -> convex_session p g' W s' ->
  (forall j x, 0 <= j < g_size g -> (possible s' (pi j) x <-> possible s j x)) ->
  0 <= i < g_size g -> narrow W c ->
  exists t t' r r', sc_retain p s i (WCx c) = Ret (t, r) /\ sc_retain p s' (pi i) (WCx c) = Ret (t', r') /\
    (accepted r <-> accepted r') /\
    (accepted r -> forall j x, 0 <= j < g_size g -> (possible t' (pi j) x <-> possible t j x)).
Proof.
  intros p N B ks ks' g g' pi sg W s s' i c R H H' Sz Re K W0 Sp Se Se' Ag Hi Na.
  pose proof (c0 N B R) as K0.
  destruct (C103_graph_partial p N B ks g pi sg R H Re) as (_ & Gr).
  destruct (Gr ks' g' H' Sz K) as (_ & Sol & Sol' & _). clear Gr.
  assert (Rn : forall j, 0 <= j < g_size g -> 0 <= pi j < g_size g') by (intros j Hj; rewrite Sz; apply (Re j Hj)).
  pose proof (Rn i Hi) as Hi'.
  destruct (C54_retain_partial p N B ks g W s R H W0) with (i := i) (c := c) as (t & r & E & Sh & A); auto; [lia|].
  destruct (C54_retain_partial p N B ks' g' W s' R H' W0) with (i := pi i) (c := c) as (t' & r' & E' & Sh' & A'); auto; [lia|].
  exists t, t', r, r'. split; auto. split; auto.
  assert (Aa : accepted r <-> accepted r').
  { rewrite A, A'. split; intros (x & X & Y); exists x; (split; [|exact Y]); now apply Ag. }
  split; auto. intros Ac j x Hj. pose proof (proj1 Aa Ac) as Ac'. revert x.
  pose proof (Rn j Hj) as Hj'.
  pose proof (v_retain p g W s i c t r Se (proj1 Hi) Na E) as St.
  pose proof (v_retain p g' W s' (pi i) c t' r' Se' (proj1 Hi') Na E') as St'.
  destruct (box_far p N B ks g W t R H W0 ltac:(lia) St j Hj) as (a & b & P & B1 & B2).
  destruct (box_far p N B ks' g' W t' R H' W0 ltac:(lia) St' (pi j) Hj') as (a' & b' & P' & B1' & B2').
  apply (box_same (possible t j) (possible t' (pi j)) a b a' b' (W + N * B) (W + N * B + 1)); auto; try lia.
  pose proof (convex_graph p N B ks g W s R H W0 ltac:(lia) Se) as Gs.
  pose proof (convex_graph p N B ks' g' W s' R H' W0 ltac:(lia) Se') as Gs'.
  intros x Hx.
  rewrite (C54_exact_partial p N B ks g W s R H W0 ltac:(lia) Se (W + N * B + 1) i c t r ltac:(lia) Na Hi E Ac j x Hj ltac:(lia)).
  rewrite (C54_exact_partial p N B ks' g' W s' R H' W0 ltac:(lia) Se' (W + N * B + 1) (pi i) c t' r' ltac:(lia) Na Hi' E' Ac' (pi j) x Hj' ltac:(lia)).
  split; intros (u & (X1 & X2) & Y & Z).
  - exists (fun k => u (pi k)). split; [|split; auto]. split.
    + rewrite Gs, <- Sol, <- Gs'. exact X1.
    + rewrite Gs. intros k Hk. apply Ag; auto. apply X2. rewrite Gs'. auto.
  - exists (fun k => u (sg k)). rewrite (proj2 (proj1 (Re i Hi))), (proj2 (proj1 (Re j Hj))).
    split; [|split; auto]. split.
    + rewrite Gs', <- Sol', <- Gs. exact X1.
    + rewrite Gs', Sz. intros k Hk. destruct (Re k Hk) as (_ & S1 & S2). rewrite <- S2 at 1.
      apply Ag; auto. apply X2. rewrite Gs. exact S1.
Qed.

(** Numbers exchanged in pairs *)
Definition swap01 (i : Z) : Z := if i =? 0 then 1 else if i =? 1 then 0 else i.
Lemma swap01_renaming n : 2 <= n -> renaming n swap01 swap01.
Proof. intros L i Hi. unfold swap01. tests; lia. Qed.
Example C103_graph_case : room 3 10 /\ history Debug 3 10 [k12; k01] h3 /\ renaming 3 swap01 swap01 /\
  g_extend Debug (mkG 3 [0; - oo; 0; - oo; - oo; - oo; 0; - oo; - oo]) None
    [rename swap01 k12; rename swap01 k01] = Ret (mkG 3 [0; 5; 0; - 10; - 8; - 18; 0; 12; 7], Propagated).
Proof.
  split; [exact room3|]. split; [apply h3_history; lia|]. split; [apply swap01_renaming; lia|].
  vm_compute. reflexivity.
Qed.
Definition gAr : graph := mkG 3 [0; 3; 0; - 48; - 60; - 108; 0; 3; 0].
Lemma histAr p : history p 3 200 (map (rename swap01) ksA) gAr.
Proof.
  unfold ksA. cbn [map rename]. two_steps p (rename swap01 (kk 0 1 3 48)) (rename swap01 (kk 1 2 0 60))
    (mkG 3 [0; - oo; 0; - oo; - oo; - oo; 0; - oo; - oo]) (mkG 3 [0; 3; 0; - 48; - oo; - oo; 0; - oo; - oo]).
  all: change (rename swap01 (kk 0 1 3 48)) with (mkK 1 0 false 3 48);
    change (rename swap01 (kk 1 2 0 60)) with (mkK 0 2 false 0 60);
    unfold good, wf_iv, within, inside, oo; simpl; lia.
Qed.
Example C103_scheduler_case : forall p, room 3 200 /\ history p 3 200 ksA gA /\
  history p 3 200 (map (rename swap01) ksA) gAr /\ renaming 3 swap01 swap01 /\
  convex_session p gA 1000 (sc_new gA) /\ convex_session p gAr 1000 (sc_new gAr) /\
  (forall j x, 0 <= j < g_size gA -> (possible (sc_new gAr) (swap01 j) x <-> possible (sc_new gA) j x)) /\
  narrow 1000 (CRangeIncl 5 50) /\
  sc_retain p (sc_new gA) 0 (WCx (CRangeIncl 5 50)) =
    Ret (mkS gA [[mkI 5 50]; [mkI 8 98]; [mkI 8 158]], Propagated) /\
  sc_retain p (sc_new gAr) 1 (WCx (CRangeIncl 5 50)) =
    Ret (mkS gAr [[mkI 8 98]; [mkI 5 50]; [mkI 8 158]], Propagated).
Proof.
  intros p. split; [apply room_3|]. split; [apply histA|]. split; [apply histAr|].
  split; [apply swap01_renaming; lia|]. split; [constructor|]. split; [constructor|]. split.
  { intros j x Hj. assert (J : j = 0 \/ j = 1 \/ j = 2) by (cbn in Hj; lia).
    unfold possible. destruct J as [-> |[-> | ->]]; reflexivity. }
  split; [apply narrow_incl; unfold oo; lia|]. destruct p; vm_compute; auto.
Qed.
