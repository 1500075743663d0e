(** C104: the unit of time does not matter. *)
From Verif Require Import Machine TimeValue Spec Tac TimeValueProofs Interval Iter TimeSet Relns
  SpecSets SetProofs Prop_Interval Prop_TimeSet
  Graph MaxPlus SpecGraph GraphProofs GraphInv GraphHist GraphSound Prop_Graph Prop_Propagation
  Scheduler SpecSched SchedProofs SchedBox SchedConv Prop_Scheduler Prop_SchedConvex Prop_Direction
  Prop_SchedOrder Prop_SchedGraph Prop_Rename.

(** A bound and a constraint, with [c] ticks for each former tick *)
Definition finer (c v : Z) : Z := if Z.abs v =? oo then v else c * v.
Definition finer_iv (c : Z) (i : interval) : interval := mkI (finer c (lower i)) (finer c (upper i)).
Definition finer_k (c : Z) (k : kons) : kons :=
  mkK (k_from k) (k_to k) (k_empty k) (finer c (k_lo k)) (finer c (k_up k)).
(** The former ticks just before and just after a date *)
Definition before (c x : Z) : Z := x / c.
Definition after (c x : Z) : Z := - ((- x) / c).

(** ** Dates *)

Lemma before_after c x : 0 < c -> before c x <= after c x <= before c x + 1 /\
  c * before c x <= x <= c * after c x.
Proof.
  intros P. unfold before, after.
  pose proof (Z.div_mod x c ltac:(lia)) as D. pose proof (Z.mod_pos_bound x c P) as M.
  pose proof (Z.div_mod (- x) c ltac:(lia)) as D'. pose proof (Z.mod_pos_bound (- x) c P) as M'.
  set (q := x / c) in *. set (q' := - x / c) in *. clearbody q q'. nia.
Qed.
Lemma before_close c x : 0 < c -> x < c * (before c x + 1) /\ c * (after c x - 1) < x.
Proof.
  intros P. unfold before, after.
  pose proof (Z.div_mod x c ltac:(lia)) as D. pose proof (Z.mod_pos_bound x c P) as M.
  pose proof (Z.div_mod (- x) c ltac:(lia)) as D'. pose proof (Z.mod_pos_bound (- x) c P) as M'.
  set (q := x / c) in *. set (q' := - x / c) in *. clearbody q q'. split; [clear D' M'; lia|clear D M; lia].
Qed.
Lemma before_mono c x y : 0 < c -> x <= y -> before c x <= before c y.
Proof. intros P L. unfold before. apply Z.div_le_mono; lia. Qed.
Lemma after_mono c x y : 0 < c -> x <= y -> after c x <= after c y.
Proof. intros P L. unfold after. pose proof (Z.div_le_mono (- y) (- x) c P). lia. Qed.
Lemma before_mul c q : 0 < c -> before c (c * q) = q.
Proof. intros P. unfold before. rewrite Z.mul_comm. apply Z.div_mul. lia. Qed.
Lemma after_mul c q : 0 < c -> after c (c * q) = q.
Proof.
  intros P. unfold after. replace (- (c * q)) with ((- q) * c) by ring.
  rewrite Z.div_mul by lia. lia.
Qed.
Lemma before_gap c x y a : 0 < c -> c * a <= y - x -> a <= before c y - before c x.
Proof.
  intros P L. pose proof (before_mono c (x + a * c) y P ltac:(lia)) as M.
  unfold before in *. rewrite Z.div_add in M by lia. lia.
Qed.
Lemma after_gap c x y a : 0 < c -> c * a <= y - x -> a <= after c y - after c x.
Proof.
  intros P L. pose proof (before_gap c (- y) (- x) a P ltac:(lia)). unfold before, after in *. lia.
Qed.

(** ** Constraints *)

(** The bounds can be multiplied. *)
Definition fits (c : Z) (i : interval) : Prop :=
  (lower i = - oo \/ Z.abs (c * lower i) < oo) /\ (upper i = oo \/ Z.abs (c * upper i) < oo).
Lemma finer_lo c a v : 0 < c -> (a = - oo \/ Z.abs (c * a) < oo) ->
  (finer c a = - oo \/ finer c a <= v) <-> (a = - oo \/ c * a <= v).
Proof.
  intros P A. unfold finer. destruct (Z.eqb_spec (Z.abs a) oo) as [E|E].
  - destruct A as [A|A]; [tauto|]. exfalso. clear v. nia.
  - destruct A as [A|A].
    + exfalso. apply E. rewrite A. reflexivity.
    + split; intros [H|H]; auto; exfalso; [rewrite H in A; revert A; apply Z.lt_irrefl|].
      apply E. rewrite H. reflexivity.
Qed.
Lemma finer_up c b v : 0 < c -> (b = oo \/ Z.abs (c * b) < oo) ->
  (finer c b = oo \/ v <= finer c b) <-> (b = oo \/ v <= c * b).
Proof.
  intros P A. unfold finer. destruct (Z.eqb_spec (Z.abs b) oo) as [E|E].
  - destruct A as [A|A]; [tauto|]. exfalso. clear v. nia.
  - destruct A as [A|A].
    + exfalso. apply E. rewrite A. reflexivity.
    + split; intros [H|H]; auto; exfalso; [rewrite H in A; revert A; apply Z.lt_irrefl|].
      apply E. rewrite H. reflexivity.
Qed.
Lemma finer_in c i v : 0 < c -> fits c i -> In_ext v (finer_iv c i) <->
  (lower i = - oo \/ c * lower i <= v) /\ (upper i = oo \/ v <= c * upper i).
Proof.
  intros P (A & B). unfold In_ext, finer_iv. cbn [lower upper].
  rewrite finer_lo, finer_up by auto. reflexivity.
Qed.
Lemma fits_k N B c k : 0 < c -> c * B < oo -> good N B k -> fits c (mkI (k_lo k) (k_up k)).
Proof.
  intros P L (_ & Wf & _ & _ & W1 & W2). unfold fits, within, wf_iv in *. cbn [lower upper] in *.
  split.
  - destruct W1 as [W1|W1]; [right; nia|left; lia].
  - destruct W2 as [W2|W2]; [right; nia|left; lia].
Qed.
(** A solution with the new ticks gives two with the former ones. *)
Lemma sat_before c k t e : 0 < c -> fits c (mkI (k_lo k) (k_up k)) -> sat (finer_k c k) t ->
  sat k (fun i => before c (t i - e)).
Proof.
  intros P F S. unfold sat in *. cbn [finer_k k_from k_to k_lo k_up] in S.
  change (mkI (finer c (k_lo k)) (finer c (k_up k))) with (finer_iv c (mkI (k_lo k) (k_up k))) in S.
  rewrite finer_in in S by auto. unfold In_ext. cbn [lower upper] in *. destruct S as (A & B). split.
  - destruct A as [A|A]; [auto|right]. apply before_gap; auto. lia.
  - destruct B as [B|B]; [auto|right].
    pose proof (before_gap c (t (k_to k) - e) (t (k_from k) - e) (- k_up k) P ltac:(lia)). lia.
Qed.
Lemma sat_after c k t e : 0 < c -> fits c (mkI (k_lo k) (k_up k)) -> sat (finer_k c k) t ->
  sat k (fun i => after c (t i - e)).
Proof.
  intros P F S. unfold sat in *. cbn [finer_k k_from k_to k_lo k_up] in S.
  change (mkI (finer c (k_lo k)) (finer c (k_up k))) with (finer_iv c (mkI (k_lo k) (k_up k))) in S.
  rewrite finer_in in S by auto. unfold In_ext. cbn [lower upper] in *. destruct S as (A & B). split.
  - destruct A as [A|A]; [auto|right]. apply after_gap; auto. lia.
  - destruct B as [B|B]; [auto|right].
    pose proof (after_gap c (t (k_to k) - e) (t (k_from k) - e) (- k_up k) P ltac:(lia)). lia.
Qed.
(** Two solutions with the former ticks give one with the new ones. *)
Definition mix (c r : Z) (t u : Z -> Z) (i : Z) : Z := (c - r) * t i + r * u i.
Lemma sat_mix c r k t u : 0 < c -> 0 <= r < c -> fits c (mkI (k_lo k) (k_up k)) -> sat k t -> sat k u ->
  sat (finer_k c k) (mix c r t u).
Proof.
  intros P Hr F S S'. unfold sat in *. cbn [finer_k k_from k_to k_lo k_up].
  change (mkI (finer c (k_lo k)) (finer c (k_up k))) with (finer_iv c (mkI (k_lo k) (k_up k))).
  rewrite finer_in by auto. unfold In_ext, mix in *. cbn [lower upper] in *.
  replace ((c - r) * t (k_to k) + r * u (k_to k) - ((c - r) * t (k_from k) + r * u (k_from k)))
    with ((c - r) * (t (k_to k) - t (k_from k)) + r * (u (k_to k) - u (k_from k))) by ring.
  set (d := t (k_to k) - t (k_from k)) in *. set (d' := u (k_to k) - u (k_from k)) in *. clearbody d d'.
  destruct S as (A & B), S' as (A' & B'). split.
  - destruct A as [A|A]; [auto|]. destruct A' as [A'|A']; [auto|]. right. nia.
  - destruct B as [B|B]; [auto|]. destruct B' as [B'|B']; [auto|]. right. nia.
Qed.
Lemma sat_finer c k t : 0 < c -> fits c (mkI (k_lo k) (k_up k)) ->
  sat (finer_k c k) (fun i => c * t i) <-> sat k t.
Proof.
  intros P F. split; intros S.
  - apply (sat_before c k _ 0 P F) in S. unfold sat in *. cbv beta in S.
    rewrite !Z.sub_0_r, !before_mul in S by auto. exact S.
  - pose proof (sat_mix c 0 k t t P ltac:(lia) F S S) as M. unfold sat, mix in *. cbv beta in *.
    rewrite !Z.sub_0_r, !Z.mul_0_l, !Z.add_0_r in M. exact M.
Qed.
Lemma sats_finer N B c ks (t : Z -> Z) : 0 < c -> c * B < oo -> Forall (good N B) ks ->
  Forall (fun k => sat k (fun i => c * t i)) (map (finer_k c) ks) <-> Forall (fun k => sat k t) ks.
Proof.
  intros P L G. rewrite Forall_map, !Forall_forall in *.
  split; intros F k Ik; specialize (F k Ik); pose proof (fits_k N B c k P L (G k Ik)); now apply (sat_finer c k t).
Qed.
Lemma sats_before N B c ks t e : 0 < c -> c * B < oo -> Forall (good N B) ks ->
  Forall (fun k => sat k t) (map (finer_k c) ks) -> Forall (fun k => sat k (fun i => before c (t i - e))) ks.
Proof.
  intros P L G. rewrite Forall_map, !Forall_forall in *.
  intros F k Ik. apply sat_before; auto. eapply fits_k; eauto.
Qed.
Lemma sats_after N B c ks t e : 0 < c -> c * B < oo -> Forall (good N B) ks ->
  Forall (fun k => sat k t) (map (finer_k c) ks) -> Forall (fun k => sat k (fun i => after c (t i - e))) ks.
Proof.
  intros P L G. rewrite Forall_map, !Forall_forall in *.
  intros F k Ik. apply sat_after; auto. eapply fits_k; eauto.
Qed.
Lemma sats_mix N B c r ks t u : 0 < c -> 0 <= r < c -> c * B < oo -> Forall (good N B) ks ->
  Forall (fun k => sat k t) ks -> Forall (fun k => sat k u) ks ->
  Forall (fun k => sat k (mix c r t u)) (map (finer_k c) ks).
Proof.
  intros P Hr L G F F'. rewrite Forall_map, !Forall_forall in *.
  intros k Ik. apply sat_mix; auto. eapply fits_k; eauto.
Qed.
Lemma finer_bound B c v : 0 < c -> c * B < oo -> within B v -> within (c * B) (finer c v) /\
  (Z.abs v = oo /\ finer c v = v \/ Z.abs (c * v) < oo /\ finer c v = c * v).
Proof.
  intros P L W. unfold within, finer in *. destruct (Z.eqb_spec (Z.abs v) oo) as [E|E].
  - split; [right; auto|left; auto].
  - destruct W as [W|W]; [|contradiction]. assert (Z.abs (c * v) <= c * B) by (clear - P W; nia).
    split; [left; auto|right; split; auto; lia].
Qed.
Lemma finer_good N B c k : 0 < c -> c * B < oo -> good N B k -> good N (c * B) (finer_k c k).
Proof.
  intros P L (E & Wf & Hf & Ht & W1 & W2).
  assert (O : 0 < oo) by reflexivity. unfold wf_iv in Wf. cbn [lower upper] in Wf.
  assert (M : k_lo k <= k_up k -> c * k_lo k <= c * k_up k) by (clear - P; nia).
  destruct (finer_bound B c (k_lo k) P L W1) as (Q1 & [(A1 & A2)|(A1 & A2)]),
    (finer_bound B c (k_up k) P L W2) as (Q2 & [(A3 & A4)|(A3 & A4)]);
    unfold good, finer_k, wf_iv; cbn [k_from k_to k_empty k_lo k_up lower upper];
    (split; [exact E|split; [|split; [exact Hf|split; [exact Ht|split; [exact Q1|exact Q2]]]]]);
    rewrite A2, A4; lia.
Qed.
Lemma sat_both c k t : 0 < c -> fits c (mkI (k_lo k) (k_up k)) ->
  sat k (fun i => before c (t i - t (k_from k))) -> sat k (fun i => after c (t i - t (k_from k))) ->
  sat (finer_k c k) t.
Proof.
  intros P F S S'. unfold sat in *. cbn [finer_k k_from k_to k_lo k_up].
  change (mkI (finer c (k_lo k)) (finer c (k_up k))) with (finer_iv c (mkI (k_lo k) (k_up k))).
  rewrite finer_in by auto. unfold In_ext in *. cbn [lower upper] in *.
  rewrite Z.sub_diag in S, S'. replace (before c 0) with 0 in S by reflexivity.
  replace (after c 0) with 0 in S' by reflexivity. rewrite Z.sub_0_r in S, S'.
  pose proof (before_after c (t (k_to k) - t (k_from k)) P) as (_ & L).
  destruct S as (A & _), S' as (_ & B). split.
  - destruct A as [A|A]; [auto|right; nia].
  - destruct B as [B|B]; [auto|right; nia].
Qed.
Lemma room_coarse N B c : 0 < c -> room N (c * B) -> room N B /\ c * B < oo /\ c * (N * B) < oo.
Proof.
  unfold room. intros P (L & Hn & M). assert (0 <= B) by nia. assert (B <= c * B) by nia.
  repeat split; try lia; nia.
Qed.
Lemma history_far p N B ks g i j iv : room N B -> history p N B ks g ->
  0 <= i < g_size g -> 0 <= j < g_size g -> g_timespan p g i j = Ret iv ->
  (lower iv = - oo \/ Z.abs (lower iv) <= N * B) /\ (upper iv = oo \/ Z.abs (upper iv) <= N * B).
Proof.
  intros R H Hi Hj E. pose proof (history_inv _ _ _ _ _ R H) as I.
  pose proof (bd p N B ks g R H i j Hi Hj) as X. pose proof (bd p N B ks g R H j i Hj Hi) as Y.
  rewrite timespan_ok in E by (auto; apply I). injection E as <-. cbn [lower upper]. unfold bnd in *. lia.
Qed.

(** ** Graphs *)

(** The constraints in finer ticks make a graph which reports the intervals in finer ticks, has
    the solutions in finer ticks and answers the same. *)
(** Partial: the limits of [room] and [history], for the finer ticks. *)
Theorem C104_graph_partial : forall p N B c ks g, 0 < c -> room N (c * B) -> history p N B ks g ->
  (exists g', history p N (c * B) (map (finer_k c) ks) g' /\ g_size g' = g_size g) /\
  forall ks' g', history p N (c * B) ks' g' -> g_size g' = g_size g ->
  (forall k, In k ks' <-> In k (map (finer_k c) ks)) ->
  (forall i j, 0 <= i < g_size g -> 0 <= j < g_size g ->
    exists iv, g_timespan p g i j = Ret iv /\ g_timespan p g' i j = Ret (finer_iv c iv)) /\
  (forall t, solution p g t <-> solution p g' (fun i => c * t i)) /\
  (forall t, solution p g' t -> solution p g (fun i => before c (t i)) /\ solution p g (fun i => after c (t i))) /\
  forall k, good N B k -> inside g k -> exists h h' r, g_propagate p g k = Ret (h, r) /\
    g_propagate p g' (finer_k c k) = Ret (h', r) /\
    (accepted r -> history p N B (k :: ks) h /\ history p N (c * B) (finer_k c k :: ks') h' /\
       g_size h = g_size g /\ g_size h' = g_size g).
Proof.
  intros p N B c ks g P R' H. destruct (room_coarse N B c P R') as (R & L1 & L2).
  pose proof (history_inv _ _ _ _ _ R H) as I.
  pose proof (history_inside p N B ks g R H) as In. pose proof (i_good _ _ _ _ I) as Go.
  split.
  { destruct (proj2 (proj2 (C40_solutions_partial p N B ks g (fun _ => 0) R H))) as (t & St).
    apply (C40_solutions_partial p N B ks g t R H) in St.
    apply (history_made p N (c * B) (g_size g) _ (fun i => c * t i)); auto.
    - pose proof (i_size _ _ _ _ I). destruct (i_mem _ _ _ _ I). lia.
    - rewrite Forall_map. rewrite Forall_forall in *. intros k Ik. apply finer_good; auto.
    - rewrite Forall_map. rewrite Forall_forall in *. intros k Ik. specialize (In k Ik). cbn. lia.
    - now apply (sats_finer N B). }
  intros ks' g' H' Sz K.
  assert (Q : forall t, Forall (fun k => sat k t) ks' <-> Forall (fun k => sat k t) (map (finer_k c) ks)).
  { intros t. rewrite !Forall_forall. split; intros F k Ik; apply F, K, Ik. }
  assert (Sol : forall t, solution p g t <-> solution p g' (fun i => c * t i)).
  { intros t. rewrite (proj1 (C40_solutions_partial p N (c * B) ks' g' _ R' H')).
    rewrite (proj1 (C40_solutions_partial p N B ks g _ R H)), Q.
    now rewrite (sats_finer N B c ks t P L1 Go). }
  assert (Be : forall t e, solution p g' t -> solution p g (fun i => before c (t i - e))).
  { intros t e. rewrite (proj1 (C40_solutions_partial p N (c * B) ks' g' _ R' H')).
    rewrite (proj1 (C40_solutions_partial p N B ks g _ R H)), Q. now apply (sats_before N B). }
  assert (Af : forall t e, solution p g' t -> solution p g (fun i => after c (t i - e))).
  { intros t e. rewrite (proj1 (C40_solutions_partial p N (c * B) ks' g' _ R' H')).
    rewrite (proj1 (C40_solutions_partial p N B ks g _ R H)), Q. now apply (sats_after N B). }
  split; [|split; [auto|split]].
  - intros i j Hi Hj.
    destruct (C40_minimal_partial p N B ks g R H i j Hi Hj) as (a & Ea & La & Xa).
    assert (Hi' : 0 <= i < g_size g') by lia. assert (Hj' : 0 <= j < g_size g') by lia.
    destruct (C40_minimal_partial p N (c * B) ks' g' R' H' _ _ Hi' Hj') as (b & Eb & Lb & Xb).
    pose proof (history_bounds p N (c * B) ks' g' _ _ b R' H' Hi' Hj' Eb) as Bb.
    pose proof (history_bounds p N B ks g i j a R H Hi Hj Ea) as Ba.
    pose proof (history_far p N B ks g i j a R H Hi Hj Ea) as Fa.
    assert (Fi : fits c a) by (unfold fits; destruct Fa as ([?|?] & [?|?]); split; auto; right; nia).
    exists a. split; auto. rewrite Eb. f_equal.
    assert (V : forall v, In_ext v b <-> In_ext v (finer_iv c a)).
    { intros v. rewrite Xb, finer_in by auto. split.
      - intros (t & F & E). apply Q in F.
        assert (X1 : In_ext (before c v) a).
        { apply Xa. exists (fun k => before c (t k - t i)).
          split; [now apply (sats_before N B)|]. rewrite Z.sub_diag, E. unfold before at 2. rewrite Z.div_0_l; lia. }
        assert (X2 : In_ext (after c v) a).
        { apply Xa. exists (fun k => after c (t k - t i)).
          split; [now apply (sats_after N B)|]. rewrite Z.sub_diag, E. unfold after at 2. rewrite Z.div_0_l; lia. }
        pose proof (before_after c v P) as (_ & Lv). unfold In_ext in *.
        destruct X1 as ([?|?] & _), X2 as (_ & [?|?]); split; auto; right; nia.
      - intros (V1 & V2).
        assert (X1 : In_ext (before c v) a).
        { split.
          - destruct V1 as [?|V1]; [auto|right]. rewrite <- (before_mul c (lower a) P). now apply before_mono.
          - destruct V2 as [?|V2]; [auto|right]. rewrite <- (before_mul c (upper a) P). now apply before_mono. }
        assert (X2 : In_ext (after c v) a).
        { split.
          - destruct V1 as [?|V1]; [auto|right]. rewrite <- (after_mul c (lower a) P). now apply after_mono.
          - destruct V2 as [?|V2]; [auto|right]. rewrite <- (after_mul c (upper a) P). now apply after_mono. }
        apply Xa in X1. apply Xa in X2. destruct X1 as (t & F & E), X2 as (u & F' & E').
        exists (mix c (v - c * before c v) t u).
        assert (Hr : 0 <= v - c * before c v < c).
        { unfold before. pose proof (Z.mod_pos_bound v c P). pose proof (Z.div_mod v c ltac:(lia)). lia. }
        split; [apply Q, (sats_mix N B); auto|]. unfold mix.
        pose proof (before_after c v P) as (Y1 & Y2).
        replace ((c - (v - c * before c v)) * t j + (v - c * before c v) * u j -
          ((c - (v - c * before c v)) * t i + (v - c * before c v) * u i))
          with ((c - (v - c * before c v)) * (t j - t i) + (v - c * before c v) * (u j - u i)) by ring.
        rewrite E, E'. set (q := before c v) in *. set (q' := after c v) in *. clearbody q q'.
        assert (Z : q' = q \/ q' = q + 1) by lia. destruct Z as [-> | ->]; nia. }
    pose proof Fi as (F1 & F2). assert (O : 0 < oo) by reflexivity.
    assert (finer c (lower a) < oo /\ - oo <= finer c (lower a) /\ - oo < finer c (upper a) /\ finer c (upper a) <= oo).
    { unfold finer, valid in *. tests; lia. }
    assert (finer c (lower a) <= finer c (upper a)).
    { assert (M : c * lower a <= c * upper a) by nia. unfold finer, valid in *. tests; lia. }
    apply ext_unique; unfold valid in *; cbn [finer_iv lower upper]; try lia. exact V.
  - intros t St. split.
    + apply (solution_near p g (fun i => before c (t i - 0))); [intros; now rewrite Z.sub_0_r|auto].
    + apply (solution_near p g (fun i => after c (t i - 0))); [intros; now rewrite Z.sub_0_r|auto].
  - intros k G Ik. pose proof (fits_k N B c k P L1 G) as Fi.
    pose proof (finer_good N B c k P L1 G) as G'.
    assert (In' : inside g' (finer_k c k)) by (unfold inside, finer_k in *; cbn [k_from k_to]; rewrite Sz; auto).
    destruct (C41_exact_partial p N B ks g k R H G Ik) as (h & r & E & NF & Rec & _).
    destruct (C41_exact_partial p N (c * B) ks' g' (finer_k c k) R' H' G' In') as (h' & r' & E' & NF' & Rec' & _).
    destruct (C42_exact_partial p N B ks g k h r R H G Ik E) as (Un & _ & Pr).
    destruct (C42_exact_partial p N (c * B) ks' g' (finer_k c k) h' r' R' H' G' In' E') as (Un' & _ & Pr').
    assert (r' = r).
    { assert (A1 : r = Recovered <-> r' = Recovered).
      { rewrite Rec, Rec'. split; intros F t [X Y].
        - apply (F (fun i => before c (t i - 0))). split; [now apply Be|now apply sat_before].
        - apply (F (fun i => c * t i)). rewrite <- Sol. split; auto. now apply sat_finer. }
      assert (A2 : r = Unchanged <-> r' = Unchanged).
      { rewrite Un, Un'. split; intros F t X.
        - apply sat_both; auto.
        - apply (sat_finer c k t P Fi), F. now rewrite <- Sol. }
      destruct r, r'; try reflexivity; try congruence; exfalso; intuition congruence. }
    subst r'. exists h, h', r. split; auto. split; auto. intros A.
    pose proof (history_inv _ _ _ _ _ R' H') as I'.
    destruct (propagate_inv p N B ks g k R I G Ik) as (h2 & r2 & E2 & S & _).
    destruct (propagate_inv p N (c * B) ks' g' (finer_k c k) R' I' G' In') as (h2' & r2' & E2' & S' & _).
    rewrite E in E2. rewrite E' in E2'. injection E2 as <- <-. injection E2' as <- <-.
    split; [eapply h_propagate; eauto|]. split; [eapply h_propagate; eauto|]. split; congruence.
Qed.

(** ** Schedulers *)

(** The dates [Q] are, in finer ticks, those between two dates of [P]. *)
Definition finer_dates (c : Z) (P Q : Z -> Prop) : Prop :=
  forall x, finite x -> (Q x <-> P (before c x) /\ P (after c x)).

Lemma before_far c M x : 0 < c -> 0 <= M -> c * (M + 1) <= x -> M < before c x /\ M < after c x.
Proof.
  intros P L F. pose proof (before_after c x P) as (Y & _).
  pose proof (before_mono c (c * (M + 1)) x P F) as Z. rewrite before_mul in Z by auto. lia.
Qed.
Lemma after_far c M x : 0 < c -> 0 <= M -> x <= - (c * (M + 1)) -> before c x < - M /\ after c x < - M.
Proof.
  intros P L F. pose proof (before_after c x P) as (Y & _).
  pose proof (after_mono c x (c * - (M + 1)) P ltac:(lia)) as Z. rewrite after_mul in Z by auto. lia.
Qed.
Lemma before_finite c x : 0 < c -> finite x -> finite (before c x) /\ finite (after c x).
Proof.
  intros P F. pose proof (before_after c x P) as (Y & Z). unfold finite in *.
  pose proof (before_close c x P) as (C1 & C2).
  assert (O : 0 < oo) by reflexivity. set (q := before c x) in *. set (q' := after c x) in *. clearbody q q'.
  assert (A1 : 0 <= q \/ q + 1 <= 0) by lia. assert (A2 : q' <= 0 \/ 0 <= q' - 1) by lia.
  assert (x <= q \/ 0 <= q) by (destruct A1; [auto|left; nia]).
  assert (q' <= x \/ q' <= 0) by (destruct A2; [auto|left; nia]).
  assert (q <= x \/ q < 0) by (destruct A1; [left; nia|lia]).
  assert (x <= q' \/ 0 < q') by (destruct A2; [left; nia|lia]).
  lia.
Qed.
(** two such sets that agree on the near dates agree on all *)
Lemma finer_agree c (P Q : Z -> Prop) a b a' b' M X : 0 < c -> 0 <= M -> c * (M + 1) <= X -> X < oo ->
  (forall x, P x <-> finite x /\ a <= x <= b) -> (forall x, Q x <-> finite x /\ a' <= x <= b') ->
  (a = - oo \/ Z.abs a <= M) -> (b = oo \/ Z.abs b <= M) ->
  (a' = - oo \/ Z.abs a' <= c * M) -> (b' = oo \/ Z.abs b' <= c * M) ->
  (forall x, Z.abs x <= X -> (Q x <-> P (before c x) /\ P (after c x))) -> finer_dates c P Q.
Proof.
  intros Pc M0 L Lo HP HQ A1 A2 A3 A4 Ag x F.
  destruct (Z_le_gt_dec (Z.abs x) X) as [N|Fa]; [now apply Ag|].
  assert (X0 : 0 <= X) by nia. assert (LM : c * M < X) by nia.
  pose proof (Ag X ltac:(lia)) as G1. pose proof (Ag (- X) ltac:(lia)) as G2.
  pose proof (before_far c M X Pc M0 L) as B1. pose proof (after_far c M (- X) Pc M0 ltac:(lia)) as B2.
  destruct (before_finite c X Pc ltac:(unfold finite; lia)) as (F1 & F2).
  destruct (before_finite c (- X) Pc ltac:(unfold finite; lia)) as (F3 & F4).
  destruct (before_finite c x Pc F) as (F5 & F6).
  assert (B3 : x > X -> M < before c x /\ M < after c x) by (intros; apply before_far; auto; lia).
  assert (B4 : x < - X -> before c x < - M /\ after c x < - M) by (intros; apply after_far; auto; lia).
  rewrite HQ, !HP in G1, G2. rewrite HQ, !HP. clear HP HQ Ag. unfold finite in *.
  set (m := c * M) in *. clearbody m.
  set (q1 := before c X) in *. set (q2 := after c X) in *. set (q3 := before c (- X)) in *.
  set (q4 := after c (- X)) in *. set (q5 := before c x) in *. set (q6 := after c x) in *.
  clearbody q1 q2 q3 q4 q5 q6. clear L Pc c P Q. remember oo as o. clear Heqo.
  assert (Sg : x > X \/ x < - X) by (clear - Fa; lia). clear Fa. destruct Sg as [S|S].
  - specialize (B3 S). clear B4 G2 B2 F3 F4.
    destruct A2 as [-> |A2], A4 as [-> |A4].
    + destruct A1 as [-> |A1], A3 as [-> |A3]; clear G1; lia.
    + exfalso. apply Z.lt_irrefl with X, Z.le_lt_trans with b'; [|lia]. apply G1. destruct A1; lia.
    + exfalso. apply Z.lt_irrefl with q1, Z.le_lt_trans with b; [|lia]. apply G1. destruct A3; lia.
    + clear G1. lia.
  - specialize (B4 S). clear B3 G1 B1 F1 F2.
    destruct A1 as [-> |A1], A3 as [-> |A3].
    + destruct A2 as [-> |A2], A4 as [-> |A4]; clear G2; lia.
    + exfalso. apply Z.lt_irrefl with a', Z.le_lt_trans with (- X); [|lia]. apply G2. destruct A2; lia.
    + exfalso. apply Z.lt_irrefl with a, Z.le_lt_trans with q3; [|lia]. apply G2. destruct A4; lia.
    + clear G2. lia.
Qed.
Lemma mix_between c r (t u : Z -> Z) k a b : 0 < c -> 0 <= r < c -> a <= t k <= b -> a <= u k <= b ->
  c * a <= mix c r t u k <= c * b /\
  a <= before c (mix c r t u k) <= b /\ a <= after c (mix c r t u k) <= b.
Proof.
  intros P Hr A B. assert (L : c * a <= mix c r t u k <= c * b) by (unfold mix; nia).
  split; auto. split.
  - pose proof (before_mono c _ _ P (proj1 L)) as L1. pose proof (before_mono c _ _ P (proj2 L)) as L2.
    rewrite before_mul in L1, L2 by auto. lia.
  - pose proof (after_mono c _ _ P (proj1 L)) as L1. pose proof (after_mono c _ _ P (proj2 L)) as L2.
    rewrite after_mul in L1, L2 by auto. lia.
Qed.

(** As [box_schedule] (SchedConv), with near dates *)
Lemma box_schedule_near p g C M X s f u i x : mem_ok g -> closed (g_size g) (cell g) -> all_bnd (g_size g) C (cell g) ->
  0 <= C -> 0 <= M -> 2 * M + 2 * X + 5 * C < oo -> cbox g M s f u -> node (g_size g) i ->
  Z.abs x <= X -> possible s i x ->
  exists t, schedule p s t /\ t i = x /\ forall j, node (g_size g) j -> Z.abs (t j) <= M + X + C.
Proof.
  intros Me Cl Bd C0 M0 L Bo Ni Hx Px. pose proof Bo as (Eg & B).
  pose proof (box_possible g M) as BP.
  pose proof (b_low _ _ _ _ _ B) as Hf. pose proof (b_up _ _ _ _ _ B) as Hu. pose proof (b_apart _ _ _ _ _ B) as Ap.
  set (K := M + X + C).
  destruct (trim g C M K Cl Bd C0 M0) with (js := zrange 0 (g_size g)) (f := f) (u := u)
    as (f' & u' & H1 & H2 & H3 & H4 & H5 & H6); try (unfold K; lia).
  - intros j I. unfold zrange in I. apply in_map_iff in I as (n & <- & I). apply in_seq in I. unfold node. lia.
  - apply (half_weaken _ _ M); auto. unfold K; lia.
  - apply (half_weaken _ _ M); auto. unfold K; lia.
  - auto.
  - intros j Nj. pose proof (h_bnd _ _ _ _ Hf j Nj). unfold bnd, K, oo in *. lia.
  - intros j Nj. pose proof (h_bnd _ _ _ _ Hu j Nj). unfold bnd, K, oo in *. lia.
  - apply BP with (f := f) (u := u) in Px; auto.
    assert (HK : forall j, node (g_size g) j -> - K <= f' j /\ - K <= u' j).
    { intros j Nj. apply H6. unfold zrange. apply in_map_iff. exists (Z.to_nat j). unfold node in Nj.
      split; [lia|]. apply in_seq. lia. }
    destruct (box_extends (g_size g) (cell g) C (K + C) f' u' i x) as (t & St & Et & Bt); auto; try (unfold K; lia).
    + apply Me.
    + right. specialize (H5 i Ni). unfold K in *. lia.
    + right. specialize (H5 i Ni). unfold K in *. lia.
    + assert (Lk : K < oo) by (unfold K; lia).
      exists t. split; [|split; auto].
      * split; [rewrite Eg; apply sol_msat; auto|]. rewrite Eg. intros j Nj.
        apply BP with (f := f) (u := u); auto. specialize (Bt j Nj). specialize (HK j Nj). specialize (H4 j Nj).
        unfold finite. unfold oo in *. lia.
      * intros j Nj. specialize (Bt j Nj). specialize (HK j Nj). unfold oo in *. lia.
Qed.
Lemma exact_near p N B ks g W s X i w t r : room N B -> history p N B ks g -> 0 <= W -> W + 2 * (N * B) < oo ->
  convex_session p g W s -> 2 * W + 2 * X + 7 * (N * B) < oo -> narrow W w ->
  0 <= i < g_size g -> sc_retain p s i (WCx w) = Ret (t, r) -> accepted r ->
  forall j x, 0 <= j < g_size g -> Z.abs x <= X -> possible t j x ->
  exists u, schedule p s u /\ In_cx (u i) w /\ u j = x /\
    forall k, 0 <= k < g_size g -> Z.abs (u k) <= W + N * B + X + N * B.
Proof.
  intros R H W0 Sp Se L Na Hi E A j x Hj Hx Px. pose proof (c0 N B R) as K.
  pose proof (history_inv _ _ _ _ _ R H) as I. pose proof (i_mem _ _ _ _ I) as Me.
  destruct (C52_history_proper p N B ks g R H) as (St & Pr).
  assert (Wl : W < oo) by lia.
  pose proof (convex_session_session p g W s Wl Se) as Ss. pose proof (narrow_window W w Na) as Wo.
  pose proof (v_retain p g W s i w t r Se (proj1 Hi) Na E) as Se'.
  pose proof (convex_graph p N B ks g W s R H W0 Sp Se) as Eg0.
  pose proof (convex_graph p N B ks g W t R H W0 Sp Se') as Eg.
  destruct (convex_box p g (N * B) W Me (cl p N B ks g R H) (bd p N B ks g R H) K W0) with (s := t) as (f & u & Bo); [lia|auto|].
  destruct (box_schedule_near p g (N * B) (W + N * B) X t f u j x Me (cl p N B ks g R H) (bd p N B ks g R H))
    as (v & S & T & V); auto; try lia.
  exists v. destruct S as (S1 & S2). rewrite Eg in S1, S2.
  split; [split|split; [|split; auto]].
  - rewrite Eg0. auto.
  - intros m Hm. rewrite Eg0 in Hm. apply (C52_shrinks p g s St Pr Ss i (WCx w) t r m (v m)); auto; lia.
  - apply (C52_shrinks p g s St Pr Ss i (WCx w) t r i (v i)); auto; lia.
Qed.

(** a common date of two such sets can be taken near *)
Lemma near_date M a b l u x : 0 <= M -> M < oo -> (a = - oo \/ Z.abs a <= M) -> (b = oo \/ Z.abs b <= M) ->
  (l = - oo \/ Z.abs l <= M) -> (u = oo \/ Z.abs u <= M) -> a <= x <= b -> l <= x <= u ->
  let y := Z.max (- M) (Z.min M x) in Z.abs y <= M /\ a <= y <= b /\ l <= y <= u.
Proof.
  intros M0 Mo A B L U Hx Hy. cbv zeta.
  assert (Q : forall a b, (a = - oo \/ Z.abs a <= M) -> (b = oo \/ Z.abs b <= M) -> a <= x <= b ->
    a <= Z.max (- M) (Z.min M x) <= b).
  { clear - M0 Mo. intros a b A B H. destruct A as [-> |A], B as [-> |B]; lia. }
  split; [clear - M0; lia|]. split; auto.
Qed.

Lemma unit_margins N B c W : 0 < c -> 0 <= N * B -> 0 <= W -> 4 * (c * W) + 9 * (N * (c * B)) + 2 * c < oo ->
  0 <= c * W /\ W + 2 * (N * B) < oo /\ c * W + 2 * (N * (c * B)) < oo /\
  2 * W + 2 * (W + N * B + 1) + 7 * (N * B) < oo /\
  2 * (c * W) + 2 * (c * (W + N * B + 1)) + 7 * (N * (c * B)) < oo /\
  0 <= W + N * B /\ c * (W + N * B) = c * W + N * (c * B) /\ c * (W + N * B + 1) < oo /\ W + N * B <= c * (W + N * B) /\
  c * (W + N * B + (W + N * B + 1) + N * B) < oo /\ W + N * B < oo.
Proof.
  intros P K W0 Sp. replace (N * (c * B)) with (c * (N * B)) in * by ring.
  set (b := N * B) in *. clearbody b.
  assert (0 <= c * W) by nia. assert (W <= c * W) by nia. assert (0 <= c * b) by nia. assert (b <= c * b) by nia.
  rewrite !Z.mul_add_distr_l, !Z.mul_1_r. repeat split; lia.
Qed.

(** Two schedulers, one with the dates of the other in finer ticks, accept the same restrictions
    and are so related afterwards. *)
(** Partial: restrictions by intervals within [W], graphs with the margins of [room]. *)
Theorem C104_scheduler_partial : forall p N B c ks ks' g g' W s s' i w w', 0 < c -> room N (c * B) ->
  history p N B ks g -> history p N (c * B) ks' g' -> g_size g' = g_size g ->
  (forall k, In k ks' <-> In k (map (finer_k c) ks)) ->
  0 <= W -> 4 * (c * W) + 9 * (N * (c * B)) + 2 * c < oo ->
  convex_session p g W s -> convex_session p g' (c * W) s' ->
  (forall j, 0 <= j < g_size g -> finer_dates c (possible s j) (possible s' j)) ->
  0 <= i < g_size g -> narrow W w -> narrow (c * W) w' ->
  finer_dates c (fun x => In_cx x w) (fun x => In_cx x w') ->
  exists t t' r r', sc_retain p s i (WCx w) = Ret (t, r) /\ sc_retain p s' i (WCx w') = Ret (t', r') /\
    (accepted r <-> accepted r') /\
    (accepted r -> forall j, 0 <= j < g_size g -> finer_dates c (possible t j) (possible t' j)).
Proof.
  intros p N B c ks ks' g g' W s s' i w w' P R' H H' Sz K0k W0 Sp Se Se' Ag Hi Na Na' Aw.
  destruct (room_coarse N B c P R') as (R & L1 & _).
  destruct (unit_margins N B c W P (c0 N B R) W0 Sp) as (W0' & Sp3 & Sp4 & Sp1 & Sp2 & M0 & EM & Mo & LM & LK & Lm). clear Sp.
  set (M := W + N * B) in *. assert (WM : W <= M) by (unfold M; pose proof (c0 N B R); lia).
  destruct (C104_graph_partial p N B c ks g P R' H) as (_ & Gr).
  destruct (Gr ks' g' H' Sz K0k) as (_ & Sol & Ba & _). clear Gr.
  assert (Hi' : 0 <= i < g_size g') by lia.
  destruct (C54_retain_partial p N B ks g W s R H W0 Sp3 Se i w Hi Na) as (t & r & E & Sh & A).
  destruct (C54_retain_partial p N (c * B) ks' g' (c * W) s' R' H' W0' Sp4 Se' i w' Hi' Na') as (t' & r' & E' & Sh' & A').
  exists t, t', r, r'. split; auto. split; auto.
  assert (Aa : accepted r <-> accepted r').
  { rewrite A, A'. split; intros (x & X & Y).
    - destruct (box_far p N B ks g W s R H W0 Sp3 Se i Hi) as (a & b & Pb & B1 & B2).
      destruct (narrow_abs W M w Na WM) as (B3 & B4).
      apply Pb in X. destruct X as (Fx & X). apply (narrow_bounds W w x Na Fx) in Y.
      destruct (near_date M a b (cx_lower w) (cx_upper w) x M0 Lm B1 B2 B3 B4 X Y) as (N1 & N2 & N3).
      set (y := Z.max (- M) (Z.min M x)) in *. clearbody y.
      assert (Fy : finite y) by (clear - N1 Lm; unfold finite; lia).
      assert (Fc : finite (c * y)) by (clear - N1 Mo P; unfold finite; nia).
      exists (c * y). split.
      + apply (Ag i Hi _ Fc). rewrite before_mul, after_mul by auto. split; apply Pb; auto.
      + apply (Aw _ Fc). rewrite before_mul, after_mul by auto. split; now apply (narrow_bounds W w y Na Fy).
    - exists (before c x). assert (Fx : finite x) by apply Y.
      apply (Ag i Hi _ Fx) in X. apply (Aw _ Fx) in Y. tauto. }
  split; auto. intros Ac j Hj. pose proof (proj1 Aa Ac) as Ac'.
  assert (Hj' : 0 <= j < g_size g') by (clear - Hj Sz; lia).
  pose proof (v_retain p g W s i w t r Se (proj1 Hi) Na E) as St.
  pose proof (v_retain p g' (c * W) s' i w' t' r' Se' (proj1 Hi') Na' E') as St'.
  destruct (box_far p N B ks g W t R H W0 Sp3 St j Hj) as (a & b & Pb & B1 & B2).
  destruct (box_far p N (c * B) ks' g' (c * W) t' R' H' W0' Sp4 St' j Hj') as (a' & b' & Pb' & B1' & B2').
  fold M in B1, B2. rewrite <- EM in B1', B2'.
  apply (finer_agree c (possible t j) (possible t' j) a b a' b' M (c * (M + 1)) P M0 (Z.le_refl _) Mo Pb Pb' B1 B2 B1' B2').
  pose proof (convex_graph p N B ks g W s R H W0 Sp3 Se) as Gs.
  pose proof (convex_graph p N (c * B) ks' g' (c * W) s' R' H' W0' Sp4 Se') as Gs'.
  intros x Hx.
  assert (Hb : Z.abs (before c x) <= M + 1 /\ Z.abs (after c x) <= M + 1).
  { clear - P Hx.
    pose proof (before_mono c (c * - (M + 1)) x P ltac:(lia)) as Y1. pose proof (before_mono c x (c * (M + 1)) P ltac:(lia)) as Y2.
    pose proof (after_mono c (c * - (M + 1)) x P ltac:(lia)) as Y3. pose proof (after_mono c x (c * (M + 1)) P ltac:(lia)) as Y4.
    rewrite before_mul in Y1, Y2 by auto. rewrite after_mul in Y3, Y4 by auto. lia. }
  assert (Fin : forall k u, 0 <= k < g_size g -> possible s' k u -> finite u).
  { intros k u Hk Po. rewrite <- Sz in Hk. destruct (box_far p N (c * B) ks' g' (c * W) s' R' H' W0' Sp4 Se' k Hk) as (? & ? & Q & _).
    now apply Q in Po. }
  pose proof (C54_exact_partial p N B ks g W s R H W0 Sp3 Se (M + 1) i w t r Sp1 Na Hi E Ac j) as Ex.
  pose proof (exact_near p N B ks g W s (M + 1) i w t r R H W0 Sp3 Se Sp1 Na Hi E Ac j) as Nr.
  rewrite (C54_exact_partial p N (c * B) ks' g' (c * W) s' R' H' W0' Sp4 Se' (c * (M + 1)) i w' t' r' Sp2 Na' Hi' E' Ac' j x Hj' Hx).
  split.
  - intros (u & (X1 & X2) & Y & Z). rewrite Gs' in X1, X2. rewrite Sz in X2. destruct (Ba u X1) as (T1 & T2).
    apply (Aw _ (proj1 Y)) in Y. destruct Y as (Y1 & Y2).
    split; [apply (Ex _ Hj (proj1 Hb))|apply (Ex _ Hj (proj2 Hb))]; [exists (fun k => before c (u k))|exists (fun k => after c (u k))];
      (split; [|split; [auto|now rewrite Z]]);
      (split; rewrite Gs; [auto|]); intros k Hk; specialize (X2 k Hk); apply (Ag k Hk _ (Fin k _ Hk X2)) in X2; tauto.
  - intros (Y & Y'). destruct (Nr _ Hj (proj1 Hb) Y) as (u & (X1 & X2) & V & Z & Nu).
    destruct (Nr _ Hj (proj2 Hb) Y') as (v & (X3 & X4) & V' & Z' & Nv). clear Nr Ex. rewrite Gs in X1, X2, X3, X4.
    set (K := W + N * B + (M + 1) + N * B) in *.
    set (q := x - c * before c x).
    assert (Hr : 0 <= q < c).
    { clear - P. unfold q, before. pose proof (Z.mod_pos_bound x c P). pose proof (Z.div_mod x c ltac:(lia)). lia. }
    assert (Fm : forall k, 0 <= k < g_size g -> finite (mix c q u v k)).
    { intros k Hk. specialize (Nu k Hk). specialize (Nv k Hk).
      destruct (mix_between c q u v k (- K) K P Hr ltac:(clear - Nu; lia) ltac:(clear - Nv; lia)) as (Mb & _).
      clear - Mb LK. unfold finite. lia. }
    exists (mix c q u v).
    apply (C40_solutions_partial p N B ks g _ R H) in X1. apply (C40_solutions_partial p N B ks g _ R H) in X3.
    split; [split|split].
    + rewrite Gs'. apply (C40_solutions_partial p N (c * B) ks' g' _ R' H').
      pose proof (sats_mix N B c q ks u v P Hr L1 (i_good _ _ _ _ (history_inv _ _ _ _ _ R H)) X1 X3) as X.
      rewrite Forall_forall in *. intros k Ik. apply X, K0k, Ik.
    + rewrite Gs', Sz. intros k Hk. apply (Ag k Hk _ (Fm k Hk)). specialize (X2 k Hk). specialize (X4 k Hk).
      destruct (box_far p N B ks g W s R H W0 Sp3 Se k Hk) as (ak & bk & Pk & _).
      apply Pk in X2. apply Pk in X4.
      destruct (mix_between c q u v k ak bk P Hr (proj2 X2) (proj2 X4)) as (_ & M1 & M2).
      destruct (before_finite c _ P (Fm k Hk)) as (F1 & F2). split; apply Pk; auto.
    + apply (Aw _ (Fm i Hi)).
      destruct (before_finite c _ P (Fm i Hi)) as (F1 & F2).
      apply (narrow_bounds W w _ Na (proj1 V)) in V. apply (narrow_bounds W w _ Na (proj1 V')) in V'.
      destruct (mix_between c q u v i _ _ P Hr V V') as (_ & M1 & M2).
      split; now apply (narrow_bounds W w _ Na).
    + unfold mix. rewrite Z, Z'. unfold q in *. clear - P Hr.
      pose proof (before_after c x P) as (Y1 & Y2). set (b := before c x) in *. set (d := after c x) in *. clearbody b d.
      assert (Zd : d = b \/ d = b + 1) by lia. destruct Zd as [-> | ->]; nia.
Qed.

(** Ticks cut in ten, then in two *)
Example C104_graph_case : room 3 (10 * 10) /\ history Debug 3 10 [k12; k01] h3 /\
  g_timespan Debug h3 0 2 = Ret (mkI 12 18) /\
  exists g', g_extend Debug (mkG 3 [0; - oo; 0; - oo; - oo; - oo; 0; - oo; - oo]) None
    [finer_k 10 k12; finer_k 10 k01] = Ret (g', Propagated) /\ g_timespan Debug g' 0 2 = Ret (mkI 120 180).
Proof.
  split; [unfold room, oo; lia|]. split; [apply h3_history; lia|]. split; [vm_compute; reflexivity|].
  eexists. split; vm_compute; reflexivity.
Qed.
Lemma histA_near p : history p 3 100 ksA gA.
Proof.
  unfold ksA. apply (h_propagate p 3 100 [kk 0 1 3 48] (mkG 3 [0; - 48; 0; 3; - oo; - oo; 0; - oo; - oo]) (kk 1 2 0 60) _ Propagated);
  [apply (h_propagate p 3 100 [] (mkG 3 [0; - oo; 0; - oo; - oo; - oo; 0; - oo; - oo]) (kk 0 1 3 48) _ Propagated);
   [apply (h_new p 3 100 3)| | | |]| | | |];
  try (destruct p; vm_compute; reflexivity); try (right; reflexivity);
  try (unfold good, wf_iv, within, inside, oo; simpl; lia); try lia.
Qed.
Definition gA2 : graph := mkG 3 [0; - 96; 0; 6; - 216; - 120; 0; 0; 6].
Lemma histA2 p : history p 3 (2 * 100) (map (finer_k 2) ksA) gA2.
Proof.
  change (2 * 100) with 200. unfold ksA. change (map (finer_k 2) [kk 1 2 0 60; kk 0 1 3 48]) with [kk 1 2 0 120; kk 0 1 6 96].
  two_steps p (kk 0 1 6 96) (kk 1 2 0 120)
    (mkG 3 [0; - oo; 0; - oo; - oo; - oo; 0; - oo; - oo]) (mkG 3 [0; - 96; 0; 6; - oo; - oo; 0; - oo; - oo]).
Qed.
Example C104_scheduler_case : forall p, room 3 (2 * 100) /\ history p 3 100 ksA gA /\
  history p 3 (2 * 100) (map (finer_k 2) ksA) gA2 /\
  convex_session p gA 1000 (sc_new gA) /\ convex_session p gA2 (2 * 1000) (sc_new gA2) /\
  (forall j, 0 <= j < g_size gA -> finer_dates 2 (possible (sc_new gA) j) (possible (sc_new gA2) j)) /\
  narrow 1000 (CRangeIncl 5 50) /\ narrow (2 * 1000) (CRangeIncl 10 100) /\
  finer_dates 2 (fun x => In_cx x (CRangeIncl 5 50)) (fun x => In_cx x (CRangeIncl 10 100)) /\
  sc_retain p (sc_new gA) 0 (WCx (CRangeIncl 5 50)) =
    Ret (mkS gA [[mkI 5 50]; [mkI 8 98]; [mkI 8 158]], Propagated) /\
  sc_retain p (sc_new gA2) 0 (WCx (CRangeIncl 10 100)) =
    Ret (mkS gA2 [[mkI 10 100]; [mkI 16 196]; [mkI 16 316]], Propagated).
Proof.
  intros p. split; [unfold room, oo; lia|]. split; [apply histA_near|]. split; [apply histA2|].
  split; [constructor|]. split; [constructor|]. split.
  { intros j Hj x F. destruct (before_finite 2 x ltac:(lia) F) as (F1 & F2).
    assert (M1 : mem_ok gA) by (apply (history_inv _ _ _ _ _ room_3 (histA p))).
    assert (M2 : mem_ok gA2) by (apply (history_inv _ _ _ _ _ room_3 (histA2 p))).
    rewrite (new_possible gA2 j x M2 Hj), !(new_possible gA j _ M1 Hj). tauto. }
  split; [apply narrow_incl; unfold oo; lia|]. split; [apply narrow_incl; unfold oo; lia|]. split.
  { intros x F. destruct (before_finite 2 x ltac:(lia) F) as (F1 & F2). unfold In_cx.
    assert (Q : 10 <= x <= 100 <-> (5 <= before 2 x <= 50) /\ 5 <= after 2 x <= 50); [|tauto].
    clear. unfold before, after. lia. }
  destruct p; vm_compute; auto.
Qed.
