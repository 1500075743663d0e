(** Laws of the programs that build a graph, without margin (property C112): what they report only
    depends on the possible differences; the time may be reversed and the instants renamed; a constraint
    changes nothing for the instants that nothing relates to it. *)
From Verif Require Import Machine TimeValue Spec Tac TimeValueProofs Interval Iter TimeSet Relns
  SpecSets Graph MaxPlus FwBound GraphProofs GraphOps GraphFits GraphWarshall GraphGrow GraphSafe GraphMem
  GraphHist GraphTight SpecGraph GraphSound GraphMono GraphInv GraphIter GraphCalls Prop_Graph Prop_Propagation
  Prop_Local Prop_Rename Prop_GraphQuery Prop_Seen Prop_Queries Prop_Fits Prop_Represent Prop_Program.

(** ** Specification *)

(** The program [m] reports the interval [iv] between [i] and [j]. *)
Definition reports (p : profile) (m : prog) (i j : Z) (iv : interval) : Prop :=
  exists g, run p m = Ret g /\ g_timespan p g i j = Ret iv.
(** The program where each constraint is turned round. *)
Definition flip (k : kons) : kons := mkK (k_to k) (k_from k) (k_empty k) (k_lo k) (k_up k).
Fixpoint rev (m : prog) : prog :=
  match m with
  | New => New
  | Add m k => Add (rev m) (flip k)
  | AddAll m hint ks => AddAll (rev m) hint (map flip ks)
  | Merge m m' => Merge (rev m) (rev m')
  | Resize m n => Resize (rev m) n
  | Clear m => Clear (rev m)
  end.
(** Any difference is possible between [i] and [j]. *)
Definition free (S : (Z -> Z) -> Prop) (i j : Z) : Prop := forall v, exists t, S t /\ t j - t i = v.

(** ** Proofs *)

Lemma same_interval a b : proper_bounds a -> proper_bounds b -> (exists v, In_ext v a) ->
  (forall v, In_ext v a <-> In_ext v b) -> a = b.
Proof.
  intros (A1 & A2) (B1 & B2) (v & V) E. pose proof (proj1 (E v) V) as V'. assert (O : 0 < oo) by reflexivity.
  assert (N : forall c x, proper_bounds c -> In_ext x c -> lower c <= upper c).
  { clear - O. intros c x (C1 & C2) (X1 & X2). lia. }
  apply ext_same; auto; unfold valid; try lia; eapply N; eauto; split; auto.
Qed.
Lemma means_local m n S t t' : means m n S -> (forall i, 0 <= i < n -> t i = t' i) -> S t -> S t'.
Proof.
  intros H A T. destruct (C110_program Debug m n S H) as (g & _ & _ & An & Co).
  destruct (answer_closed Debug n S g An Co) as (_ & _ & _ & _ & Q). apply Q. apply Q in T.
  intros i j w Ni Nj E. rewrite <- (A i), <- (A j) by auto. apply T; auto.
Qed.
Lemma reports_exact p m n S i j : means m n S -> 0 <= i < n -> 0 <= j < n ->
  exists iv, reports p m i j iv /\ proper_bounds iv /\ (exists v, In_ext v iv) /\
    forall v, In_ext v iv <-> exists t, S t /\ t j - t i = v.
Proof.
  intros H Ni Nj. destruct (C110_timespan p m n S i j H Ni Nj) as (g & iv & R & T & P & V).
  destruct (C110_program p m n S H) as (_ & _ & _ & _ & (t & Q)).
  exists iv. split; [exists g; auto|]. split; auto. split; auto. exists (t j - t i). apply V. exists t. auto.
Qed.
Lemma flip_sat k t : sat (flip k) t <-> sat k (fun i => - t i).
Proof.
  unfold sat, flip. cbn [k_from k_to k_lo k_up].
  replace (- t (k_to k) - - t (k_from k)) with (t (k_from k) - t (k_to k)) by lia. tauto.
Qed.
Lemma flip_sats ks t : Forall (fun k => sat k t) (map flip ks) <-> Forall (fun k => sat k (fun i => - t i)) ks.
Proof.
  rewrite Forall_map. split; intros F; eapply Forall_impl; try exact F; intros k; apply flip_sat.
Qed.
(** The dates turned round *)
Definition mirror (n : Z) (S S' : (Z -> Z) -> Prop) : Prop :=
  (forall t, S' t <-> S (fun i => - t i)) /\
  (forall t t', (forall i, 0 <= i < n -> t i = t' i) -> S t -> S t').
Lemma mirror_some n S S' : mirror n S S' -> (exists t, S t) -> exists t, S' t.
Proof.
  intros (M & L) (t & T). exists (fun i => - t i). apply M. apply (L t); auto. intros. lia.
Qed.
Lemma mirror_spread n S S' : mirror n S S' -> spread n S -> spread n S'.
Proof.
  intros (M & L) Sp i j Ni Nj. destruct (Sp j i Nj Ni) as (iv & P & H). exists iv. split; auto. intros v. rewrite H. split.
  - intros (t & T & D). exists (fun i => - t i). split; [|lia]. apply M. apply (L t); auto. intros. lia.
  - intros (t & T & D). exists (fun i => - t i). split; [apply M; auto|lia].
Qed.
Lemma sat_local n k t t' : 0 <= k_from k < n -> 0 <= k_to k < n -> (forall i, 0 <= i < n -> t i = t' i) -> sat k t -> sat k t'.
Proof. intros F T A. unfold sat. rewrite (A _ F), (A _ T). auto. Qed.

Lemma rev_means m n S : means m n S -> exists S', means (rev m) n S' /\ forall t, S' t <-> S (fun i => - t i).
Proof.
  intros H. assert (W : exists S', means (rev m) n S' /\ mirror n S S').
  { assert (W0 : forall t t', (forall i, 0 <= i < n -> t i = t' i) -> S t -> S t') by (intros t t'; eapply means_local; eauto).
    enough (exists S', means (rev m) n S' /\ forall t, S' t <-> S (fun i => - t i)) as (S' & A & B)
      by (exists S'; split; auto; split; auto).
    clear W0. induction H as [|m n S k H IH G Co Sp|m n S k H IH G N|m n S k H IH G Nf Nt Ne|m n S hint ks n' H IH Lk H0 H1 L F X Co Sp
      |m m' n n' S S' H IH H' IH' Co Sp|m n S n' H IH L|m n S H IH]; cbn [rev].
    - exists (fun _ => True). split; [constructor|tauto].
    - destruct IH as (S' & M & Q). exists (fun t => S' t /\ sat (flip k) t).
      assert (E : forall t, S' t /\ sat (flip k) t <-> S (fun i => - t i) /\ sat k (fun i => - t i)).
      { intros t. rewrite Q, flip_sat. tauto. }
      pose proof G as (G1 & G2 & G3 & G4 & G5).
      assert (Mi : mirror n (fun t => S t /\ sat k t) (fun t => S' t /\ sat (flip k) t)).
      { split; auto. intros t t' A (T & K). split; [eapply means_local; eauto|eapply sat_local; eauto]. }
      split; auto. apply m_add; auto.
      + split; auto.
      + eapply mirror_some; eauto.
      + eapply mirror_spread; eauto.
    - destruct IH as (S' & M & Q). exists S'. split; auto. apply m_refused; auto.
      + destruct G as (G1 & G2 & G3 & G4 & G5). split; auto.
      + intros t (T & K). apply (N (fun i => - t i)). split; [apply Q; auto|apply flip_sat; auto].
    - destruct IH as (S' & M & Q). exists (fun t => S' t /\ sat (flip k) t). split.
      + rewrite Z.max_comm. apply (m_more (rev m) n S' (flip k)); auto. destruct G as (G1 & G2 & G3 & G4 & G5). split; auto.
      + intros t. rewrite Q, flip_sat. tauto.
    - destruct IH as (S' & M & Q). exists (fun t => S' t /\ Forall (fun k => sat k t) (map flip ks)).
      assert (E : forall t, S' t /\ Forall (fun k => sat k t) (map flip ks) <->
        S (fun i => - t i) /\ Forall (fun k => sat k (fun i => - t i)) ks).
      { intros t. rewrite Q, flip_sats. tauto. }
      assert (Mi : mirror n' (fun t => S t /\ Forall (fun k => sat k t) ks) (fun t => S' t /\ Forall (fun k => sat k t) (map flip ks))).
      { split; auto. intros t t' A (T & K). split; [eapply means_local; [exact H| |exact T]; intros i Ni; apply A; lia|].
        rewrite Forall_forall in *. intros k I. destruct (F k I) as (F1 & F2). destruct (Lk k I) as (L1 & L2 & _).
        eapply (sat_local n'); [lia|lia|exact A|]. apply K; auto. }
      split; auto. apply m_all with (n := n); auto.
      + rewrite Forall_map. eapply Forall_impl; [|exact Lk]. intros k (L1 & L2 & L3). split; auto.
      + rewrite Forall_map. eapply Forall_impl; [|exact F]. intros k (L1 & L2). split; auto.
      + destruct X as [X|X]; auto. right. rewrite Exists_exists in *. destruct X as (k & I & X). exists (flip k).
        split; [apply in_map; auto|]. cbn [flip k_from k_to]. tauto.
      + eapply mirror_some; eauto.
      + eapply mirror_spread; eauto.
    - destruct IH as (S1 & M1 & Q1). destruct IH' as (S2 & M2 & Q2). exists (fun t => S1 t /\ S2 t).
      assert (Mi : mirror (Z.max n n') (fun t => S t /\ S' t) (fun t => S1 t /\ S2 t)).
      { split; [intros t; rewrite Q1, Q2; tauto|]. intros t t' A (T & T').
        split; [apply (means_local m n S t t' H)|apply (means_local m' n' S' t t' H')]; auto; intros i Ni; apply A; lia. }
      split; [|intros t; rewrite Q1, Q2; tauto]. apply m_merge; auto.
      + eapply mirror_some; eauto.
      + eapply mirror_spread; eauto.
    - destruct IH as (S' & M & Q). exists (fun t => exists t', S' t' /\ forall i, 0 <= i < n' -> t i = t' i).
      split; [eapply m_resize; eauto|]. intros t. split.
      + intros (t' & T & A). apply Q in T. exists (fun i => - t' i). split; auto. intros i Ni. rewrite (A i Ni). auto.
      + intros (t' & T & A). exists (fun i => - t' i). split.
        * apply Q. eapply means_local; [exact H| |exact T]. intros. lia.
        * intros i Ni. specialize (A i Ni). lia.
    - destruct IH as (S' & M & Q). exists (fun _ => True). split; [eapply m_clear; eauto|tauto]. }
  destruct W as (S' & M & Mi). exists S'. split; auto. apply Mi.
Qed.

(** ** C112 *)

(** The interval that a program reports only depends on the possible differences. *)
Theorem C112_differences : forall p m m' n n' S S' i j i' j', means m n S -> means m' n' S' ->
  0 <= i < n -> 0 <= j < n -> 0 <= i' < n' -> 0 <= j' < n' ->
  (forall v, (exists t, S t /\ t j - t i = v) <-> (exists t, S' t /\ t j' - t i' = v)) ->
  exists iv, reports p m i j iv /\ reports p m' i' j' iv.
Proof.
  intros p m m' n n' S S' i j i' j' H H' Ni Nj Ni' Nj' E.
  destruct (reports_exact p m n S i j H Ni Nj) as (iv & R & P & Ne & V).
  destruct (reports_exact p m' n' S' i' j' H' Ni' Nj') as (iv' & R' & P' & Ne' & V').
  assert (iv = iv') as <-; [|exists iv; auto]. apply same_interval; auto. intros v. rewrite V, V'. apply E.
Qed.
(** Fewer dates, narrower intervals *)
Theorem C112_monotone : forall p m m' n S S' i j, means m n S -> means m' n S' -> 0 <= i < n -> 0 <= j < n ->
  (forall t, S t -> S' t) -> exists iv iv', reports p m i j iv /\ reports p m' i j iv' /\ forall v, In_ext v iv -> In_ext v iv'.
Proof.
  intros p m m' n S S' i j H H' Ni Nj E. destruct (reports_exact p m n S i j H Ni Nj) as (iv & R & _ & _ & V).
  destruct (reports_exact p m' n S' i j H' Ni Nj) as (iv' & R' & _ & _ & V'). exists iv, iv'. split; auto. split; auto.
  intros v. rewrite V, V'. intros (t & T & D). exists t. auto.
Qed.
(** The program with all its constraints turned round has a meaning too, and reports the intervals from
    [j] to [i]. *)
Theorem C112_reverse : forall p m n S i j, means m n S -> 0 <= i < n -> 0 <= j < n ->
  exists S' iv, means (rev m) n S' /\ (forall t, S' t <-> S (fun i => - t i)) /\ reports p m i j iv /\ reports p (rev m) j i iv.
Proof.
  intros p m n S i j H Ni Nj. destruct (rev_means m n S H) as (S' & H' & Q).
  destruct (C112_differences p m (rev m) n n S S' i j j i) as (iv & R & R'); auto.
  - intros v. split.
    + intros (t & T & D). exists (fun i => - t i). split; [|lia]. apply Q. eapply means_local; [exact H| |exact T]. intros. lia.
    + intros (t & T & D). exists (fun i => - t i). split; [apply Q; auto|lia].
  - exists S', iv. auto.
Qed.
(** Two programs that say the same with other numbers for the instants *)
Theorem C112_rename : forall p m m' n S S' pi sg i j, means m n S -> means m' n S' -> renaming n pi sg ->
  (forall t, S' t <-> S (fun i => t (pi i))) -> 0 <= i < n -> 0 <= j < n ->
  exists iv, reports p m i j iv /\ reports p m' (pi i) (pi j) iv.
Proof.
  intros p m m' n S S' pi sg i j H H' Rn Q Ni Nj.
  destruct (Rn i Ni) as ((Pi & Pi') & _). destruct (Rn j Nj) as ((Pj & Pj') & _).
  apply (C112_differences p m m' n n S S' i j (pi i) (pi j)); auto. intros v. split.
  - intros (t & T & D). exists (fun i => t (sg i)). split; [|rewrite Pi', Pj'; auto].
    apply Q. eapply means_local; [exact H| |exact T]. intros x Nx. destruct (Rn x Nx) as ((_ & E) & _). cbv beta. rewrite E. auto.
  - intros (t & T & D). exists (fun i => t (pi i)). split; [apply Q; auto|auto].
Qed.
(** If nothing relates the instant [a] to those of the constraint, adding the constraint changes no
    interval of [a]. *)
Theorem C112_local : forall p m n S k S' a b, means m n S -> means (Add m k) n S' -> (forall t, S' t <-> S t /\ sat k t) ->
  0 <= k_from k < n -> 0 <= k_to k < n -> 0 <= a < n -> 0 <= b < n -> free S a (k_from k) -> free S a (k_to k) ->
  exists iv, reports p m a b iv /\ reports p (Add m k) a b iv.
Proof.
  intros p m n S k S' a b H H' Q Nf Nt Na Nb Ff Ft.
  apply (C112_differences p m (Add m k) n n S S' a b a b); auto. intros v. split.
  - intros (t & T & D). destruct (C110_program p m n S H) as (g & _ & _ & A & Co).
    destruct (C110_program p (Add m k) n S' H') as (_ & _ & _ & _ & (t1 & T1)). apply Q in T1. destruct T1 as (T1 & K1).
    destruct (answer_closed p n S g A Co) as (_ & _ & Cl & _ & Ms). set (X := cell g) in *.
    assert (Fr : forall i, 0 <= i < n -> free S a i -> (forall w, ~ ent X a i w) /\ (forall w, ~ ent X i a w) /\ i <> a).
    { intros i Ni F. split; [|split].
      - intros w E. destruct (F (w - 1)) as (t2 & T2 & D2). apply Ms in T2. specialize (T2 a i w Na Ni E). lia.
      - intros w E. destruct (F (1 - w)) as (t2 & T2 & D2). apply Ms in T2. specialize (T2 i a w Ni Na E). lia.
      - intros ->. destruct (F 1) as (t2 & T2 & D2). lia. }
    destruct (Fr _ Nf Ff) as (F1 & F2 & F3). destruct (Fr _ Nt Ft) as (E1 & E2 & E3).
    set (u := fun i => if i =? a then t1 b - v else t1 i).
    assert (Ua : u a = t1 b - v) by (unfold u; now rewrite Z.eqb_refl).
    assert (Uo : forall i, i <> a -> u i = t1 i) by (intros i Y; unfold u; now replace (i =? a) with false by lia).
    assert (Ub : u b = t1 b) by (destruct (Z.eq_dec b a) as [->|Y]; [rewrite Ua; lia|auto]).
    pose proof (proj2 (Ms t1) T1) as M1. pose proof (proj2 (Ms t) T) as M0.
    destruct (closed_extends n X [k_from k; k_to k; a; b] u Cl) as (t' & Ag & M').
    + repeat constructor; auto; unfold node; lia.
    + assert (Un : forall i w, In i [k_from k; k_to k; a; b] -> (ent X a i w -> w <= u i - u a) /\ (ent X i a w -> w <= u a - u i)).
      { intros i w [<-|[<-|[<-|[<-|[]]]]].
        - split; intros E; exfalso; [apply (F1 w E)|apply (F2 w E)].
        - split; intros E; exfalso; [apply (E1 w E)|apply (E2 w E)].
        - split; intros E; pose proof (M0 a a w Na Na E); lia.
        - rewrite Ua, Ub. split; intros E; [pose proof (M0 a b w Na Nb E)|pose proof (M0 b a w Nb Na E)]; lia. }
      intros i j w Ii Ij E. destruct (Z.eq_dec i a) as [->|ni]; [apply Un; auto|].
      destruct (Z.eq_dec j a) as [->|nj]; [apply Un; auto|]. rewrite !Uo by auto. apply M1; auto.
      * destruct Ii as [<-|[<-|[<-|[<-|[]]]]]; auto.
      * destruct Ij as [<-|[<-|[<-|[<-|[]]]]]; auto.
    + exists t'. split.
      * apply Q. split; [apply Ms; auto|]. unfold sat in *. rewrite !Ag by (cbn; auto). rewrite !Uo by auto. auto.
      * rewrite !Ag by (cbn; auto). rewrite Ua, Ub. lia.
  - intros (t & T & D). apply Q in T. exists t. tauto.
Qed.

(** ** Examples *)

Example C112_reverse_case : exists S, means e_merge 3 S /\ forall p,
  reports p e_merge 0 1 (mkI far far) /\ reports p (rev e_merge) 1 0 (mkI far far) /\ reports p (rev e_merge) 0 1 (mkI (- far) (- far)).
Proof.
  destruct e_merge_means as (S & H & _). exists S. split; auto. intros p. split; [|split].
  - exists g_m. split; destruct p; vm_compute; reflexivity.
  - exists (mkG 3 [0; far; 0; - far; 0; - far; 0; far; 0]). split; destruct p; vm_compute; reflexivity.
  - exists (mkG 3 [0; far; 0; - far; 0; - far; 0; far; 0]). split; destruct p; vm_compute; reflexivity.
Qed.
(** The instants 0, 1, 2 renamed 1, 2, 0 *)
Definition turn3 (i : Z) : Z := (i + 1) mod 3.
Definition back3 (i : Z) : Z := (i + 2) mod 3.
Definition e_turn : prog := AddAll New None [mkK 2 0 false (- far) (- far); mkK 1 2 false far far].
Lemma e_turn_means : exists S', means e_turn 3 S' /\ forall t, S' t <-> t 2 - t 1 = far /\ t 0 - t 2 = - far.
Proof.
  set (ks := [mkK 2 0 false (- far) (- far); mkK 1 2 false far far]).
  assert (E : forall t, True /\ Forall (fun k => sat k t) ks <-> t 2 - t 1 = far /\ t 0 - t 2 = - far).
  { intros t. unfold ks. rewrite !Forall_cons_iff, !sat_eq by discriminate. split; [tauto|]. intros (A & B). auto. }
  exists (fun t => True /\ Forall (fun k => sat k t) ks). split; auto.
  apply (m_all New 0 (fun _ => True) None ks 3); [constructor| |discriminate|discriminate|lia| | | |].
  - unfold ks. repeat constructor; cbv [valid far k_from k_to k_lo k_up oo]; lia.
  - unfold ks. repeat constructor; cbn [k_from k_to]; lia.
  - right. unfold ks. apply Exists_cons_hd. left. reflexivity.
  - exists (fun i => if i =? 2 then far else 0). apply E. split; reflexivity.
  - intros i j Ni Nj.
    destruct (e_spread (back3 i) (back3 j)) as (iv & P & V); [unfold back3; apply Z.mod_pos_bound; lia..|].
    exists iv. split; auto. intros v. rewrite V. split.
    + intros (t & T & D). exists (fun i => t (back3 i)). split; auto. apply E. unfold back3. cbn. exact T.
    + intros (t & T & D). apply E in T. exists (fun i => t (turn3 i)). split; [exact T|].
      rewrite <- D. assert (Q : forall i, 0 <= i < 3 -> turn3 (back3 i) = i).
      { intros x Nx. assert (x = 0 \/ x = 1 \/ x = 2) as [->|[-> | ->]] by lia; reflexivity. }
      rewrite !Q by auto. auto.
Qed.
Example C112_rename_case : exists S S', means e_merge 3 S /\ means e_turn 3 S' /\ renaming 3 turn3 back3 /\
  (forall t, S' t <-> S (fun i => t (turn3 i))) /\ forall p, reports p e_turn 1 2 (mkI far far).
Proof.
  destruct e_merge_means as (S & H & Q). destruct e_turn_means as (S' & H' & Q'). exists S, S'. split; auto. split; auto. split.
  { intros i Ni. assert (i = 0 \/ i = 1 \/ i = 2) as [->|[-> | ->]] by lia; cbv; intuition discriminate. }
  split.
  - intros t. rewrite Q', Q. change (turn3 0) with 1. change (turn3 1) with 2. change (turn3 2) with 0. tauto.
  - intros p. exists (mkG 3 [0; 0; 0; 0; - far; - far; 0; far; far]). split; destruct p; vm_compute; reflexivity.
Qed.
(** The instants 3 and 4 have nothing to do with the three others. *)
Example C112_local_case : exists S S', means (Add e_merge (mkK 3 4 false far oo)) 5 S /\
  means (Add (Add e_merge (mkK 3 4 false far oo)) (mkK 0 2 false 0 0)) 5 S' /\
  (forall t, S' t <-> S t /\ sat (mkK 0 2 false 0 0) t) /\ free S 3 0 /\ free S 3 2 /\
  forall p, reports p (Add (Add e_merge (mkK 3 4 false far oo)) (mkK 0 2 false 0 0)) 3 4 (mkI far oo).
Proof.
  destruct e_merge_means as (S & H & Q).
  assert (H3 : means (Add e_merge (mkK 3 4 false far oo)) 5 (fun t => S t /\ sat (mkK 3 4 false far oo) t)).
  { apply (m_more _ 3 _ (mkK 3 4 false far oo)); auto; [goodk|cbn; lia..]. }
  set (S3 := fun t => S t /\ sat (mkK 3 4 false far oo) t) in *.
  assert (E : forall t, S3 t /\ sat (mkK 0 2 false 0 0) t <-> S3 t).
  { intros t. unfold S3. rewrite Q, (sat_eq 0 2) by discriminate. split; [tauto|]. intros ((A & B) & C). split; auto. lia. }
  destruct (C110_program Debug _ _ _ H3) as (g & _ & _ & A & Co).
  exists S3, (fun t => S3 t /\ sat (mkK 0 2 false 0 0) t). split; auto. split.
  { apply m_add; auto; [goodk| |].
    - destruct Co as (t & T). exists t. apply E. auto.
    - eapply spread_ext; [|eapply answer_spread; exact A]. intros t. symmetry. apply E. }
  split; [tauto|].
  assert (F : forall v, let t := fun i => if i =? 0 then v else if i =? 1 then v + far else if i =? 2 then v else if i =? 4 then far else 0 in S3 t).
  { intros v t. split.
    - apply Q. change (v + far - v = far /\ v - (v + far) = - far). lia.
    - split; [right; unfold t; cbv; discriminate|left; reflexivity]. }
  split; [intros v; eexists; split; [apply (F v)|]; change (v - 0 = v); lia|].
  split; [intros v; eexists; split; [apply (F v)|]; change (v - 0 = v); lia|].
  intros p. exists (mkG 5 (g_data g_m ++ [- oo; - oo; - oo; 0; - oo; - oo; - oo; - oo; - oo; - oo; - oo; 0; far; - oo; - oo; - oo])).
  split; destruct p; vm_compute; reflexivity.
Qed.
