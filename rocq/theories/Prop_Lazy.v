(** Combinators over any sources (property C102). *)
From Verif Require Import Machine TimeValue Interval Iter Lazy TimeSet Spec SpecSets Tac
  TimeValueProofs SetProofs SetOpsProofs Prop_Interval Prop_TimeSet Prop_Pipeline.

(** [begins n s l s']: the first calls of [next] yield [l], and leave the source in [s'];
    nothing is said of what follows, which may never end. *)
Inductive begins {S A} (next : S -> outcome (option A * S)) : S -> list A -> S -> Prop :=
| begins_nil s : begins next s [] s
| begins_cons s s1 s2 a l : next s = Ret (Some a, s1) -> begins next s1 l s2 ->
    begins next s (a :: l) s2.

(** the iterator of an expression when it is made, and its [next] *)
Fixpoint state_of (e : expr) : Type :=
  match e with
  | Atom _ => list interval
  | Not a => lcompl (state_of a)
  | Or a b => lunion (state_of a) (state_of b)
  | And a b => linter (state_of a) (state_of b)
  | Minus a b => linter (state_of a) (lcompl (state_of b))
  end.
Fixpoint start (e : expr) : state_of e :=
  match e with
  | Atom l => l
  | Not a => lcompl_init (start a)
  | Or a b => lunion_init (start a) (start b)
  | And a b => linter_init (start a) (start b)
  | Minus a b => linter_init (start a) (lcompl_init (start b))
  end.
Fixpoint next_of (fuel : nat) (e : expr) : source (state_of e) :=
  match e with
  | Atom _ => list_next
  | Not a => lcompl_next (next_of fuel a) fuel
  | Or a b => lunion_next (next_of fuel a) (next_of fuel b) fuel
  | And a b => linter_next (next_of fuel a) (next_of fuel b) fuel
  | Minus a b => linter_next (next_of fuel a) (lcompl_next (next_of fuel b) fuel) fuel
  end.

(** ** Reading a fused source *)

Lemma fuse_yields {S} (n : source S) s l : yields n s l -> yields (fuse_next n) (Some s) l.
Proof.
  induction 1 as [s s' E|s s' a l E H IH].
  - econstructor 1. cbn. rewrite E. reflexivity.
  - econstructor 2; [cbn; rewrite E; reflexivity|exact IH].
Qed.
Lemma fuse_begins {S} (n : source S) s l s' : begins n s l s' ->
  begins (fuse_next n) (Some s) l (Some s').
Proof.
  induction 1 as [s|s s1 s2 a l E H IH]; [constructor|].
  econstructor; [cbn; rewrite E; reflexivity|exact IH].
Qed.
Lemma fuse_read {S} (n : source S) f l : yields (fuse_next n) f l ->
  exists f', fuse_next n f = Ret (hd_error l, f') /\ yields (fuse_next n) f' (tl l).
Proof.
  intros H. inv H.
  - exists s'. split; [exact H0|]. cbn. destruct f as [s|]; cbn in H0.
    + destruct (n s) as [[[y|] s2]| | |]; cbn in H0; inv H0. econstructor 1. reflexivity.
    + inv H0. econstructor 1. reflexivity.
  - exists s'. split; [exact H0|exact H1].
Qed.
Lemma begins_read {S} (n : source S) f a l f2 : begins n f (a :: l) f2 ->
  exists f', n f = Ret (Some a, f') /\ begins n f' l f2.
Proof. intros H. inv H. eauto. Qed.
Lemma begins_trans {S} (n : source S) s l s1 m s2 : begins n s l s1 -> begins n s1 m s2 ->
  begins n s (l ++ m) s2.
Proof. induction 1; intros; cbn; [assumption|]. econstructor; eauto. Qed.

(** ** One turn over sources is one turn over the lists that they yield *)

Section Two.
  Context {SI SJ : Type}.
  Variable ni : source SI.
  Variable nj : source SJ.

  Definition like_i (m : linter SI SJ) (s : inter_state) : Prop :=
    yields (fuse_next ni) (li_i m) (in_i s) /\ yields (fuse_next nj) (li_j m) (in_j s) /\
    li_phase m = in_phase s /\ li_tmp m = in_tmp s.

  Lemma inter_sim m s s' t : like_i m s -> inter_turn s = (s', t) ->
    exists m', linter_turn ni nj m = Ret (m', t) /\ like_i m' s'.
  Proof.
    destruct m as [fi fj ph tmp], s as [a b ph' tmp']. intros (Hi & Hj & P & T) E.
    cbn in Hi, Hj, P, T. subst ph' tmp'. unfold linter_turn; cbn [li_phase li_i li_j li_tmp].
    destruct ph.
    - destruct (fuse_read _ _ _ Hi) as (fi' & Ri & Yi), (fuse_read _ _ _ Hj) as (fj' & Rj & Yj).
      rewrite Ri, Rj. cbn [bind fst snd].
      unfold inter_turn in *; cbn [in_phase in_i in_j in_tmp] in *.
      destruct a as [|i ri], b as [|j rj]; cbn [hd_error read tl] in *; tests_in E; inv E;
        (eexists; split; [reflexivity|]); repeat split; assumption.
    - destruct (fuse_read _ _ _ Hi) as (fi' & Ri & Yi). rewrite Ri. cbn [bind fst snd].
      unfold inter_turn in *; cbn [in_phase in_i in_j in_tmp] in *.
      destruct a as [|i ri]; cbn [hd_error read tl] in *; tests_in E; inv E;
        (eexists; split; [reflexivity|]); repeat split; assumption.
    - destruct (fuse_read _ _ _ Hj) as (fj' & Rj & Yj). rewrite Rj. cbn [bind fst snd].
      unfold inter_turn in *; cbn [in_phase in_i in_j in_tmp] in *.
      destruct b as [|j rj]; cbn [hd_error read tl] in *; tests_in E; inv E;
        (eexists; split; [reflexivity|]); repeat split; assumption.
    - inv E. eexists; split; [reflexivity|]. repeat split; assumption.
  Qed.

  Definition like_u (m : lunion SI SJ) (s : union_state) : Prop :=
    yields (fuse_next ni) (lu_i m) (un_i s) /\ yields (fuse_next nj) (lu_j m) (un_j s) /\
    lu_phase m = un_phase s /\ lu_tmp m = un_tmp s.

  Lemma union_sim m s s' t : like_u m s -> union_turn s = (s', t) ->
    exists m', lunion_turn ni nj m = Ret (m', t) /\ like_u m' s'.
  Proof.
    destruct m as [fi fj ph tmp], s as [a b ph' tmp']. intros (Hi & Hj & P & T) E.
    cbn in Hi, Hj, P, T. subst ph' tmp'. unfold lunion_turn; cbn [lu_phase lu_i lu_j lu_tmp].
    destruct ph;
      try (destruct (fuse_read _ _ _ Hi) as (fi' & Ri & Yi); rewrite Ri; cbn [bind fst snd]);
      try (destruct (fuse_read _ _ _ Hj) as (fj' & Rj & Yj); rewrite Rj; cbn [bind fst snd]);
      unfold union_turn in *; cbn [un_phase un_i un_j un_tmp] in *; cbv zeta in *;
      try destruct a as [|i ri]; try destruct b as [|j rj]; cbn [hd_error read tl] in *; tests_in E; inv E;
        (eexists; split; [reflexivity|]); repeat split; assumption.
  Qed.

  Definition like_c (m : lcompl SI) (s : compl_state) : Prop :=
    yields (fuse_next ni) (lc_i m) (co_iter s) /\ lc_lower m = co_lower s.

  Lemma compl_for_sim l : forall f lo k o s', yields (fuse_next ni) f l -> (length l < k)%nat ->
    compl_for l lo = (o, s') ->
    exists m', lcompl_for ni k f lo = Ret (o, m') /\ like_c m' s'.
  Proof.
    induction l as [|n r IH]; intros f lo [|k] o s' Y L E; try lia;
      destruct (fuse_read _ _ _ Y) as (f' & R & Y'); cbn [hd_error tl length] in *;
      cbn [lcompl_for]; rewrite R; cbn [bind].
    - rewrite E. eexists; split; [reflexivity|]. split; [|reflexivity]. cbn [lc_i].
      cbn [compl_for] in E. destruct (is_future_infinite lo); inv E; exact Y'.
    - cbn [compl_for] in E. destruct (lo <? lower n).
      + inv E. eexists; split; [reflexivity|]. split; [exact Y'|reflexivity].
      + apply IH; auto. lia.
  Qed.
  Lemma compl_sim m s k o s' : like_c m s -> (length (co_iter s) < k)%nat ->
    compl_next s = (o, s') ->
    exists m', lcompl_next ni k m = Ret (o, m') /\ like_c m' s'.
  Proof.
    destruct m as [f lo'], s as [l lo]. intros (Y & P) L E. cbn in Y, P, L. subst lo'.
    unfold compl_next, lcompl_next in *; cbn [co_iter co_lower lc_i lc_lower] in *.
    destruct (is_past_infinite lo).
    - destruct (fuse_read _ _ _ Y) as (f' & R & Y'). rewrite R. cbn [bind].
      destruct l as [|n r]; cbn [hd_error tl] in *; cbv zeta in *.
      + apply (compl_for_sim [] _ _ _ _ _ Y'); auto.
      + destruct (just_before (lower n) =? - INF).
        * apply (compl_for_sim r _ _ _ _ _ Y'); auto. cbn in L. lia.
        * inv E. eexists; split; [reflexivity|]. split; [exact Y'|reflexivity].
    - apply (compl_for_sim l _ _ _ _ _ Y); auto.
  Qed.
End Two.

(** the [loop] over sources follows the [loop] over lists *)
Lemma turns_sim {S M A} (step : S -> S * turn A) (lstep : M -> outcome (M * turn A))
  (R : M -> S -> Prop) :
  (forall m s s' t, R m s -> step s = (s', t) -> exists m', lstep m = Ret (m', t) /\ R m' s') ->
  forall k m s o s', R m s -> run_next step k s = Ret (o, s') ->
  exists m', turns lstep k m = Ret (o, m') /\ R m' s'.
Proof.
  intros sim. induction k as [|k IH]; intros m s o s' H E; [discriminate|]. cbn in E |- *.
  destruct (step s) as [s1 t] eqn:Es. destruct (sim _ _ _ _ H Es) as (m1 & -> & R1). cbn [bind].
  destruct t; [eauto| |]; inv E; eauto.
Qed.
Lemma emits_sim {S M A} (step : S -> S * turn A) (lstep : M -> outcome (M * turn A))
  (R : M -> S -> Prop) mu k :
  (forall m s s' t, R m s -> step s = (s', t) -> exists m', lstep m = Ret (m', t) /\ R m' s') ->
  (forall s s' t, step s = (s', t) -> t <> Stop -> (mu s' < mu s)%nat) ->
  forall l m s, R m s -> (mu s < k)%nat -> emits step s l -> yields (turns lstep k) m l.
Proof.
  intros sim dec. induction l as [|a l IH]; intros m s H L E;
    pose proof (run_next_emits step mu dec k s _ E L) as N.
  - destruct N as [s' N]. destruct (turns_sim step lstep R sim k m s _ _ H N) as (m' & T & _).
    econstructor 1. exact T.
  - destruct N as (s' & N & E' & D).
    destruct (turns_sim step lstep R sim k m s _ _ H N) as (m' & T & R').
    econstructor 2; [exact T|]. apply (IH m' s'); auto. lia.
Qed.

Lemma inter_list_emits a b l : inter_list a b = Ret l -> emits inter_turn (inter_init a b) l.
Proof.
  intros H. destruct (emits_total inter_turn inter_mu inter_dec (inter_init a b)) as [m E].
  pose proof (inter_collect_emits _ _ E) as C. unfold inter_list in H. rewrite C in H. inv H. exact E.
Qed.
Lemma union_list_emits a b l : union_list a b = Ret l -> emits union_turn (union_init a b) l.
Proof.
  intros H. destruct (emits_total union_turn union_mu union_dec (union_init a b)) as [m E].
  pose proof (union_collect_emits _ _ E) as C. unfold union_list in H. rewrite C in H. inv H. exact E.
Qed.
Lemma collect_yields {S A} (n : S -> outcome (option A * S)) k : forall s l,
  run_collect n k s = Ret l -> yields n s l.
Proof.
  induction k as [|k IH]; intros s l H; [discriminate|]. cbn in H.
  destruct (n s) as [[[a|] s']| | |] eqn:E; cbn in H; try discriminate.
  - destruct (run_collect n k s') as [m| | |] eqn:C; cbn in H; inv H.
    econstructor 2; eauto.
  - inv H. econstructor 1; eauto.
Qed.

(** ** Sources that end *)

(** Whatever the sources are, the combinators yield what they yield on the lists of the
    intervals of the sources. *)
Theorem C102_inter : forall SI SJ (ni : source SI) (nj : source SJ) i j a b l k,
  yields ni i a -> yields nj j b -> inter_list a b = Ret l ->
  (length a + length b < k)%nat ->
  yields (linter_next ni nj k) (linter_init i j) l.
Proof.
  intros SI SJ ni nj i j a b l k Yi Yj E K.
  refine (emits_sim inter_turn _ (like_i ni nj) inter_mu k (inter_sim ni nj) inter_dec l _
           (inter_init a b) _ _ (inter_list_emits _ _ _ E)).
  - repeat split; now apply fuse_yields.
  - unfold inter_mu, inter_init; cbn. lia.
Qed.
Theorem C102_union : forall SI SJ (ni : source SI) (nj : source SJ) i j a b l k,
  yields ni i a -> yields nj j b -> union_list a b = Ret l ->
  (length a + length b + 1 < k)%nat ->
  yields (lunion_next ni nj k) (lunion_init i j) l.
Proof.
  intros SI SJ ni nj i j a b l k Yi Yj E K.
  refine (emits_sim union_turn _ (like_u ni nj) union_mu k (union_sim ni nj) union_dec l _
           (union_init a b) _ _ (union_list_emits _ _ _ E)).
  - repeat split; now apply fuse_yields.
  - unfold union_mu, union_init; cbn. lia.
Qed.
Lemma compl_for_shorter l : forall lo o s', compl_for l lo = (o, s') ->
  (length (co_iter s') <= length l)%nat.
Proof.
  induction l as [|n r IH]; intros lo o s' E; cbn [compl_for] in E.
  - destruct (is_future_infinite lo); inv E; cbn; lia.
  - destruct (lo <? lower n); [inv E; cbn; lia|]. specialize (IH _ _ _ E). cbn. lia.
Qed.
Lemma compl_next_shorter s o s' : compl_next s = (o, s') ->
  (length (co_iter s') <= length (co_iter s))%nat.
Proof.
  destruct s as [l lo]. unfold compl_next; cbn [co_iter co_lower]. intros E.
  destruct (is_past_infinite lo); [|now apply compl_for_shorter in E].
  destruct l as [|n r]; [now apply compl_for_shorter in E|]. cbv zeta in E.
  destruct (just_before (lower n) =? - INF).
  - apply compl_for_shorter in E. cbn. lia.
  - inv E. cbn. lia.
Qed.
Theorem C102_compl : forall SI (ni : source SI) i a l k,
  yields ni i a -> compl_list a = Ret l -> (length a < k)%nat ->
  yields (lcompl_next ni k) (lcompl_init i) l.
Proof.
  intros SI ni i a l k Y E K. unfold compl_list, compl_collect in E. apply collect_yields in E.
  assert (L : like_c ni (lcompl_init i) (compl_init a)) by (split; [now apply fuse_yields|reflexivity]).
  assert (K' : (length (co_iter (compl_init a)) < k)%nat) by exact K.
  revert L K'. generalize (lcompl_init i). clear Y K. revert E. generalize (compl_init a).
  induction 1 as [s s' E|s s' x l E H IH]; intros m L K; inv E;
    destruct (compl_next s) as [o q] eqn:N; inv H1 || inv H0.
  - destruct (compl_sim ni _ _ _ _ _ L K N) as (m' & T & _). econstructor 1; exact T.
  - destruct (compl_sim ni _ _ _ _ _ L K N) as (m' & T & L'). econstructor 2; [exact T|].
    apply IH; [exact L'|]. apply compl_next_shorter in N. lia.
Qed.

Lemma compl_for_progress l : forall lo x s', compl_for l lo = (Some x, s') ->
  (length (co_iter s') < length l)%nat \/ s' = mkCompl [] INF.
Proof.
  induction l as [|n r IH]; intros lo x s' E; cbn [compl_for] in E.
  - destruct (is_future_infinite lo); inv E. auto.
  - destruct (lo <? lower n); [inv E; cbn; lia|]. specialize (IH _ _ _ E). cbn. intuition lia.
Qed.
Lemma compl_next_progress s x s' : compl_next s = (Some x, s') ->
  (length (co_iter s') < length (co_iter s))%nat \/ s' = mkCompl [] INF.
Proof.
  destruct s as [l lo]. unfold compl_next; cbn [co_iter co_lower]. intros E.
  destruct (is_past_infinite lo); [|now apply compl_for_progress in E].
  destruct l as [|n r]; [now apply compl_for_progress in E|]. cbv zeta in E.
  destruct (just_before (lower n) =? - INF).
  - apply compl_for_progress in E. cbn. intuition lia.
  - inv E. cbn. lia.
Qed.
Lemma compl_total a : exists l, compl_list a = Ret l.
Proof.
  unfold compl_list, compl_collect.
  assert (G : forall k s, (length (co_iter s) + 1 < k)%nat ->
    exists l, run_collect (fun s => Ret (compl_next s)) k s = Ret l).
  { induction k as [|k IH]; intros s L; [lia|]. cbn.
    destruct (compl_next s) as [[x|] s'] eqn:N; [|eauto].
    apply compl_next_progress in N as [N| ->].
    - destruct (IH s') as [l ->]; [lia|]. cbn. eauto.
    - destruct k; [lia|]. eexists. reflexivity. }
  apply G. unfold compl_fuel. lia.
Qed.

(** ** Chains *)

Lemma list_yields l : yields list_next l l.
Proof. induction l; [econstructor 1|econstructor 2]; cbn; eauto. Qed.

(** Chained iterators, of any depth, yield what is obtained by collecting each of them
    before it is handed to the next one; with enough turns [next] always comes back. *)
Theorem C102_chain : forall e, exists l k0, by_iter e = Ret l /\
  forall k, (k0 <= k)%nat -> yields (next_of k e) (start e) l.
Proof.
  assert (TI : forall a b, exists l, inter_list a b = Ret l).
  { intros a b. destruct (emits_total inter_turn inter_mu inter_dec (inter_init a b)) as [m E].
    exists m. now apply inter_collect_emits. }
  assert (TU : forall a b, exists l, union_list a b = Ret l).
  { intros a b. destruct (emits_total union_turn union_mu union_dec (union_init a b)) as [m E].
    exists m. now apply union_collect_emits. }
  induction e as [l|e (x & k0 & E & Y)|e (x & k0 & E & Y) f (y & k1 & F & Z)
    |e (x & k0 & E & Y) f (y & k1 & F & Z)|e (x & k0 & E & Y) f (y & k1 & F & Z)]; cbn [by_iter].
  - exists l, O. split; [reflexivity|]. intros k _. apply list_yields.
  - destruct (compl_total x) as [l L]. exists l, (k0 + length x + 1)%nat. rewrite E. cbn [bind].
    split; [exact L|]. intros k K. cbn [next_of start]. apply (C102_compl _ _ _ x); auto; [apply Y|]; lia.
  - destruct (TU x y) as [l L]. exists l, (k0 + k1 + length x + length y + 2)%nat. rewrite E, F. cbn [bind].
    split; [exact L|]. intros k K. cbn [next_of start].
    apply (C102_union _ _ _ _ _ _ x y); auto; [apply Y|apply Z|]; lia.
  - destruct (TI x y) as [l L]. exists l, (k0 + k1 + length x + length y + 1)%nat. rewrite E, F. cbn [bind].
    split; [exact L|]. intros k K. cbn [next_of start].
    apply (C102_inter _ _ _ _ _ _ x y); auto; [apply Y|apply Z|]; lia.
  - destruct (compl_total y) as [c C]. destruct (TI x c) as [l L].
    exists l, (k0 + k1 + length x + length y + length c + 1)%nat. rewrite E, F. cbn [bind]. unfold excl_list.
    rewrite C. cbn [bind].
    split; [exact L|]. intros k K. cbn [next_of start].
    apply (C102_inter _ _ _ _ _ _ x c); auto; [apply Y; lia| |lia].
    apply (C102_compl _ _ _ y); auto; [apply Z|]; lia.
Qed.

(** ** Sources of which only the first intervals are known *)

Section Begin.
  Context {SI SJ : Type}.
  Variable ni : source SI.
  Variable nj : source SJ.

  Definition known_i (m : linter SI SJ) (s : inter_state) : Prop :=
    (exists e, begins (fuse_next ni) (li_i m) (in_i s) e) /\
    (exists e, begins (fuse_next nj) (li_j m) (in_j s) e) /\
    li_phase m = in_phase s /\ li_tmp m = in_tmp s.

  Lemma inter_known m s s' t : known_i m s -> inter_turn s = (s', t) -> t <> Stop ->
    exists m', linter_turn ni nj m = Ret (m', t) /\ known_i m' s'.
  Proof.
    destruct m as [fi fj ph tmp], s as [a b ph' tmp']. intros ((ei & Hi) & (ej & Hj) & P & T) E N.
    cbn in Hi, Hj, P, T. subst ph' tmp'. unfold linter_turn; cbn [li_phase li_i li_j li_tmp].
    unfold inter_turn in E; cbn [in_phase in_i in_j in_tmp] in E.
    destruct ph.
    - destruct a as [|i ri], b as [|j rj]; try (inv E; congruence).
      destruct (begins_read _ _ _ _ _ Hi) as (fi' & Ri & Bi), (begins_read _ _ _ _ _ Hj) as (fj' & Rj & Bj).
      rewrite Ri, Rj. cbn [bind fst snd read].
      unfold inter_turn; cbn [in_phase in_i in_j in_tmp].
      tests_in E; inv E; (eexists; split; [reflexivity|]); repeat split; cbn; eauto.
    - destruct a as [|i ri]; [inv E; congruence|].
      destruct (begins_read _ _ _ _ _ Hi) as (fi' & Ri & Bi).
      rewrite Ri. cbn [bind fst snd read].
      unfold inter_turn; cbn [in_phase in_i in_j in_tmp].
      tests_in E; inv E; (eexists; split; [reflexivity|]); repeat split; cbn; eauto.
    - destruct b as [|j rj]; [inv E; congruence|].
      destruct (begins_read _ _ _ _ _ Hj) as (fj' & Rj & Bj).
      rewrite Rj. cbn [bind fst snd read].
      unfold inter_turn; cbn [in_phase in_i in_j in_tmp].
      tests_in E; inv E; (eexists; split; [reflexivity|]); repeat split; cbn; eauto.
    - inv E. congruence.
  Qed.

  Lemma compl_for_known l : forall f e lo k y s', begins (fuse_next ni) f l e -> (length l < k)%nat ->
    compl_for l lo = (Some y, s') -> s' <> mkCompl [] INF ->
    exists m', lcompl_for ni k f lo = Ret (Some y, m') /\
      (exists e', begins (fuse_next ni) (lc_i m') (co_iter s') e') /\ lc_lower m' = co_lower s'.
  Proof.
    induction l as [|n r IH]; intros f e lo [|k] y s' B L E N; cbn [length] in L; try lia;
      cbn [compl_for] in E.
    - destruct (is_future_infinite lo); inv E; congruence.
    - destruct (begins_read _ _ _ _ _ B) as (f' & R & B'). cbn [lcompl_for]. rewrite R. cbn [bind].
      destruct (lo <? lower n).
      + inv E. eexists; split; [reflexivity|]. cbn. eauto.
      + eapply IH; eauto. lia.
  Qed.
  Lemma compl_known m s k y s' :
    (exists e, begins (fuse_next ni) (lc_i m) (co_iter s) e) -> lc_lower m = co_lower s ->
    (length (co_iter s) < k)%nat ->
    compl_next s = (Some y, s') -> s' <> mkCompl [] INF ->
    exists m', lcompl_next ni k m = Ret (Some y, m') /\
      (exists e', begins (fuse_next ni) (lc_i m') (co_iter s') e') /\ lc_lower m' = co_lower s'.
  Proof.
    destruct m as [f lo'], s as [l lo]. intros (e & B) P L E N. cbn in B, P, L. subst lo'.
    unfold compl_next, lcompl_next in *; cbn [co_iter co_lower lc_i lc_lower] in *.
    destruct (is_past_infinite lo).
    - destruct l as [|n r].
      + cbn [compl_for] in E. destruct (is_future_infinite lo); inv E; congruence.
      + destruct (begins_read _ _ _ _ _ B) as (f' & R & B'). rewrite R. cbn [bind]. cbv zeta in *.
        destruct (just_before (lower n) =? - INF).
        * eapply compl_for_known; eauto. cbn in L. lia.
        * inv E. eexists; split; [reflexivity|]. cbn. eauto.
    - eapply compl_for_known; eauto.
  Qed.
End Begin.

Lemma turns_known {S M A} (step : S -> S * turn A) (lstep : M -> outcome (M * turn A))
  (R : M -> S -> Prop) :
  (forall m s s' t, R m s -> step s = (s', t) -> t <> Stop ->
     exists m', lstep m = Ret (m', t) /\ R m' s') ->
  forall k m s o s', R m s -> run_next step k s = Ret (Some o, s') ->
  exists m', turns lstep k m = Ret (Some o, m') /\ R m' s'.
Proof.
  intros sim. induction k as [|k IH]; intros m s o s' H E; [discriminate|]. cbn in E |- *.
  destruct (step s) as [s1 t] eqn:Es.
  destruct t; try (destruct (sim _ _ _ _ H Es) as (m1 & -> & R1); [congruence|]; cbn [bind]); eauto.
  - inv E. eauto.
  - discriminate.
Qed.

(** What the intersection of the intervals already known yields, the intersection of the
    sources yields too, and first, whatever the sources do next: end, go on or never come
    back. *)
Theorem C102_inter_begins : forall SI SJ (ni : source SI) (nj : source SJ) i i' j j' a b l k,
  begins ni i a i' -> begins nj j b j' -> inter_list a b = Ret l ->
  (length a + length b < k)%nat ->
  exists s', begins (linter_next ni nj k) (linter_init i j) l s'.
Proof.
  intros SI SJ ni nj i i' j j' a b l k Bi Bj E K. apply inter_list_emits in E.
  assert (H : known_i ni nj (linter_init i j) (inter_init a b)).
  { repeat split; cbn; eexists; apply fuse_begins; eauto. }
  assert (L : (inter_mu (inter_init a b) < k)%nat) by (unfold inter_mu, inter_init; cbn; lia).
  revert H L E. generalize (linter_init i j). generalize (inter_init a b). clear Bi Bj K.
  induction l as [|x l IH]; intros s m H L E; [exists m; constructor|].
  pose proof (run_next_emits inter_turn inter_mu inter_dec k s _ E L) as (s1 & N & E' & D).
  destruct (turns_known inter_turn _ _ (inter_known ni nj) _ _ _ _ _ H N) as (m1 & T & H1).
  destruct (IH s1 m1 H1) as (s' & B); [lia|exact E'|]. exists s'. econstructor; eauto.
Qed.
(** So does the complement, but for the last interval, which depends on the rest. *)
Theorem C102_compl_begins : forall SI (ni : source SI) i i' a l z k,
  begins ni i a i' -> compl_list a = Ret (l ++ [z]) -> (length a < k)%nat ->
  exists s', begins (lcompl_next ni k) (lcompl_init i) l s'.
Proof.
  intros SI ni i i' a l z k B E K. unfold compl_list, compl_collect in E. apply collect_yields in E.
  assert (H : exists e, begins (fuse_next ni) (lc_i (lcompl_init i)) (co_iter (compl_init a)) e).
  { cbn. eexists. apply fuse_begins; eauto. }
  assert (P : lc_lower (lcompl_init i) = co_lower (compl_init a)) by reflexivity.
  assert (K' : (length (co_iter (compl_init a)) < k)%nat) by exact K.
  revert H P K' E. generalize (lcompl_init i). generalize (compl_init a). clear B K.
  induction l as [|x l IH]; intros s m H P K E; [exists m; constructor|].
  inv E. match goal with Q : Ret _ = Ret _ |- _ => injection Q as N end.
  match goal with Q : yields _ s' _ |- _ => rename Q into Y end.
  destruct (compl_known ni _ _ _ _ _ H P K N) as (m1 & T & H1 & P1).
  { intros ->. inv Y; [destruct l; discriminate|]. discriminate. }
  apply compl_next_shorter in N.
  destruct (IH s' m1) as (s2 & B); auto; [lia|]. exists s2. econstructor; eauto.
Qed.

(** ** One source ends, the other goes on *)

Lemma just_before_le y : just_before y <= y.
Proof. pts. tests; lia. Qed.

Section Stops.
  Context {SI SJ : Type}.
  Variable ni : source SI.
  Variable nj : source SJ.
  Variable x : interval.
  Hypothesis full : lower x <= upper x.

  (** an interval that is not empty and ends before [x], not next to it *)
  Definition before_x (y : interval) : Prop :=
    lower y <= upper y /\ upper y < just_before (lower x).

  Lemma before_tests y : before_x y ->
    (upper y <? just_before (lower x)) = true /\ (upper x <? just_before (lower y)) = false.
  Proof.
    intros [A B]. pose proof (just_before_le (lower y)). pose proof (just_before_le (lower x)).
    split; lia.
  Qed.

  Definition past_j (m : linter SI SJ) (s : inter_state) : Prop :=
    yields (fuse_next ni) (li_i m) (in_i s) /\
    (exists e, begins (fuse_next nj) (li_j m) (in_j s) e) /\
    li_phase m = in_phase s /\ li_tmp m = in_tmp s /\ Forall before_x (in_i s) /\
    ((exists b, in_j s = b ++ [x]) /\ (in_phase s = IWaitJ -> before_x (in_tmp s)) \/
     in_phase s = IWaitI /\ in_tmp s = x \/ in_phase s = IEnd).

  Lemma past_j_sim m s s' t : past_j m s -> inter_turn s = (s', t) ->
    exists m', linter_turn ni nj m = Ret (m', t) /\ past_j m' s'.
  Proof.
    destruct m as [fi fj ph tmp], s as [a b ph' tmp'].
    intros (Hi & (ej & Hj) & P & T & Fa & C) E.
    cbn in Hi, Hj, P, T, Fa, C. subst ph' tmp'. unfold linter_turn; cbn [li_phase li_i li_j li_tmp].
    destruct ph.
    - destruct C as [[(b' & ->) _]|[[D _]|D]]; try discriminate.
      destruct (fuse_read _ _ _ Hi) as (fi' & Ri & Yi).
      unfold inter_turn in *; cbn [in_phase in_i in_j in_tmp] in *.
      destruct b' as [|j rj]; cbn [app] in *;
        destruct (begins_read _ _ _ _ _ Hj) as (fj' & Rj & Bj);
        rewrite Ri, Rj; cbn [bind fst snd read];
        (destruct a as [|i ri]; cbn [hd_error read tl] in *;
         [inv E; eexists; (split; [reflexivity|]); repeat split; cbn; eauto|]).
      + inversion Fa as [|i0 r0 Fi Fr]; subst. destruct (before_tests _ Fi) as [T1 T2].
        rewrite T1 in *. inv E. eexists; split; [reflexivity|]. repeat split; cbn; eauto.
      + inversion Fa as [|i0 r0 Fi Fr]; subst.
        tests_in E; inv E; (eexists; split; [reflexivity|]); repeat split; cbn; eauto;
          left; split; eauto; discriminate.
    - destruct (fuse_read _ _ _ Hi) as (fi' & Ri & Yi). rewrite Ri. cbn [bind fst snd].
      unfold inter_turn in *; cbn [in_phase in_i in_j in_tmp] in *.
      destruct a as [|i ri]; cbn [hd_error read tl] in *;
        [inv E; eexists; (split; [reflexivity|]); repeat split; cbn; eauto|].
      inversion Fa as [|i0 r0 Fi Fr]; subst.
      destruct C as [[(b' & ->) _]|[[_ ->]|D]]; try discriminate.
      + tests_in E; inv E; (eexists; split; [reflexivity|]); repeat split; cbn; eauto;
          left; split; eauto; discriminate.
      + destruct (before_tests _ Fi) as [T1 T2]. rewrite T1 in *. inv E.
        eexists; split; [reflexivity|]. repeat split; cbn; eauto.
    - destruct C as [[(b' & ->) W]|[[D _]|D]]; try discriminate. specialize (W eq_refl).
      unfold inter_turn in *; cbn [in_phase in_i in_j in_tmp] in *.
      destruct b' as [|j rj]; cbn [app] in *;
        destruct (begins_read _ _ _ _ _ Hj) as (fj' & Rj & Bj);
        rewrite Rj; cbn [bind fst snd read] in *.
      + destruct (before_tests _ W) as [T1 T2]. rewrite T1, T2 in *. inv E.
        eexists; split; [reflexivity|]. repeat split; cbn; eauto.
      + tests_in E; inv E; (eexists; split; [reflexivity|]); repeat split; cbn; eauto;
          left; split; eauto; discriminate.
    - inv E. eexists; split; [reflexivity|]. repeat split; cbn; eauto.
  Qed.

  Definition past_i (m : linter SI SJ) (s : inter_state) : Prop :=
    (exists e, begins (fuse_next ni) (li_i m) (in_i s) e) /\
    yields (fuse_next nj) (li_j m) (in_j s) /\
    li_phase m = in_phase s /\ li_tmp m = in_tmp s /\ Forall before_x (in_j s) /\
    ((exists a, in_i s = a ++ [x]) /\ (in_phase s = IWaitI -> before_x (in_tmp s)) \/
     in_phase s = IWaitJ /\ in_tmp s = x \/ in_phase s = IEnd).

  Lemma past_i_sim m s s' t : past_i m s -> inter_turn s = (s', t) ->
    exists m', linter_turn ni nj m = Ret (m', t) /\ past_i m' s'.
  Proof.
    destruct m as [fi fj ph tmp], s as [a b ph' tmp'].
    intros ((ei & Hi) & Hj & P & T & Fb & C) E.
    cbn in Hi, Hj, P, T, Fb, C. subst ph' tmp'. unfold linter_turn; cbn [li_phase li_i li_j li_tmp].
    destruct ph.
    - destruct C as [[(a' & ->) _]|[[D _]|D]]; try discriminate.
      destruct (fuse_read _ _ _ Hj) as (fj' & Rj & Yj).
      unfold inter_turn in *; cbn [in_phase in_i in_j in_tmp] in *.
      destruct a' as [|i ri]; cbn [app] in *;
        destruct (begins_read _ _ _ _ _ Hi) as (fi' & Ri & Bi);
        rewrite Ri, Rj; cbn [bind fst snd read];
        (destruct b as [|j rj]; cbn [hd_error read tl] in *;
         [inv E; eexists; (split; [reflexivity|]); repeat split; cbn; eauto|]).
      + inversion Fb as [|j0 r0 Fj Fr]; subst. destruct (before_tests _ Fj) as [T1 T2].
        rewrite T1, T2 in *. inv E. eexists; split; [reflexivity|]. repeat split; cbn; eauto.
      + inversion Fb as [|j0 r0 Fj Fr]; subst.
        tests_in E; inv E; (eexists; split; [reflexivity|]); repeat split; cbn; eauto;
          left; split; eauto; discriminate.
    - destruct C as [[(a' & ->) W]|[[D _]|D]]; try discriminate. specialize (W eq_refl).
      unfold inter_turn in *; cbn [in_phase in_i in_j in_tmp] in *.
      destruct a' as [|i ri]; cbn [app] in *;
        destruct (begins_read _ _ _ _ _ Hi) as (fi' & Ri & Bi);
        rewrite Ri; cbn [bind fst snd read] in *.
      + destruct (before_tests _ W) as [T1 T2]. rewrite T1, T2 in *. inv E.
        eexists; split; [reflexivity|]. repeat split; cbn; eauto.
      + tests_in E; inv E; (eexists; split; [reflexivity|]); repeat split; cbn; eauto;
          left; split; eauto; discriminate.
    - destruct (fuse_read _ _ _ Hj) as (fj' & Rj & Yj). rewrite Rj. cbn [bind fst snd].
      unfold inter_turn in *; cbn [in_phase in_i in_j in_tmp] in *.
      destruct b as [|j rj]; cbn [hd_error read tl] in *;
        [inv E; eexists; (split; [reflexivity|]); repeat split; cbn; eauto|].
      inversion Fb as [|j0 r0 Fj Fr]; subst.
      destruct C as [[(a' & ->) _]|[[_ ->]|D]]; try discriminate.
      + tests_in E; inv E; (eexists; split; [reflexivity|]); repeat split; cbn; eauto;
          left; split; eauto; discriminate.
      + destruct (before_tests _ Fj) as [T1 T2]. rewrite T1 in *. inv E.
        eexists; split; [reflexivity|]. repeat split; cbn; eauto.
    - inv E. eexists; split; [reflexivity|]. repeat split; cbn; eauto.
  Qed.
End Stops.

(** The intersection with a source that ends comes to an end, even if the other source
    never does: it stops reading it at the first interval [x] past the end of the one that
    ends, and what comes after [x] plays no part. *)
Theorem C102_inter_stops : forall SI SJ (ni : source SI) (nj : source SJ) i j a b x l k,
  lower x <= upper x ->
  (forall y, In y a -> lower y <= upper y /\ upper y < just_before (lower x)) ->
  yields ni i a -> (exists j', begins nj j (b ++ [x]) j') ->
  inter_list a (b ++ [x]) = Ret l -> (length a + length b + 1 < k)%nat ->
  yields (linter_next ni nj k) (linter_init i j) l.
Proof.
  intros SI SJ ni nj i j a b x l k Fx Fa Yi (j' & Bj) E K.
  refine (emits_sim inter_turn _ (past_j ni nj x) inter_mu k (past_j_sim ni nj x Fx) inter_dec l _
           (inter_init a (b ++ [x])) _ _ (inter_list_emits _ _ _ E)).
  - split; [now apply fuse_yields|]. split; [eexists; apply fuse_begins; eauto|].
    split; [reflexivity|]. split; [reflexivity|]. split; [apply Forall_forall; exact Fa|].
    left. split; [exists b; reflexivity|discriminate].
  - unfold inter_mu, inter_init; cbn. rewrite app_length. cbn. lia.
Qed.
Theorem C102_inter_stops_sym : forall SI SJ (ni : source SI) (nj : source SJ) i j a b x l k,
  lower x <= upper x ->
  (forall y, In y b -> lower y <= upper y /\ upper y < just_before (lower x)) ->
  (exists i', begins ni i (a ++ [x]) i') -> yields nj j b ->
  inter_list (a ++ [x]) b = Ret l -> (length a + length b + 1 < k)%nat ->
  yields (linter_next ni nj k) (linter_init i j) l.
Proof.
  intros SI SJ ni nj i j a b x l k Fx Fb (i' & Bi) Yj E K.
  refine (emits_sim inter_turn _ (past_i ni nj x) inter_mu k (past_i_sim ni nj x Fx) inter_dec l _
           (inter_init (a ++ [x]) b) _ _ (inter_list_emits _ _ _ E)).
  - split; [eexists; apply fuse_begins; eauto|]. split; [now apply fuse_yields|].
    split; [reflexivity|]. split; [reflexivity|]. split; [apply Forall_forall; exact Fb|].
    left. split; [exists a; reflexivity|discriminate].
  - unfold inter_mu, inter_init; cbn. rewrite app_length. cbn. lia.
Qed.

(** ** Size hints of chains *)

(** [size_hint] of an iterator that has just been made *)
Fixpoint hint_of (e : expr) : Z * option Z :=
  match e with
  | Atom l => (Z.of_nat (length l), Some (Z.of_nat (length l)))
  | Not a => lcompl_hint (lc_lower (lcompl_init (start a))) (hint_of a)
  | Or a b => lunion_hint (lu_phase (lunion_init (start a) (start b))) (hint_of a) (hint_of b)
  | And a b => linter_hint (li_phase (linter_init (start a) (start b))) (hint_of a) (hint_of b)
  | Minus a b =>
    linter_hint (li_phase (linter_init (start a) (lcompl_init (start b)))) (hint_of a)
      (lcompl_hint (lc_lower (lcompl_init (start b))) (hint_of b))
  end.
Fixpoint canonical_atoms (e : expr) : Prop :=
  match e with
  | Atom l => canonical l
  | Not a => canonical_atoms a
  | Or a b | And a b | Minus a b => canonical_atoms a /\ canonical_atoms b
  end.

Lemma compl_length a l : compl_list a = Ret l -> (length l <= length a + 1)%nat.
Proof.
  unfold compl_list, compl_collect. intros E. apply collect_yields in E.
  assert (G : forall s l, yields (fun s => Ret (compl_next s)) s l ->
    (length l <= length (co_iter s) + 1)%nat /\ (s = mkCompl [] INF -> l = [])).
  { clear. induction 1 as [s s' E|s s' x l E H [IH IH0]].
    - cbn. split; [lia|reflexivity].
    - inv E. split.
      + destruct (compl_next_progress _ _ _ H1) as [P| ->]; [cbn; lia|].
        rewrite (IH0 eq_refl). cbn. lia.
      + intros ->. discriminate. }
  exact (proj1 (G (compl_init a) l E)).
Qed.
Lemma inter_length a b l : inter_list a b = Ret l -> (length l <= length a + length b)%nat.
Proof.
  intros E. apply inter_list_emits in E.
  assert (L : (length l <= inter_mu (inter_init a b))%nat).
  { revert E. generalize (inter_init a b). intros s E.
    induction E as [s s' E|s s' l E H IH|s s' x l E H IH]; cbn [length]; [lia| |];
      (apply inter_dec in E; [lia|congruence]). }
  unfold inter_mu, inter_init in L; cbn in L. lia.
Qed.
Lemma union_length a b l : union_list a b = Ret l -> (length l <= length a + length b)%nat.
Proof.
  intros E. apply union_list_emits in E.
  assert (L : (length l <= union_mu (union_init a b))%nat).
  { revert E. generalize (union_init a b). intros s E.
    induction E as [s s' E|s s' l E H IH|s s' x l E H IH]; cbn [length]; [lia| |];
      (apply union_dec in E; [lia|congruence]). }
  unfold union_mu, union_init in L; cbn in L. lia.
Qed.

(** Before the first call the hint of a chain of any depth is right: the number of
    intervals is at least the first and at most the second component, which exists. *)
Theorem C102_hint : forall e l, canonical_atoms e -> by_iter e = Ret l ->
  fst (hint_of e) <= Z.of_nat (length l) /\
  exists hi, snd (hint_of e) = Some hi /\ Z.of_nat (length l) <= hi.
Proof.
  assert (G : forall e l, canonical_atoms e -> by_iter e = Ret l ->
    (fst (hint_of e) <= Z.of_nat (length l) /\ (0 < fst (hint_of e) -> canonical l)) /\
    exists hi, snd (hint_of e) = Some hi /\ Z.of_nat (length l) <= hi).
  { induction e as [m|e IH|e IHe f IHf|e IHe f IHf|e IHe f IHf]; intros l C E; cbn [by_iter] in E;
      cbn [canonical_atoms] in C.
    - inv E. cbn. split; [split; [lia|auto]|]. eexists; split; [reflexivity|lia].
    - destruct (by_iter e) as [x| | |] eqn:Ee; try discriminate. cbn [bind] in E.
      destruct (IH x C eq_refl) as ((F1 & F2) & hi & F3 & F4).
      pose proof (compl_length _ _ E) as L.
      cbn [hint_of]. unfold lcompl_hint. cbn [fst snd lc_lower lcompl_init].
      replace (is_finite (- INF)) with false by reflexivity. rewrite F3. cbn [option_map].
      split; [|eexists; split; [reflexivity|]; lia].
      destruct (Z_lt_le_dec 0 (fst (hint_of e))) as [P|P].
      + specialize (F2 P). rewrite compl_list_not in E by auto. inv E.
        split; [|intros _; apply (set_not_spec x F2)].
        destruct (C34_compl_hint_partial x F2) as (Q & _).
        unfold compl_hint, compl_init in Q; cbn [co_iter fst] in Q. lia.
      + split; lia.
    - destruct (by_iter e) as [x| | |] eqn:Ee; try discriminate. cbn [bind] in E.
      destruct (by_iter f) as [y| | |] eqn:Ef; try discriminate. cbn [bind] in E.
      destruct (IHe x (proj1 C) eq_refl) as (_ & h1 & A1 & A2).
      destruct (IHf y (proj2 C) eq_refl) as (_ & h2 & B1 & B2).
      pose proof (union_length _ _ _ E) as L.
      cbn [hint_of]. cbn [lu_phase lunion_init]. unfold lunion_hint. rewrite A1, B1. cbn [fst snd].
      split; [split; lia|]. eexists; split; [reflexivity|]. lia.
    - destruct (by_iter e) as [x| | |] eqn:Ee; try discriminate. cbn [bind] in E.
      destruct (by_iter f) as [y| | |] eqn:Ef; try discriminate. cbn [bind] in E.
      destruct (IHe x (proj1 C) eq_refl) as (_ & h1 & A1 & A2).
      destruct (IHf y (proj2 C) eq_refl) as (_ & h2 & B1 & B2).
      pose proof (inter_length _ _ _ E) as L.
      cbn [hint_of]. cbn [li_phase linter_init]. unfold linter_hint. rewrite A1, B1. cbn [fst snd].
      split; [split; lia|]. eexists; split; [reflexivity|]. lia.
    - destruct (by_iter e) as [x| | |] eqn:Ee; try discriminate. cbn [bind] in E.
      destruct (by_iter f) as [y| | |] eqn:Ef; try discriminate. cbn [bind] in E.
      destruct (IHe x (proj1 C) eq_refl) as (_ & h1 & A1 & A2).
      destruct (IHf y (proj2 C) eq_refl) as (_ & h2 & B1 & B2).
      unfold excl_list in E. destruct (compl_total y) as [c Ec]. rewrite Ec in E. cbn [bind] in E.
      pose proof (inter_length _ _ _ E) as L. pose proof (compl_length _ _ Ec) as L'.
      cbn [hint_of]. cbn [li_phase linter_init lc_lower lcompl_init]. unfold linter_hint, lcompl_hint.
      replace (is_finite (- INF)) with false by reflexivity.
      rewrite A1, B1. cbn [fst snd option_map].
      split; [split; lia|]. eexists; split; [reflexivity|]. lia. }
  intros e l C E. destruct (G e l C E) as ((A & _) & B). auto.
Qed.

(** ** Cases *)

(** a source that never ends: [0,5], [10,15], [20,25], … *)
Definition every_ten : source Z := fun n => Ret (Some (mkI (10 * n) (10 * n + 5)), n + 1).
(** a source that yields again after [None] *)
Definition blinking : source bool := fun s =>
  if s then Ret (Some (mkI 1 12), false) else Ret (None, true).

Example C102_stops_case : yields (linter_next every_ten blinking 9) (linter_init 0 true)
  [mkI 1 5; mkI 10 12].
Proof.
  apply (C102_inter_stops_sym _ _ _ _ _ _ [mkI 0 5; mkI 10 15] [mkI 1 12] (mkI 20 25)).
  - cbn; lia.
  - intros y [<-|[]]. vm_compute. split; [discriminate|reflexivity].
  - eexists. repeat (econstructor; [reflexivity|]). constructor.
  - econstructor 2; [reflexivity|]. econstructor 1. reflexivity.
  - vm_compute. reflexivity.
  - cbn. lia.
Qed.
Example C102_begins_case : exists s', begins (lcompl_next every_ten 9) (lcompl_init 0)
  [mkI (- oo) (-1); mkI 6 9; mkI 16 19] s'.
Proof.
  eapply (C102_compl_begins _ _ _ _ [mkI 0 5; mkI 10 15; mkI 20 25] _ (mkI 26 oo)).
  - repeat (econstructor; [reflexivity|]). constructor.
  - vm_compute. reflexivity.
  - cbn. lia.
Qed.
Example C102_chain_case :
  let e := Minus (Or (Atom [mkI 0 5]) (Not (Atom [mkI 3 20]))) (And (Atom [mkI (-9) 2]) (Atom [mkI 1 50])) in
  by_iter e = Ret [mkI (- oo) 0; mkI 3 5; mkI 21 oo] /\
  yields (next_of 20 e) (start e) [mkI (- oo) 0; mkI 3 5; mkI 21 oo] /\ hint_of e = (0, Some 6).
Proof.
  split; [vm_compute; reflexivity|]. split; [|reflexivity].
  apply (collect_yields _ 5). vm_compute. reflexivity.
Qed.
