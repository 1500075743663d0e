(** Collecting constraints in a graph (property C75). *)
From Verif Require Import Machine TimeValue Spec Tac Interval SpecSets Graph GraphProofs SpecGraph GraphHist GraphInv
  Prop_Graph Prop_Propagation.

(** [Extend::extend] panics exactly when the graph and the constraints have no common solution; the graph
    it leaves has the common solutions, tightly.  Missing: constraints outside the graph when the iterator
    says that it gives one constraint (see C45), and constraints not bounded as [room] says. *)
Theorem C75_extend_partial : forall p N B ks g hint l, room N B -> history p N B ks g ->
  Forall (good N B) l -> honest hint l -> (hint = Some 1 -> Forall (inside g) l) ->
  ((exists t, solution p g t /\ Forall (fun k => sat k t) l) /\
   exists g', g_extend_expect p g hint l = Ret g' /\ minimal p g' /\
     forall t, solution p g' t <-> solution p g t /\ Forall (fun k => sat k t) l) \/
  (~ (exists t, solution p g t /\ Forall (fun k => sat k t) l) /\ g_extend_expect p g hint l = Panic).
Proof.
  intros p N B ks g hint l R H G Hn H1.
  destruct (C44_extend_partial p N B ks g hint l R H G Hn H1) as (g' & r & E & A & _ & _).
  unfold g_extend_expect. rewrite E. cbn [bind fst snd].
  assert (D : accepted r \/ ~ accepted r) by (unfold accepted; destruct r; intuition congruence).
  destruct D as [D|D].
  - left. split; [now apply A|]. exists g'. split; [destruct D as [->| ->]; reflexivity|].
    assert (H' : history p N B (l ++ ks) g') by (eapply h_extend; eauto).
    split; [now apply (C40_solutions_partial p N B _ g' (fun _ => 0) R H')|]. intros t.
    rewrite (proj1 (C40_solutions_partial p N B _ g' t R H')), (proj1 (C40_solutions_partial p N B _ g t R H)), Forall_app. tauto.
  - right. split; [now rewrite <- A|]. unfold accepted in D. destruct r; auto; destruct D; auto.
Qed.
(** Collecting constraints panics exactly when they have no solution; the graph has their solutions, tightly.
    Missing: a constraint of an instant with itself given by an iterator that says that it gives one
    constraint (refuted below), and constraints not bounded as [room] says. *)
Theorem C75_collect_partial : forall p N B hint l, room N B -> Forall (good N B) l -> honest hint l ->
  (hint = Some 1 -> Forall (fun k => k_from k <> k_to k) l) ->
  ((exists t, Forall (fun k => sat k t) l) /\
   exists g, g_from_iter p hint l = Ret g /\ minimal p g /\ forall t, solution p g t <-> Forall (fun k => sat k t) l) \/
  (~ (exists t, Forall (fun k => sat k t) l) /\ g_from_iter p hint l = Panic).
Proof.
  intros p N B hint l R G Hn H1.
  assert (H : history p N B [] g_default).
  { apply h_new with (n := 0); [unfold room in R; lia|]. destruct p; reflexivity. }
  assert (S0 : forall t, solution p g_default t) by (intros t i j; cbn; lia).
  assert (D : (hint = Some 1 /\ exists k, l = [k]) \/ (hint = Some 1 -> Forall (inside g_default) l)).
  { destruct hint as [h|]; [|right; discriminate]. destruct (Z.eq_dec h 1) as [->|]; [|right; congruence].
    cbn in Hn. destruct l as [|k [|k2 l]]; [right; auto|left; eauto|cbn in Hn; lia]. }
  destruct D as [(-> & k & ->)|D].
  - specialize (H1 eq_refl). inv H1. inv G. assert (F : forall i, fresh [] i) by (intros; constructor).
    assert (O : ~ inside g_default k) by (destruct H2 as (_ & _ & X & _); unfold inside; cbn; lia).
    destruct (C45_fresh_partial p N B [] g_default k R H H2 O H3 (F _) (F _)) as (g & E & _ & M & _).
    left. assert (H' : history p N B [k] g) by (eapply h_attach; eauto; right; reflexivity).
    pose proof (C40_solutions_partial p N B [k] g) as Q. split.
    + destruct (Q (fun _ => 0) R H') as (_ & _ & t & St). exists t. now apply (Q t R H').
    + exists g. split; [|split; auto; intros; now apply Q].
      unfold g_from_iter, g_extend_expect, g_extend. cbn [Z.eqb Pos.eqb]. rewrite E. reflexivity.
  - destruct (C75_extend_partial p N B [] g_default hint l R H G Hn D) as [((t & _ & St) & g & E & M & S)|(X & E)].
    + left. split; [eauto|]. exists g. split; auto. split; auto. intros u. rewrite S. split; [tauto|auto].
    + right. split; auto. intros (t & St). apply X. eauto.
Qed.
Definition kc1 : kons := mkK 0 1 false 5 10.
Definition kc2 : kons := mkK 1 2 false (- 3) 4.
Definition kc3 : kons := mkK 0 2 false 20 oo.
Example C75_case : room 3 10 /\ room 3 20 /\ Forall (good 3 20) [kc1; kc2; kc3] /\ (exists t, Forall (fun k => sat k t) [kc1; kc2]) /\
  g_from_iter Debug (Some 2) [kc1; kc2] = Ret (mkG 3 [0; - 10; 0; 5; - 14; - 4; 0; - 3; 2]) /\
  g_from_iter Debug (Some 3) [kc1; kc2; kc3] = Panic /\
  g_from_iter Debug (Some 1) [kc3] = Ret (mkG 3 [0; - oo; 0; - oo; - oo; - oo; 0; - oo; 20]).
Proof.
  split; [unfold room, oo; lia|]. split; [unfold room, oo; lia|]. split.
  { repeat apply Forall_cons; try apply Forall_nil; unfold good, wf_iv, within, kc1, kc2, kc3, oo; cbn; lia. }
  split; [|repeat split; vm_compute; reflexivity].
  exists (fun i => Z.min 5 (i * 5)). repeat apply Forall_cons; try apply Forall_nil; unfold sat, In_ext, kc1, kc2, oo; cbn; try lia.
Qed.
(** Collecting one constraint of an instant with itself depends on what the iterator says of its length:
    an impossible constraint may be accepted, and a harmless one may give a graph that is not tight. *)
Theorem C75_refuted : forall p, exists k k' g g',
  good 1 10 k /\ (forall t, ~ sat k t) /\ g_from_iter p None [k] = Panic /\ g_from_iter p (Some 1) [k] = Ret g /\
  good 1 10 k' /\ (forall t, sat k' t) /\ g_from_iter p (Some 1) [k'] = Ret g' /\ ~ minimal p g'.
Proof.
  intros p. exists (mkK 0 0 false 5 10), (mkK 0 0 false (- 5) 10), (mkG 1 [- 10]), (mkG 1 [- 10]).
  split; [unfold good, wf_iv, within, oo; cbn; lia|]. split.
  { intros t. unfold sat, In_ext, oo. cbn. lia. }
  split; [destruct p; vm_compute; reflexivity|]. split; [destruct p; vm_compute; reflexivity|].
  split; [unfold good, wf_iv, within, oo; cbn; lia|]. split.
  { intros t. unfold sat, In_ext, oo. cbn. lia. }
  split; [destruct p; vm_compute; reflexivity|]. intros M.
  assert (E : g_timespan p (mkG 1 [- 10]) 0 0 = Ret (mkI (- 10) 10)) by (destruct p; vm_compute; reflexivity).
  destruct (M 0 0) as (iv & T & X); [cbn; lia|cbn; lia|]. rewrite E in T. inv T.
  destruct (X 5) as (t & _ & Y); [unfold In_ext, oo; cbn; lia|lia].
Qed.
