(** The system clock (property C91). *)
From Verif Require Import Machine TimeValue Spec Tac TimeValueProofs Prop_TimeValue Clock.

Definition sec_ns : Z := 1000000000.
(** 2^31 seconds after the epoch: 19 January 2038, 3:14:08 UTC *)
Definition year_2038 : Z := 2147483648 * sec_ns.

(** Until 2038 the timestamp is the last tick not after the clock, in the same second. *)
Theorem C91_now_partial : forall p clock, 0 <= clock < year_2038 ->
  exists t, ts_now p clock = Ret t /\ finite t /\ 0 <= t /\ t * sec_ns <= clock * ticks_per_sec < (t + 1) * sec_ns /\
    as_secs t = clock / sec_ns.
Proof.
  intros p clock C. unfold year_2038, sec_ns in *. unfold ts_now. destruct (clock <? 0) eqn:T; [lia|].
  pose proof (Z.div_mod clock 1000000000 ltac:(lia)) as D. pose proof (Z.mod_pos_bound clock 1000000000 ltac:(lia)) as M.
  set (s := clock / 1000000000) in *. set (n := clock mod 1000000000) in *.
  assert (S : 0 <= s <= 2147483647) by lia.
  destruct (C07_of_std_partial p s n ltac:(lia) ltac:(lia)) as [H _]. destruct (H ltac:(lia)) as (r & E & F & R).
  exists r. split; [exact E|]. split; [exact F|].
  pose proof (C06_as_secs r) as A. unfold rounds_to_zero, ticks_per_sec in *. destruct R as [R _].
  specialize (R ltac:(lia)). split; [lia|]. split; [lia|]. lia.
Qed.
(** From 2038 on it is infinite. *)
Lemma now_late : forall p clock, year_2038 <= clock -> ts_now p clock = Ret oo.
Proof.
  intros p clock G. unfold ts_now. unfold year_2038, sec_ns in G. destruct (clock <? 0) eqn:T; [lia|].
  assert (0 <= clock / 1000000000) by (apply Z.div_pos; lia).
  apply (proj2 (C07_of_std_partial p _ _ H (Z.mod_pos_bound clock 1000000000 ltac:(lia)))). lia.
Qed.
(** Before the epoch, and only then, [now] panics. *)
Theorem C91_before_epoch : forall p clock, ts_now p clock = Panic <-> clock < 0.
Proof.
  intros p clock. split; intros H.
  - destruct (Z_lt_le_dec clock 0) as [L|L]; [exact L|]. exfalso.
    destruct (Z_lt_le_dec clock year_2038) as [G|G].
    + destruct (C91_now_partial p clock ltac:(lia)) as (t & E & _). congruence.
    + rewrite (now_late p _ G) in H. discriminate H.
  - unfold ts_now. destruct (clock <? 0) eqn:T; [reflexivity|lia].
Qed.

(** The timestamps follow the clock, whatever its values since the epoch. *)
Theorem C91_monotone : forall p a b t u, a <= b -> ts_now p a = Ret t -> ts_now p b = Ret u -> t <= u.
Proof.
  intros p a b t u L A B.
  assert (0 <= a). { destruct (Z_lt_le_dec a 0) as [N|N]; [|exact N]. apply (C91_before_epoch p) in N. congruence. }
  destruct (Z_lt_le_dec b year_2038) as [G|G].
  - destruct (C91_now_partial p a ltac:(lia)) as (t' & A' & _ & _ & At & _).
    destruct (C91_now_partial p b ltac:(lia)) as (u' & B' & _ & _ & Bt & _).
    assert (t' = t) by congruence. assert (u' = u) by congruence. subst t' u'. unfold ticks_per_sec, sec_ns in *. lia.
  - rewrite (now_late p b G) in B. injection B as <-.
    destruct (Z_lt_le_dec a year_2038) as [K|K].
    + destruct (C91_now_partial p a ltac:(lia)) as (t' & A' & F & _). assert (t' = t) by congruence. subst t'.
      unfold finite in F. lia.
    + rewrite (now_late p a K) in A. injection A as <-. lia.
Qed.

(** Until 2038, the time elapsed since a timestamp taken from the clock is the time measured by the clock, up to one tick;
    it is negative only if the clock went back. *)
Theorem C91_elapsed_partial : forall p a b t, 0 <= a < year_2038 -> 0 <= b < year_2038 -> ts_now p a = Ret t ->
  exists d, ts_elapsed p b t = Ret d /\ finite d /\ Z.abs (d * sec_ns - (b - a) * ticks_per_sec) < sec_ns /\ (a <= b -> 0 <= d) /\
    ts_add_tv t d = ts_now p b.
Proof.
  intros p a b t A B E.
  destruct (C91_now_partial p a A) as (t' & E' & Ft & Pt & At & _). assert (t' = t) by congruence. subst t'.
  destruct (C91_now_partial p b B) as (u & Eu & Fu & Pu & Bt & _).
  assert (M : a <= b -> t <= u) by (intros; eapply C91_monotone; eauto).
  assert (D : finite (u - t)) by (unfold finite in *; lia).
  exists (u - t). unfold ts_elapsed. rewrite Eu. simpl. unfold ts_sub_ts. rewrite C01_sub_exact by auto.
  split; [reflexivity|]. split; [exact D|]. split; [unfold ticks_per_sec, sec_ns in *; lia|]. split; [lia|].
  unfold ts_add_tv. rewrite tv_add_finite by auto. f_equal. rewrite clamp_id; [lia|]. pts; lia.
Qed.

(** Finding: from 19 January 2038 on, every timestamp taken from the clock is +oo, and asking for the time elapsed since one
    panics. *)
Theorem C91_after_2038 : forall p a b, year_2038 <= a -> year_2038 <= b ->
  exists t, ts_now p a = Ret t /\ ~ finite t /\ ts_elapsed p b t = Panic.
Proof.
  intros p a b A B. exists oo. rewrite (now_late p a A). split; [reflexivity|]. split; [unfold finite; lia|].
  unfold ts_elapsed. rewrite (now_late p b B). reflexivity.
Qed.
Theorem C91_2038_refuted : exists a b t, 0 <= a <= b /\ finite (a / sec_ns * ticks_per_sec) /\ ts_now Debug a = Ret t /\
  ~ finite t /\ ts_elapsed Debug b t = Panic.
Proof.
  exists year_2038, (year_2038 + 1000000000), oo. split; [unfold year_2038, sec_ns; lia|].
  split; [vm_compute; auto|]. split; [vm_compute; reflexivity|]. split; [unfold finite; lia|]. vm_compute. reflexivity.
Qed.
(** 16 November 2026 at 13:46:09.5, then one second later; the last nanosecond before the limit, and the limit. *)
Example C91_case : ts_now Debug 1794836769500000000 = Ret 1927191306665197568 /\
  ts_elapsed Debug 1794836770500000000 1927191306665197568 = Ret ticks_per_sec /\
  0 <= 1794836770500000000 < year_2038 /\
  ts_now Debug (year_2038 - 1) = Ret 2305843009213693950 /\ ts_now Debug year_2038 = Ret oo /\ ts_now Release (-1) = Panic /\
  ts_elapsed Debug (year_2038 + 5) oo = Panic.
Proof. repeat split; try (vm_compute; congruence). Qed.

Print Assumptions C91_now_partial.
Print Assumptions C91_before_epoch.
Print Assumptions C91_monotone.
Print Assumptions C91_elapsed_partial.
Print Assumptions C91_after_2038.
Print Assumptions C91_2038_refuted.
