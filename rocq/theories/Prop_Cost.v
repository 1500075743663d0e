(** The number of additions made by the propagation (property C90).

    [c_propagate], [c_global], [c_merge] and [c_extend] of [Cost.v] are the functions of [Graph.v] with a count; the
    theorems say that they return what the functions of [Graph.v] return. *)
From Verif Require Import Machine TimeValue Interval Graph Spec Tac GraphProofs Cost.

(** ** Forgetting the count *)
Definition erase {A} (m : counted A) : outcome A := omap fst m.

Lemma erase_free : forall A (m : outcome A), erase (free m) = m.
Proof. intros A [x| | |]; reflexivity. Qed.
Lemma erase_add : forall a b, erase (c_add a b) = tv_add a b.
Proof. intros a b. unfold erase, c_add. destruct (tv_add a b); reflexivity. Qed.
Lemma erase_bind : forall A B (m : counted A) (f : A -> counted B),
  erase (c_bind m f) = (x <- erase m ;; erase (f x)).
Proof.
  intros A B [[x n]| | |] f; try reflexivity. unfold erase, c_bind, omap. simpl.
  destruct (f x) as [[y k]| | |]; reflexivity.
Qed.
Lemma bind_ext : forall A B (m : outcome A) (f h : A -> outcome B), (forall x, f x = h x) -> bind m f = bind m h.
Proof. intros A B [x| | |] f h E; simpl; auto. Qed.
Lemma erase_fold : forall A B (f : A -> B -> counted A) (h : A -> B -> outcome A),
  (forall a b, erase (f a b) = h a b) -> forall l a, erase (c_fold f a l) = ofold h a l.
Proof.
  intros A B f h E. induction l as [|b l IH]; intros a; simpl; [reflexivity|].
  rewrite erase_bind, E. apply bind_ext. exact IH.
Qed.
Ltac er := repeat first [rewrite erase_bind | rewrite erase_free | rewrite erase_add | (apply bind_ext; intro)
                       | reflexivity | progress simpl].

Lemma erase_plb : forall p g i j, erase (c_plb p g i j) = g_plb p g i j.
Proof.
  intros p g i j. unfold c_plb, g_plb. rewrite erase_bind, erase_free. apply bind_ext. intros v.
  rewrite erase_bind. rewrite (erase_fold _ _ _ (fun g i0 => a <- g_lower p g i0 i ;; val <- tv_add a v ;; g_raise p g i0 j val)).
  - apply bind_ext. intros g1. apply erase_fold. intros g2 x. rewrite erase_bind, erase_free. apply bind_ext. intros w.
    apply erase_fold. intros g3 y. er.
  - intros g2 x. er.
Qed.
Lemma erase_propagate : forall p g k, erase (c_propagate p g k) = g_propagate p g k.
Proof.
  intros p g k. unfold c_propagate, g_propagate. destruct (k_empty k); [reflexivity|]. cbv zeta.
  destruct (g_size g <=? Z.max (k_from k) (k_to k)); [apply erase_free|].
  rewrite erase_bind, erase_free. apply bind_ext. intros ft. rewrite erase_bind, erase_free. apply bind_ext. intros tf.
  destruct (k_lo k <=? ft).
  - destruct (tv_neg (k_up k) <=? tf); [reflexivity|]. destruct (k_up k <? ft); [reflexivity|].
    rewrite erase_bind, erase_free. apply bind_ext. intros g1. rewrite erase_bind, erase_plb. apply bind_ext. reflexivity.
  - destruct (tv_neg (k_lo k) <? tf); [reflexivity|].
    rewrite erase_bind, erase_free. apply bind_ext. intros g1. rewrite erase_bind, erase_plb. apply bind_ext. intros g2.
    rewrite erase_bind, erase_free. apply bind_ext. intros u. destruct (u <? tv_neg (k_up k)); [|reflexivity].
    rewrite erase_bind, erase_free. apply bind_ext. intros g3. rewrite erase_bind, erase_plb. apply bind_ext. reflexivity.
Qed.
Lemma erase_row : forall p g k i, erase (c_gp_row p g k i) = g_gp_row p g k i.
Proof. intros. unfold c_gp_row, g_gp_row. apply erase_fold. intros. er. Qed.
Lemma erase_rows : forall p k l g, erase (c_gp_rows p g k l) = g_gp_rows p g k l.
Proof.
  intros p k. induction l as [|i l IH]; intros g; simpl; [reflexivity|].
  rewrite erase_bind, erase_row. apply bind_ext. intros g1. rewrite erase_bind, erase_free. apply bind_ext. intros d.
  destruct (is_strictly_positive d); [reflexivity|apply IH].
Qed.
Lemma erase_turns : forall p l g, erase (c_gp_turns p g l) = g_gp_turns p g l.
Proof.
  intros p. induction l as [|k l IH]; intros g; simpl; [reflexivity|].
  rewrite erase_bind, erase_rows. apply bind_ext. intros [g1 [|]]; [apply IH|reflexivity].
Qed.
Lemma erase_global : forall p g, erase (c_global p g) = g_global p g.
Proof. intros. apply erase_turns. Qed.
Lemma erase_merge : forall p g h, erase (c_merge p g h) = g_merge p g h.
Proof.
  intros p g h. unfold c_merge, g_merge. cbv zeta.
  destruct (if g_size g <? g_size h then (h, g) else (g, h)) as [a b].
  destruct (zip_max (g_data a) (g_data b)) as [d [|]]; [apply erase_global|reflexivity].
Qed.
Lemma erase_extend : forall p g hint ks, erase (c_extend p g hint ks) = g_extend p g hint ks.
Proof.
  intros p g hint ks. unfold c_extend, g_extend.
  assert (D : erase (g1 <~ free (ofold (g_insert p) g ks) ;;; c_global p g1) = (g1 <- ofold (g_insert p) g ks ;; g_global p g1)).
  { rewrite erase_bind, erase_free. apply bind_ext. intros. apply erase_global. }
  destruct hint as [[|[q|q|]|q]|]; try exact D; [reflexivity|].
  destruct ks; [reflexivity|apply erase_propagate].
Qed.
Lemma erased : forall A (m : counted A) x, erase m = Ret x -> exists c, m = Ret (x, c).
Proof. intros A [[y c]| | |] x; try discriminate. intros [= <-]. eauto. Qed.

(** ** Counting *)
Definition len (l : list Z) : Z := Z.of_nat (length l).
Lemma len_zrange : forall n, 0 <= n -> len (zrange 0 n) = n.
Proof. intros n H. unfold len, zrange. rewrite map_length, seq_length. lia. Qed.

Lemma c_bind_inv : forall A B (m : counted A) (f : A -> counted B) y c, c_bind m f = Ret (y, c) ->
  exists x c1 c2, m = Ret (x, c1) /\ f x = Ret (y, c2) /\ c = c1 + c2.
Proof.
  intros A B [[x c1]| | |] f y c; try discriminate. unfold c_bind. simpl.
  destruct (f x) as [[y' c2]| | |] eqn:E; try discriminate. simpl. intros [= <- <-]. eauto 8.
Qed.
Lemma free_inv : forall A (m : outcome A) x c, free m = Ret (x, c) -> m = Ret x /\ c = 0.
Proof. intros A [y| | |] x c; try discriminate. intros [= -> ->]. auto. Qed.
Lemma add_inv : forall a b x c, c_add a b = Ret (x, c) -> c = 1.
Proof. intros a b x c. unfold c_add. destruct (tv_add a b); try discriminate. intros [= _ <-]. reflexivity. Qed.
Ltac cinv H x c E :=
  let c2 := fresh "c" in let Ec := fresh "Ec" in
  apply c_bind_inv in H; destruct H as (x & c & c2 & E & H & Ec); try (match type of Ec with ?v = _ => subst v end);
  try (apply free_inv in E; destruct E as [E ->]).

Lemma fold_cost : forall B (f : graph -> B -> counted graph) n k,
  (forall g b g' c, g_size g = n -> f g b = Ret (g', c) -> g_size g' = n /\ c = k) ->
  forall l g g' c, g_size g = n -> c_fold f g l = Ret (g', c) -> g_size g' = n /\ c = k * Z.of_nat (length l).
Proof.
  intros B f n k F. induction l as [|b l IH]; intros g g' c S E.
  - injection E as <- <-. simpl. split; [exact S|lia].
  - cbn [c_fold] in E. apply c_bind_inv in E. destruct E as (g1 & c1 & c2 & E1 & E2 & ->).
    destruct (F _ _ _ _ S E1) as [S1 ->]. destruct (IH _ _ _ S1 E2) as [S2 ->]. split; [exact S2|].
    cbn [length]. lia.
Qed.
Lemma set_keeps : forall p g i j v g', g_set p g i j v = Ret g' -> g_size g' = g_size g.
Proof.
  intros p g i j v g'. unfold g_set. destruct (g_idx p i j) as [z| | |]; simpl; try discriminate.
  destruct (vset (g_data g) z v); simpl; try discriminate. intros [= <-]. reflexivity.
Qed.
Lemma raise_keeps : forall p g i j v g', g_raise p g i j v = Ret g' -> g_size g' = g_size g.
Proof.
  intros p g i j v g'. unfold g_raise. destruct (g_lower p g i j) as [k| | |]; simpl; try discriminate.
  destruct (k <? v); [apply set_keeps|]. intros [= <-]. reflexivity.
Qed.

Lemma turn_cost : forall p g i j a b g' c, (v <~ c_add a b ;;; free (g_raise p g i j v)) = Ret (g', c) ->
  g_size g' = g_size g /\ c = 1.
Proof.
  intros p g i j a b g' c F. cinv F v c1 E. apply add_inv in E. apply free_inv in F. destruct F as [F ->].
  apply raise_keeps in F. split; lia.
Qed.
Lemma plb_cost : forall p g i j g' c, 0 <= g_size g -> c_plb p g i j = Ret (g', c) ->
  g_size g' = g_size g /\ c = g_size g * g_size g + g_size g.
Proof.
  intros p g i j g' c N E. unfold c_plb in E. cinv E v c1 E1. cinv E g1 c1 E2.
  assert (A : g_size g1 = g_size g /\ c1 = 1 * Z.of_nat (length (zrange 0 (g_size g)))).
  { eapply fold_cost; [|reflexivity|exact E2]. intros g2 b g3 c4 S F. cinv F w c5 E3. apply turn_cost in F. lia. }
  destruct A as [S A]. fold (len (zrange 0 (g_size g))) in A. rewrite len_zrange in A by auto.
  match type of E with _ = Ret (_, ?c3) =>
    assert (D : g_size g' = g_size g /\ c3 = g_size g * Z.of_nat (length (zrange 0 (g_size g1)))) end.
  { eapply fold_cost; [|exact S|exact E]. intros g2 b g3 c4 S2 F. cinv F w c5 E3.
    match type of F with _ = Ret (_, ?c6) =>
      assert (D : g_size g3 = g_size g /\ c6 = 1 * Z.of_nat (length (zrange 0 (g_size g2)))) end.
    { eapply fold_cost; [|exact S2|exact F]. intros g4 b4 g5 c7 S4 K. cinv K u c8 E4. apply turn_cost in K. lia. }
    fold (len (zrange 0 (g_size g2))) in D. rewrite len_zrange in D by lia. lia. }
  destruct D as [S' D]. fold (len (zrange 0 (g_size g1))) in D. rewrite len_zrange in D by lia.
  split; [exact S'|]. rewrite S in D. lia.
Qed.
Lemma row_cost : forall p g k i g' c, 0 <= g_size g -> c_gp_row p g k i = Ret (g', c) -> g_size g' = g_size g /\ c = g_size g.
Proof.
  intros p g k i g' c N E. unfold c_gp_row in E.
  assert (A : g_size g' = g_size g /\ c = 1 * Z.of_nat (length (zrange 0 (g_size g)))).
  { eapply fold_cost; [|reflexivity|exact E]. intros g2 b g3 c4 S F. cinv F w c5 E3. cinv F w' c5 E4.
    apply turn_cost in F. lia. }
  fold (len (zrange 0 (g_size g))) in A. rewrite len_zrange in A by auto. lia.
Qed.
Lemma rows_cost : forall p k n, 0 <= n -> forall l g g' ok c, g_size g = n -> c_gp_rows p g k l = Ret ((g', ok), c) ->
  (if ok : bool then g_size g' = n /\ c = n * len l else 0 <= c <= n * len l).
Proof.
  intros p k n N. induction l as [|i l IH]; intros g g' ok c S E.
  - injection E as <- <- <-. unfold len; simpl. lia.
  - cbn [c_gp_rows] in E. cinv E g1 c1 E1. apply row_cost in E1; [|lia]. destruct E1 as [S1 ->].
    cinv E d c3 E2. unfold len in *. cbn [length]. destruct (is_strictly_positive d).
    + injection E as <- <- <-. nia.
    + specialize (IH g1 g' ok _ ltac:(lia) E). destruct ok; nia.
Qed.
Lemma turns_cost : forall p n, 0 <= n -> forall l g g' r c, g_size g = n -> c_gp_turns p g l = Ret ((g', r), c) ->
  0 <= c <= n * n * len l /\ (r = Propagated -> g_size g' = n /\ c = n * n * len l) /\ (r = Propagated \/ r = Fatal).
Proof.
  intros p n N. induction l as [|k l IH]; intros g g' r c S E.
  - injection E as <- <- <-. unfold len; simpl. split; [lia|]. split; [lia|auto].
  - cbn [c_gp_turns] in E. cinv E x c1 E1. destruct x as [g1 ok].
    pose proof (rows_cost p k n N _ _ _ _ _ S E1) as R. rewrite len_zrange in R by lia.
    unfold len in *. cbn [length]. cbn [fst snd] in E. rewrite S in R. destruct ok.
    + destruct R as [S1 ->]. destruct (IH _ _ _ _ S1 E) as (B & P & Q). split; [nia|]. split; [|exact Q].
      intros T. destruct (P T) as [P1 P2]. split; [exact P1|]. nia.
    + injection E as <- <- <-. split; [nia|]. split; [discriminate|auto].
Qed.

(** ** One constraint at a time: nothing, n² + n additions or twice as many (README.md:65, propagation.rs:119) *)
Theorem C90_propagate : forall p g k g' r, 0 <= g_size g -> g_propagate p g k = Ret (g', r) ->
  exists c, c_propagate p g k = Ret ((g', r), c) /\
    (c = 0 \/ c = g_size g * g_size g + g_size g \/ c = 2 * (g_size g * g_size g + g_size g)) /\
    (r <> Propagated -> c = 0) /\ (g_size g <= Z.max (k_from k) (k_to k) -> c = 0) /\
    (0 <= Z.max (k_from k) (k_to k) < g_size g -> g_size g' = g_size g /\ (r = Propagated -> 0 < c)).
Proof.
  intros p g k g' r N E. rewrite <- erase_propagate in E. apply erased in E. destruct E as [c E]. exists c. split; [exact E|].
  unfold c_propagate in E. destruct (k_empty k).
  { injection E as <- <- <-. intuition (try discriminate; lia). }
  cbv zeta in E. destruct (g_size g <=? Z.max (k_from k) (k_to k)) eqn:T.
  { apply free_inv in E. destruct E as [_ ->]. intuition lia. }
  cinv E ft c1 E1. cinv E tf c1 E2.
  destruct (k_lo k <=? ft).
  - destruct (tv_neg (k_up k) <=? tf). { injection E as <- <- <-. intuition (try discriminate; lia). }
    destruct (k_up k <? ft). { injection E as <- <- <-. intuition (try discriminate; lia). }
    cinv E g1 c1 E3. apply set_keeps in E3. cinv E g2 c1 E4. apply plb_cost in E4; [|lia]. destruct E4 as [S4 ->].
    injection E as <- <- <-. rewrite E3 in *. split; [lia|]. split; [congruence|]. split; [lia|]. intros M. split; [lia|nia].
  - destruct (tv_neg (k_lo k) <? tf). { injection E as <- <- <-. intuition (try discriminate; lia). }
    cinv E g1 c1 E3. apply set_keeps in E3. cinv E g2 c1 E4. apply plb_cost in E4; [|lia]. destruct E4 as [S4 ->].
    cinv E u c1 E5. destruct (u <? tv_neg (k_up k)).
    + cinv E g3 c1 E6. apply set_keeps in E6. cinv E g4 c1 E7. apply plb_cost in E7; [|lia]. destruct E7 as [S7 ->].
      injection E as <- <- <-. rewrite E6, S4, E3 in *. split; [lia|]. split; [congruence|]. split; [lia|].
      intros M. split; [lia|nia].
    + injection E as <- <- <-. rewrite E3 in *. split; [lia|]. split; [congruence|]. split; [lia|]. intros M. split; [lia|nia].
Qed.

(** ** All at once: n³ additions, fewer only on a contradiction (README.md:60, propagation.rs:155) *)
Theorem C90_global : forall p g g' r, 0 <= g_size g -> g_global p g = Ret (g', r) ->
  exists c, c_global p g = Ret ((g', r), c) /\ 0 <= c <= g_size g * g_size g * g_size g /\
    (r = Propagated -> c = g_size g * g_size g * g_size g) /\ (r = Propagated \/ r = Fatal).
Proof.
  intros p g g' r N E. rewrite <- erase_global in E. apply erased in E. destruct E as [c E]. exists c. split; [exact E|].
  unfold c_global in E. apply turns_cost with (n := g_size g) in E; auto. rewrite len_zrange in E by auto. intuition.
Qed.

(** Merging: nothing, or the global propagation of the larger graph. *)
Theorem C90_merge : forall p g h g' r, 0 <= g_size g -> 0 <= g_size h -> g_merge p g h = Ret (g', r) ->
  let n := Z.max (g_size g) (g_size h) in
  exists c, c_merge p g h = Ret ((g', r), c) /\ 0 <= c <= n * n * n.
Proof.
  intros p g h g' r N M E n. rewrite <- erase_merge in E. apply erased in E. destruct E as [c E]. exists c. split; [exact E|].
  unfold c_merge in E. cbv zeta in E.
  destruct (if g_size g <? g_size h then (h, g) else (g, h)) as [a b] eqn:Ab.
  assert (Sa : g_size a = n). { unfold n. destruct (g_size g <? g_size h) eqn:T; injection Ab as <- <-; lia. }
  assert (0 <= n) by lia.
  destruct (zip_max (g_data a) (g_data b)) as [d [|]].
  - unfold c_global in E. simpl g_size in E. apply turns_cost with (n := n) in E; auto.
    rewrite len_zrange in E by lia. rewrite Sa in E. intuition.
  - injection E as <- <- <-. nia.
Qed.

(** Several constraints at once: the global propagation of the graph that has all their instants, whatever their number. *)
Lemma diag_keeps : forall p l g g', ofold (fun g i => g_set p g i i 0) g l = Ret g' -> g_size g' = g_size g.
Proof.
  intros p. induction l as [|i l IH]; intros g g' E; simpl in E; [congruence|].
  destruct (g_set p g i i 0) as [g1| | |] eqn:E1; try discriminate E. simpl in E. apply IH in E. apply set_keeps in E1. lia.
Qed.
Lemma resize_size : forall p g n g', g_resize p g n = Ret g' -> g_size g' = n.
Proof.
  intros p g n g'. unfold g_resize. destruct (mul32 p n n); simpl; try discriminate.
  destruct (ofold _ _ _); simpl; try discriminate. intros [= <-]. reflexivity.
Qed.
Lemma insert_size : forall p N g k g', 0 <= g_size g <= N -> 0 <= k_from k < N -> 0 <= k_to k < N -> N < 2 ^ 32 ->
  g_insert p g k = Ret g' -> g_size g' = Z.max (g_size g) (Z.max (k_from k) (k_to k) + 1).
Proof.
  intros p N g k g' G F T B E. unfold g_insert in E. cbv zeta in E.
  set (m := Z.max (k_from k) (k_to k)) in *. assert (0 <= m < N) by lia.
  assert (A : add32 p m 1 = Ret (m + 1)).
  { unfold add32, chk32, u32_max. destruct (_ && _) eqn:I; [reflexivity|]. lia. }
  destruct (g_size g <=? m) eqn:C; [rewrite A in E; simpl in E|simpl in E].
  - destruct (g_resize p g (m + 1)) as [g1| | |] eqn:R; try discriminate E. apply resize_size in R. simpl in E.
    destruct (g_raise p g1 _ _ _) as [g2| | |] eqn:R2; try discriminate E. apply raise_keeps in R2. simpl in E.
    apply raise_keeps in E. lia.
  - destruct (g_raise p g _ _ _) as [g2| | |] eqn:R2; try discriminate E. apply raise_keeps in R2. simpl in E.
    apply raise_keeps in E. lia.
Qed.
Lemma insert_all_size : forall p N ks g g', 0 <= g_size g <= N -> N < 2 ^ 32 ->
  Forall (fun k => 0 <= k_from k < N /\ 0 <= k_to k < N) ks -> ofold (g_insert p) g ks = Ret g' -> g_size g <= g_size g' <= N.
Proof.
  intros p N. induction ks as [|k ks IH]; intros g g' G B F E; simpl in E; [injection E as <-; lia|].
  destruct (g_insert p g k) as [g1| | |] eqn:E1; try discriminate E. simpl in E.
  inversion_clear F as [|? ? [K1 K2] F']. pose proof (insert_size p N g k g1 G K1 K2 B E1) as S.
  apply IH in E; auto; lia.
Qed.
Theorem C90_extend : forall p N g hint ks g' r, 0 <= g_size g <= N -> N < 2 ^ 32 ->
  Forall (fun k => 0 <= k_from k < N /\ 0 <= k_to k < N) ks -> g_extend p g hint ks = Ret (g', r) ->
  exists c, c_extend p g hint ks = Ret ((g', r), c) /\ 0 <= c /\
    (hint <> Some 1 -> c <= N * N * N) /\ (hint = Some 1 -> c <= 2 * (N * N + N)).
Proof.
  intros p N g hint ks g' r G B F E. pose proof E as E0. rewrite <- erase_extend in E. apply erased in E. destruct E as [c E].
  exists c. split; [exact E|]. unfold c_extend in E.
  assert (D : (g1 <~ free (ofold (g_insert p) g ks) ;;; c_global p g1) = Ret ((g', r), c) -> 0 <= c <= N * N * N).
  { clear E. intros E. cinv E g1 c1 E1. apply insert_all_size with (N := N) in E1; auto.
    unfold c_global in E. apply turns_cost with (n := g_size g1) in E; [|lia|reflexivity].
    rewrite len_zrange in E by lia. destruct E as [E _].
    assert (g_size g1 * g_size g1 * g_size g1 <= N * N * N).
    { apply Z.mul_le_mono_nonneg; try lia; [nia|]. apply Z.mul_le_mono_nonneg; lia. }
    lia. }
  destruct hint as [[|[q|q|]|q]|]; try (apply D in E; split; [lia|]; split; [lia|discriminate]).
  - injection E as <- <- <-. split; [lia|]. split; [nia|discriminate].
  - destruct ks as [|k ks].
    + injection E as <- <- <-. split; [lia|]. split; [congruence|nia].
    + simpl in E0. destruct (C90_propagate p g k g' r (proj1 G) E0) as (c' & C1 & C2 & _).
      rewrite C1 in E. injection E as <-.
      assert (0 <= g_size g * g_size g) by nia. assert (g_size g * g_size g <= N * N) by nia.
      split; [lia|]. split; [congruence|]. intros _. lia.
Qed.

(** One by one, m constraints: at most 2m(n² + n) additions (README.md:66: n⁴ for all the pairs of instants). *)
Definition one_by_one (p : profile) (g : graph) (ks : list kons) : outcome graph :=
  ofold (fun g k => x <- g_propagate p g k ;; Ret (fst x)) g ks.
Definition c_one_by_one (p : profile) (g : graph) (ks : list kons) : counted graph :=
  c_fold (fun g k => x <~ c_propagate p g k ;;; Ret (fst x, 0)) g ks.
Theorem C90_one_by_one : forall p g ks g', 0 <= g_size g ->
  Forall (fun k => 0 <= k_from k < g_size g /\ 0 <= k_to k < g_size g) ks -> one_by_one p g ks = Ret g' ->
  exists c, c_one_by_one p g ks = Ret (g', c) /\
    0 <= c <= 2 * Z.of_nat (length ks) * (g_size g * g_size g + g_size g).
Proof.
  intros p g ks. revert g. induction ks as [|k ks IH]; intros g g' N F E.
  - injection E as <-. exists 0. split; [reflexivity|]. simpl. lia.
  - unfold one_by_one in E. cbn [ofold] in E.
    destruct (g_propagate p g k) as [[g1 r]| | |] eqn:E1; try discriminate E. simpl in E.
    inversion_clear F as [|? ? [K1 K2] F'].
    destruct (C90_propagate _ _ _ _ _ N E1) as (c & C1 & C2 & _ & _ & C3). destruct (C3 ltac:(lia)) as [S _].
    destruct (IH g1 g') as (c' & C4 & C5); [lia|rewrite S; exact F'|exact E|]. rewrite S in C5.
    exists (c + c'). split.
    + unfold c_one_by_one in *. cbn [c_fold]. rewrite C1. unfold c_bind at 1 2. cbn [bind fst snd]. rewrite C4. simpl.
      f_equal. f_equal. lia.
    + cbn [length]. nia.
Qed.

(** Three instants, where 1 follows 0 by 5 to 10: the same again costs nothing; a new latest date costs 9 + 3 additions, an
    interval between 1 and 2 twice as many; a contradiction is refused for nothing.  All at once, 27 additions, or
    fewer when a contradiction appears. *)
Definition c3 : graph := mkG 3 [0; - 10; 0; 5; - oo; - oo; 0; - oo; - oo].
Example C90_case :
  c_propagate Debug c3 (mkK 0 1 false 4 10) = Ret ((c3, Unchanged), 0) /\
  (exists g, c_propagate Debug c3 (mkK 0 1 false 4 8) = Ret ((g, Propagated), 12) /\ g <> c3) /\
  (exists g, c_propagate Debug c3 (mkK 1 2 false 4 8) = Ret ((g, Propagated), 24) /\
     one_by_one Debug c3 [mkK 0 1 false 4 10; mkK 1 2 false 4 8] = Ret g /\
     c_one_by_one Debug c3 [mkK 0 1 false 4 10; mkK 1 2 false 4 8] = Ret (g, 24)) /\
  c_propagate Debug c3 (mkK 1 0 false 4 8) = Ret ((c3, Recovered), 0) /\
  c_global Debug c3 = Ret ((c3, Propagated), 27) /\
  (exists g c, c_extend Debug c3 None [mkK 1 0 false 4 8; mkK 1 2 false 4 8] = Ret ((g, Fatal), c) /\ 0 < c < 27) /\
  (exists g, c_merge Debug c3 (mkG 2 [0; - 8; 0; 5]) = Ret ((g, Propagated), 27)) /\
  c_merge Debug c3 (mkG 2 [0; - 10; 0; 4]) = Ret ((c3, Unchanged), 0).
Proof.
  split; [vm_compute; reflexivity|].
  split; [eexists; split; [vm_compute; reflexivity|discriminate]|].
  split; [eexists; split; [vm_compute; reflexivity|split; vm_compute; reflexivity]|].
  split; [vm_compute; reflexivity|]. split; [vm_compute; reflexivity|].
  split; [do 2 eexists; split; [vm_compute; reflexivity|lia]|].
  split; [eexists; vm_compute; reflexivity|]. vm_compute; reflexivity.
Qed.

Print Assumptions C90_propagate.
Print Assumptions C90_global.
Print Assumptions C90_merge.
Print Assumptions C90_extend.
Print Assumptions C90_one_by_one.
