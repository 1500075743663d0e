(** The iterators over the constraints of a graph. *)
From Coq Require Import Sorted.
From Verif Require Import Machine TimeValue Interval Spec SpecSets Tac TimeValueProofs Graph
  MaxPlus GraphProofs SpecGraph GraphInv.

(** Pairs in the order of iteration *)
Definition lexlt (a b : Z * Z) : Prop := fst a < fst b \/ (fst a = fst b /\ snd a < snd b).

Definition rel (g : graph) (i j : Z) : Prop := cell g i j <> - oo \/ cell g j i <> - oo.

Lemma rel_timespan : forall p g i j, mem_ok g -> node (g_size g) i -> node (g_size g) j ->
  (rel g i j <-> g_timespan p g i j <> Ret (mkI (- oo) oo)).
Proof.
  intros p g i j M Ni Nj. rewrite timespan_ok by auto. unfold rel. split.
  - intros H E. injection E as E1 E2. lia.
  - intros H. destruct (Z.eq_dec (cell g i j) (- oo)) as [e|]; auto.
    destruct (Z.eq_dec (cell g j i) (- oo)) as [e'|]; auto. destruct H. rewrite e, e'. f_equal.
Qed.

Lemma related_ok : forall p g i j, mem_ok g -> node (g_size g) i -> node (g_size g) j ->
  exists b, g_related p g i j = Ret b /\ (b = true <-> rel g i j).
Proof.
  intros p g i j M Ni Nj. unfold g_related, rel. rewrite !g_lower_ok by auto. cbn [bind].
  unfold is_past_infinite. change INF with oo.
  destruct (cell g i j =? - oo) eqn:T.
  - eexists. split; [reflexivity|]. destruct (cell g j i =? - oo) eqn:T'; simpl; lia.
  - exists true. split; auto. split; auto. intros _. left. lia.
Qed.
Lemma add32_1 : forall p a, 0 <= a <= 65535 -> add32 p a 1 = Ret (a + 1).
Proof. intros p a H. mach. replace (_ && _) with true by lia. auto. Qed.

(** ** All the constraints *)

Definition next_of (g : graph) (s : Z * Z) (r : option (Z * Z) * (Z * Z)) : Prop :=
  match r with
  | (None, s') => s' = (g_size g, g_size g) /\
      forall c d, 0 <= c < d -> d < g_size g -> lexlt s (c, d) -> ~ rel g c d
  | (Some (a, b), s') => s' = (a, b) /\ 0 <= a < b /\ b < g_size g /\ lexlt s (a, b) /\ rel g a b /\
      forall c d, 0 <= c < d -> d < g_size g -> lexlt s (c, d) -> lexlt (c, d) (a, b) -> ~ rel g c d
  end.

Lemma loop_ok : forall p g, mem_ok g -> forall fuel i j,
  0 <= i < g_size g -> i <= j < g_size g ->
  (g_size g - 1 - i) * g_size g + (g_size g - j) < Z.of_nat fuel ->
  exists r, citer_loop p g fuel i j = Ret r /\ next_of g (i, j) r.
Proof.
  intros p g M. pose proof M as ((S0 & S1) & _).
  induction fuel as [|f IH]; intros i j Hi Hj F; [nia|].
  simpl. rewrite add32_1 by lia. cbn [bind].
  destruct (j + 1 =? g_size g) eqn:T.
  - rewrite add32_1 by lia. cbn [bind]. destruct (i + 1 =? g_size g) eqn:T2.
    + eexists. split; [reflexivity|]. split; [f_equal; lia|].
      intros c d Hc Hd [L|L]; simpl in L; lia.
    + destruct (IH (i + 1) (i + 1)) as (r & E & N); try nia.
      exists r. split; auto. destruct r as ([(a & b)|] & s'); simpl in N |- *.
      * destruct N as (-> & Ab & Bb & L & R & Q). split; auto. split; auto. split; auto.
        split; [unfold lexlt in *; simpl in *; lia|]. split; auto.
        intros c d Hc Hd L1 L2. apply Q; auto. unfold lexlt in *; simpl in *; lia.
      * destruct N as (-> & Q). split; auto. intros c d Hc Hd L. apply Q; auto.
        unfold lexlt in *; simpl in *; lia.
  - destruct (related_ok p g i (j + 1)) as (b & -> & Rb); auto; try (unfold node; lia).
    cbn [bind]. destruct b.
    + eexists. split; [reflexivity|]. simpl. split; auto. split; [lia|]. split; [lia|].
      split; [unfold lexlt; simpl; lia|]. split; [tauto|].
      intros c d Hc Hd L1 L2. unfold lexlt in *; simpl in *. lia.
    + assert (NR : ~ rel g i (j + 1)) by (rewrite <- Rb; discriminate).
      destruct (IH i (j + 1)) as (r & E & N); try lia.
      exists r. split; auto.
      assert (X : forall c d, lexlt (i, j) (c, d) -> (c = i /\ d = j + 1) \/ lexlt (i, j + 1) (c, d)).
      { unfold lexlt; simpl. lia. }
      destruct r as ([(a & b)|] & s'); simpl in N |- *.
      * destruct N as (-> & Ab & Bb & L & R & Q). split; auto. split; auto. split; auto.
        split; [unfold lexlt in *; simpl in *; lia|]. split; auto.
        intros c d Hc Hd L1 L2. destruct (X _ _ L1) as [(-> & ->)|]; auto.
      * destruct N as (-> & Q). split; auto. intros c d Hc Hd L.
        destruct (X _ _ L) as [(-> & ->)|]; auto.
Qed.

(** The states met while iterating *)
Definition cstate (g : graph) (s : Z * Z) : Prop :=
  s = (g_size g, g_size g) \/ (0 <= fst s <= snd s /\ snd s < g_size g) \/ (s = (0, 0) /\ g_size g = 0).
Lemma next_ok : forall p g s, mem_ok g -> cstate g s ->
  exists r, citer_next p g s = Ret r /\ next_of g s r /\ cstate g (snd r).
Proof.
  intros p g (i & j) M C. unfold citer_next. pose proof M as ((S0 & S1) & _).
  destruct (i =? g_size g) eqn:T.
  - eexists. split; [reflexivity|]. assert (i = g_size g) by lia. subst i.
    assert (j = g_size g).
    { destruct C as [C|[C|(C & C')]]; [congruence|simpl in C; lia|injection C; lia]. }
    subst j. split; [|left; auto]. split; auto. intros c d Hc Hd [L|L]; simpl in L; lia.
  - assert (H : 0 <= i <= j /\ j < g_size g).
    { destruct C as [C|[C|(C & C')]]; auto; injection C; lia. }
    destruct (loop_ok p g M (citer_fuel g) i j) as (r & E & N); try lia.
    { unfold citer_fuel. nia. }
    exists r. split; auto. split; auto.
    destruct r as ([(a & b)|] & s'); simpl in N |- *.
    + destruct N as (-> & Ab & Bb & _). right. left. simpl. lia.
    + left. apply N.
Qed.

(** (twice) the number of pairs after [s] *)
Definition left_pairs (n : Z) (s : Z * Z) : Z :=
  2 * (n - 1 - snd s) + (n - 1 - fst s) * (n - 2 - fst s).
Lemma collect_ok : forall p g, mem_ok g -> forall fuel s, cstate g s ->
  (s = (g_size g, g_size g) -> (1 <= fuel)%nat) ->
  (g_size g - 1 - fst s) * g_size g + (g_size g - snd s) < Z.of_nat fuel ->
  exists l, collect_pairs (citer_next p g) fuel s = Ret l /\
    (forall c d, In (c, d) l <-> 0 <= c < d /\ d < g_size g /\ lexlt s (c, d) /\ rel g c d) /\
    StronglySorted lexlt l /\ 2 * Z.of_nat (length l) <= left_pairs (g_size g) s.
Proof.
  intros p g M. pose proof M as ((S0 & S1) & _).
  induction fuel as [|f IH]; intros s C F0 F.
  - exfalso. destruct C as [C|[C|(-> & C')]]; [specialize (F0 C); lia| |simpl in F; lia].
    destruct s as (i & j); simpl in *. nia.
  - simpl. destruct (next_ok p g s M C) as (r & -> & N & C'). cbn [bind].
    destruct r as ([(a & b)|] & s'); simpl in N, C' |- *.
    + destruct N as (-> & Ab & Bb & L & R & Q).
      destruct (IH (a, b)) as (l & -> & Hl & Sl & Cl); auto.
      * intros X. injection X; lia.
      * destruct s as (i & j). unfold lexlt in L. simpl in *.
        destruct C as [C|[C|(C & C'')]]; [inversion C; lia| |lia].
        simpl in C. destruct L as [L|(-> & L)]; [|lia].
        assert ((a - i - 1) * g_size g >= 0) by nia. lia.
      * cbn [bind]. exists ((a, b) :: l). split; auto. split.
        -- intros c d. simpl. rewrite Hl. split.
           ++ intros [X|X]; [injection X as <- <-; auto|]. destruct X as (X1 & X2 & X3 & X4).
              split; auto. split; auto. split; auto. unfold lexlt in *. simpl in *. lia.
           ++ intros (X1 & X2 & X3 & X4). 
              assert (Y : (a, b) = (c, d) \/ lexlt (a, b) (c, d) \/ lexlt (c, d) (a, b)).
              { destruct (Z.eq_dec a c) as [->|]; [destruct (Z.eq_dec b d) as [->|]; auto|];
                  right; unfold lexlt; simpl; lia. }
              destruct Y as [Y|[Y|Y]]; auto. destruct (Q c d X1 X2 X3 Y X4).
        -- split.
           { constructor; auto. apply Forall_forall. intros (c & d) I. apply Hl in I. tauto. }
           clear Hl Q. destruct s as (i & j). unfold lexlt, left_pairs in *. cbn [fst snd length] in *.
           destruct C as [C|[C|(C & C'')]]; [inversion C; lia| |lia]. cbn [fst snd] in C.
           destruct L as [L|(-> & L)]; [|lia].
           assert ((a - i - 1) * ((g_size g - 1 - i) + (g_size g - 1 - a)) >= 0)
             by (apply Z.le_ge, Z.mul_nonneg_nonneg; lia). lia.
    + destruct N as (_ & Q). exists []. split; auto. split; [|split; [constructor|]].
      2: { unfold left_pairs. simpl. destruct C as [->|[C|(-> & C'')]]; simpl; [lia| |rewrite C''; lia].
           destruct s as (i & j). simpl in *.
           destruct (Z.eq_dec (g_size g - 1 - i) 0) as [->|]; [lia|].
           assert (0 <= (g_size g - 1 - i) * (g_size g - 2 - i)) by (apply Z.mul_nonneg_nonneg; lia). lia. }
      intros c d. simpl. split; [tauto|]. intros (X1 & X2 & X3 & X4). apply (Q c d); auto.
Qed.

Lemma iter_ok : forall p g, mem_ok g -> exists l, g_iter p g = Ret l /\
  (forall i j, In (i, j) l <-> 0 <= i < j /\ j < g_size g /\ rel g i j) /\ StronglySorted lexlt l /\
  2 * Z.of_nat (length l) <= g_size g * (g_size g - 1).
Proof.
  intros p g M. pose proof M as ((S0 & S1) & _). unfold g_iter, citer_init.
  destruct (collect_ok p g M (citer_fuel g) (0, 0)) as (l & E & Hl & Sl & Cl).
  - destruct (Z.eq_dec (g_size g) 0); [right; right; auto|right; left; simpl; lia].
  - intros _. unfold citer_fuel. lia.
  - unfold citer_fuel. simpl. nia.
  - exists l. split; auto. split; [|split; auto; unfold left_pairs in Cl; simpl in Cl; lia].
    intros i j. rewrite Hl. unfold lexlt. simpl. split.
    + tauto.
    + intros (H1 & H2 & H3). split; auto. split; auto. split; auto. lia.
Qed.

(** ** The constraints of one instant *)

Lemma search_ok : forall p g i, mem_ok g -> 0 <= i < g_size g -> forall fuel j,
  0 <= j < g_size g -> g_size g - j <= Z.of_nat fuel ->
  exists i' j', fiter_search p g fuel i j = Ret (i', j') /\ j < j' /\
    (forall b, j < b < j' -> b <> i -> ~ rel g i b) /\
    ((i' = g_size g /\ j' = g_size g) \/ (i' = i /\ j' < g_size g /\ j' <> i /\ rel g i j')).
Proof.
  intros p g i M Hi. pose proof M as ((S0 & S1) & _).
  induction fuel as [|f IH]; intros j Hj F; [lia|].
  simpl. rewrite add32_1 by lia. cbn [bind].
  destruct (j + 1 =? g_size g) eqn:T.
  - exists (g_size g), (j + 1). split; auto. split; [lia|]. split; [intros; lia|left; lia].
  - destruct (i =? j + 1) eqn:T2.
    + destruct (IH (j + 1)) as (i' & j' & E & L & Q & C); try lia.
      exists i', j'. split; auto. split; [lia|]. split; auto. intros b Hb Nb. apply Q; lia.
    + destruct (related_ok p g i (j + 1)) as (b & -> & Rb); auto; try (unfold node; lia).
      cbn [bind]. destruct b.
      * exists i, (j + 1). split; auto. split; [lia|]. split; [intros; lia|].
        right. split; auto. split; [lia|]. split; [lia|]. tauto.
      * destruct (IH (j + 1)) as (i' & j' & E & L & Q & C); try lia.
        exists i', j'. split; auto. split; [lia|]. split; auto. intros b Hb Nb.
        destruct (Z.eq_dec b (j + 1)) as [->|]; [rewrite <- Rb; discriminate|apply Q; lia].
Qed.

Lemma fcollect_ok : forall p g i, mem_ok g -> 0 <= i < g_size g -> forall fuel j,
  0 <= j < g_size g -> g_size g - j < Z.of_nat fuel ->
  exists l, collect_pairs (fiter_next p g) fuel (i, j) = Ret l /\
    exists js, l = map (fun b => (i, b)) (j :: js) /\
      (forall b, In b js <-> j < b < g_size g /\ b <> i /\ rel g i b) /\ StronglySorted Z.lt (j :: js) /\
      Z.of_nat (length (j :: js)) <= g_size g - j - (if j <? i then 1 else 0).
Proof.
  intros p g i M Hi. induction fuel as [|f IH]; intros j Hj F; [lia|].
  cbn [collect_pairs]. unfold fiter_next at 1. replace (g_size g <=? i) with false by lia.
  destruct (search_ok p g i M Hi (S (Z.to_nat (g_size g))) j) as (i' & j' & -> & L & Q & C); auto; [lia|].
  cbn [bind]. destruct C as [(-> & ->)|(-> & C1 & C2 & C3)].
  - destruct f as [|f]; [lia|]. simpl. replace (g_size g <=? g_size g) with true by lia. cbn [bind].
    eexists. split; [reflexivity|]. exists []. split; auto. split.
    + intros b. simpl. split; [tauto|]. intros (X1 & X2 & X3). apply (Q b); auto.
    + split; [constructor; constructor|]. cbn [length]. destruct (j <? i) eqn:T; [|lia].
      assert (i < g_size g - 1 \/ i = g_size g - 1) by lia. lia.
  - destruct (IH j') as (l & -> & js & -> & Hjs & Sjs & Ljs); try lia. cbn [bind].
    eexists. split; [reflexivity|]. exists (j' :: js). split; auto. split.
    + intros b. simpl. rewrite Hjs. split.
      * intros [<-|X]; [auto|]. split; [lia|tauto].
      * intros (X1 & X2 & X3). destruct (Z.eq_dec j' b); auto. right. split; auto.
        destruct (Z_lt_le_dec b j'); [|lia]. destruct (Q b); auto. lia.
    + split.
      * constructor; auto. inversion Sjs as [|? ? Sj Fj]; subst. constructor; [lia|].
        eapply Forall_impl; [|apply Fj]. simpl. intros; lia.
      * cbn [length] in *. destruct (j <? i) eqn:T, (j' <? i) eqn:T'; lia.
Qed.
Lemma from_ok : forall p g i, mem_ok g -> 0 <= i < g_size g ->
  exists js, g_constraints_from p g i = Ret (map (fun b => (i, b)) (0 :: js)) /\
    (forall b, In b js <-> 0 < b < g_size g /\ b <> i /\ rel g i b) /\ StronglySorted Z.lt (0 :: js).
Proof.
  intros p g i M Hi. unfold g_constraints_from, fiter_init.
  destruct (fcollect_ok p g i M Hi (S (S (Z.to_nat (g_size g)))) 0) as (l & E & js & -> & H & S & _); try lia.
  exists js. auto.
Qed.
