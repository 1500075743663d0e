(** The texts of graphs and schedulers (properties C72, C73, C74). *)
From Coq Require Import String Ascii Sorting.Sorted.
From Verif Require Import Machine TimeValue Spec Tac TimeValueProofs Interval Iter TimeSet Relns SpecSets SetProofs
  Graph MaxPlus GraphProofs GraphSafe GraphInv SpecGraph GraphHist GraphCalls Prop_Graph Prop_Propagation GraphIter Prop_GraphIter
  SchedSets Scheduler SpecSched SchedProofs Prop_Scheduler
  Format TextProofs Prop_Format GraphText.

Local Open Scope string_scope.
Local Open Scope Z_scope.

(** ** C72: the Debug text of a graph *)

Definition blank (c : ascii) : bool := (c =? " ")%char.
Lemma spaces_blank n : chars blank (spaces n) = true.
Proof. induction n; auto. Qed.
Lemma right7_eq s : exists n, right7 s = spaces n ++ s.
Proof. eexists. reflexivity. Qed.
Lemma debug_stop t s : stop blank (tv_debug t ++ s) = true /\ (forall c r, tv_debug t ++ s = String c r -> (c =? "]")%char = false).
Proof.
  pose proof (tv_debug_char t) as C. pose proof (tv_debug_nonempty t) as N. destruct (tv_debug t) as [|c r]; [congruence|].
  cbn in *. apply andb_prop in C as (C & _). split.
  - unfold blank. destruct (Ascii.eqb_spec c " "); auto. subst. discriminate.
  - intros c' r' E. injection E as <- _. destruct (Ascii.eqb_spec c "]"); auto. subst. discriminate.
Qed.
Fixpoint cells (l : list Z) : string := match l with [] => "" | t :: r => " " ++ right7 (tv_debug t) ++ cells r end.
Lemma cells_stop l s : stop point_char (cells l ++ " ]" ++ s) = true.
Proof. destruct l; reflexivity. Qed.
Lemma cells_inj l : forall m r s, Forall valid l -> Forall valid m -> cells l ++ " ]" ++ r = cells m ++ " ]" ++ s -> l = m /\ r = s.
Proof.
  assert (X : forall t l r, exists n, cells (t :: l) ++ " ]" ++ r = (" " ++ spaces n) ++ tv_debug t ++ cells l ++ " ]" ++ r).
  { intros t l0 r. cbn [cells]. destruct (right7_eq (tv_debug t)) as (n & ->). exists n. rewrite !app_assoc_s. reflexivity. }
  assert (Y : forall t l r s, cells (t :: l) ++ " ]" ++ r = " ]" ++ s -> False).
  { intros t l0 r s E. destruct (X t l0 r) as (n & Q). rewrite Q in E. clear Q.
    destruct (debug_stop t (cells l0 ++ " ]" ++ r)) as [S1 S2].
    apply (split_eq blank _ " " _ ("]" ++ s)) in E as [_ E]; auto.
    - specialize (S2 _ _ E). discriminate.
    - rewrite chars_app, spaces_blank. reflexivity. }
  induction l as [|t l IH]; intros [|u m] r s Vl Vm E.
  - cbn [cells append] in E. split; auto. congruence.
  - exfalso. eapply Y. symmetry. exact E.
  - exfalso. eapply Y. exact E.
  - inv Vl. inv Vm. destruct (X t l r) as (n & Q). rewrite Q in E. destruct (X u m s) as (n' & Q'). rewrite Q' in E. clear Q Q'.
    apply (split_eq blank) in E as [_ E]; try (rewrite chars_app, spaces_blank; reflexivity); try apply debug_stop.
    apply (split_eq point_char) in E as [E1 E2]; try apply tv_debug_char; try apply cells_stop.
    apply C64_duration in E1; auto. apply IH in E2 as [-> ->]; auto. subst. auto.
Qed.
Fixpoint rows (ls : list (list Z)) : string :=
  match ls with [] => "" | l :: r => "[" ++ cells l ++ " ]" ++ nl ++ rows r end.
Lemma rows_inj ls : forall ms, Forall (Forall valid) ls -> Forall (Forall valid) ms -> rows ls = rows ms -> ls = ms.
Proof.
  induction ls as [|l ls IH]; intros [|m ms] Vl Vm E; auto; try discriminate. inv Vl. inv Vm. cbn [rows] in E.
  apply app_inj_l in E. apply cells_inj in E as [-> E]; auto. apply app_inj_l in E. f_equal. auto.
Qed.
Definition matrix (g : graph) : list (list Z) := map (fun i => map (cell g i) (zrange 0 (g_size g))) (zrange 0 (g_size g)).
Lemma debug_eq p g : mem_ok g -> g_debug p g = Ret (nl ++ rows (matrix g)).
Proof.
  intros M.
  assert (R : forall i, node (g_size g) i -> g_debug_row p g i = Ret ("[" ++ cells (map (cell g i) (zrange 0 (g_size g))) ++ " ]" ++ nl)).
  { intros i Hi. unfold g_debug_row.
    assert (G : forall l s, (forall j, In j l -> node (g_size g) j) ->
      ofold (fun s j => x <- g_lower p g i j ;; Ret (s ++ " " ++ right7 (tv_debug x))) s l = Ret (s ++ cells (map (cell g i) l))).
    { induction l as [|j l IH]; intros s K; cbn [ofold map cells]; [now rewrite app_nil_s|].
      rewrite g_lower_ok by (auto; apply K; cbn; auto). cbn [bind]. rewrite IH by (intros; apply K; cbn; auto).
      now rewrite !app_assoc_s. }
    rewrite G by (intros j Hj; now apply zrange_in in Hj). cbn [bind]. now rewrite !app_assoc_s. }
  unfold g_debug, matrix.
  assert (G : forall l s, (forall j, In j l -> node (g_size g) j) ->
    ofold (fun s i => r <- g_debug_row p g i ;; Ret (s ++ r)) s l =
    Ret (s ++ rows (map (fun i => map (cell g i) (zrange 0 (g_size g))) l))).
  { induction l as [|j l IH]; intros s K; cbn [ofold map rows]; [now rewrite app_nil_s|].
    rewrite R by (auto; apply K; cbn; auto). cbn [bind]. rewrite IH by (intros; apply K; cbn; auto).
    now rewrite !app_assoc_s. }
  apply G. intros j Hj. now apply zrange_in in Hj.
Qed.

Lemma map_ext_inv {A B} (f g : A -> B) l : map f l = map g l -> forall x, In x l -> f x = g x.
Proof. induction l as [|a l IH]; cbn; intros E x []; [congruence|]. injection E. intros; apply IH; auto. Qed.
Lemma matrix_inj g h : mem_ok g -> mem_ok h -> matrix g = matrix h -> g_size g = g_size h /\
  forall i j, node (g_size g) i -> node (g_size g) j -> cell g i j = cell h i j.
Proof.
  intros ((Sg & _) & _) ((Sh & _) & _) E. assert (N : g_size g = g_size h).
  { apply (f_equal (@length _)) in E. unfold matrix, zrange in E. rewrite !map_length, !seq_length in E. lia. }
  split; auto. intros i j Hi Hj. unfold matrix in E. rewrite <- N in E.
  apply map_ext_inv with (x := i) in E; [|now apply zrange_in]. now apply map_ext_inv with (x := j) in E; [|now apply zrange_in].
Qed.
(** Two graphs with the same Debug text are of the same size and report the same intervals. *)
Theorem C72_debug : forall p g h, calls p false g -> calls p false h ->
  exists s, g_debug p g = Ret s /\ (g_debug p h = Ret s -> same_bounds p g h).
Proof.
  intros p g h Cg Ch. pose proof (calls_mem _ _ _ Cg) as Mg. pose proof (calls_mem _ _ _ Ch) as Mh.
  destruct (calls_exact _ _ Cg) as (_ & _ & Vg). destruct (calls_exact _ _ Ch) as (_ & _ & Vh).
  assert (V : forall g, vcells (g_size g) (cell g) -> Forall (Forall valid) (matrix g)).
  { intros k Vk. apply Forall_forall. intros l Hl. apply in_map_iff in Hl as (i & <- & Hi). apply Forall_forall. intros x Hx.
    apply in_map_iff in Hx as (j & <- & Hj). apply zrange_in in Hi, Hj. now apply Vk. }
  eexists. split; [apply debug_eq; auto|]. intros E. rewrite debug_eq in E by auto. inv E.
  symmetry in H0. apply rows_inj in H0; auto.
  destruct (matrix_inj g h Mg Mh H0) as (N & Q). split; auto. intros i j Hi Hj.
  rewrite !timespan_ok by (auto; unfold node; lia). now rewrite !Q by (unfold node; lia).
Qed.

(** It has one row per instant; the column [j] of the row [i] is the lower bound of the interval from [i] to [j]. *)
Definition joined_text (l : list string) : string := fold_right append "" l.
Theorem C72_text : forall p g, calls p false g -> exists lo,
  (forall i j, 0 <= i < g_size g -> 0 <= j < g_size g -> exists iv, g_timespan p g i j = Ret iv /\ lo i j = lower iv) /\
  g_debug p g = Ret (nl ++ joined_text (map (fun i =>
    "[" ++ joined_text (map (fun j => " " ++ right7 (tv_debug (lo i j))) (zrange 0 (g_size g))) ++ " ]" ++ nl) (zrange 0 (g_size g)))).
Proof.
  intros p g C. pose proof (calls_mem _ _ _ C) as M. exists (cell g). split.
  { intros i j Hi Hj. eexists. split; [now apply timespan_ok|reflexivity]. }
  rewrite debug_eq by auto. do 2 f_equal. unfold matrix.
  assert (X : forall l, cells l = joined_text (map (fun t => " " ++ right7 (tv_debug t)) l)).
  { induction l as [|t l IH]; auto. cbn [cells map joined_text fold_right]. rewrite IH. now rewrite app_assoc_s. }
  induction (zrange 0 (g_size g)) as [|i l IH] at 2 4; auto. cbn [map rows joined_text fold_right]. rewrite X, map_map.
  rewrite !app_assoc_s. do 4 f_equal. exact IH.
Qed.

(** ** C73: the Display text of a graph *)

Lemma tv_display_total p t : valid t -> exists s, tv_display p t = Ret s.
Proof.
  intros V. destruct (Z.eq_dec t oo) as [->|]; [exists "+oo"; apply C60_infinite|].
  destruct (Z.eq_dec t (- oo)) as [->|]; [exists "-oo"; apply C60_infinite|].
  destruct (C60_text_partial p t) as (c & m & H & _); [unfold valid, finite in *; lia|]. eexists. exact H.
Qed.
Lemma iv_display_total p i : valid_iv i -> exists s, iv_display (tv_display p) i = Ret s.
Proof.
  intros (V1 & V2). destruct (tv_display_total p _ V1) as (a & A). destruct (tv_display_total p _ V2) as (b & B).
  unfold iv_display, iv_text. rewrite A, B. cbn [bind].
  destruct (iv_is_empty i), (iv_is_singleton i), (iv_is_low_bounded i), (iv_is_up_bounded i); eauto.
Qed.
(** One line per constraint *)
Definition constraint_line (a : (Z * Z) * string) : string :=
  "   t" ++ dec (snd (fst a)) ++ " - t" ++ dec (fst (fst a)) ++ " in " ++ snd a ++ nl.
(** The Display text of a graph: its number of instants, then its relevant constraints, each one once with its
    interval, in increasing order, then their number; nothing panics. *)
Theorem C73_display : forall p g, calls p false g -> exists l texts,
  (forall i j, In (i, j) l <-> i < j /\ relevant p g i j) /\ StronglySorted pair_lt l /\
  Forall2 (fun a x => exists iv, g_timespan p g (fst a) (snd a) = Ret iv /\ iv_display (tv_display p) iv = Ret x) l texts /\
  g_display p g = Ret ("[graph with " ++ dec (g_size g) ++ " instants]" ++ nl ++
    joined_text (map constraint_line (combine l texts)) ++ "[with " ++ dec (Z.of_nat (length l)) ++ " constraints]" ++ nl).
Proof.
  intros p g C. pose proof (calls_mem _ _ _ C) as M. destruct (calls_exact _ _ C) as (_ & _ & V).
  destruct (C47_exact p g) as (l & E & H & S); [now apply stored_mem|]. exists l.
  assert (Y : forall a, In a l -> node (g_size g) (fst a) /\ node (g_size g) (snd a)).
  { intros (i, j) Ha. apply H in Ha as (_ & (A & B & _)). cbn. unfold node. lia. }
  assert (D : exists texts, Forall2 (fun a x => exists iv, g_timespan p g (fst a) (snd a) = Ret iv /\ iv_display (tv_display p) iv = Ret x) l texts).
  { clear - Y M V. induction l as [|a l IH]; [exists []; constructor|].
    destruct IH as (ts & IH); [intros; apply Y; cbn; auto|]. destruct (Y a) as [Y1 Y2]; [cbn; auto|].
    destruct (iv_display_total p (mkI (cell g (fst a) (snd a)) (- cell g (snd a) (fst a)))) as (x & Hx).
    { split; cbn; [now apply V|]. specialize (V _ _ Y2 Y1). unfold valid in *. lia. }
    exists (x :: ts). constructor; auto. eexists. split; [apply timespan_ok; auto|exact Hx]. }
  destruct D as (texts & D). exists texts. split; auto. split; auto. split; auto.
  unfold g_display. rewrite E. cbn [bind].
  assert (G : forall s, ofold (fun s a => k <- k_of_graph p g (fst a) (snd a) ;;
         x <- k_display p (k_from k) (k_to k) (k_span k) ;; Ret (s ++ "   " ++ x ++ nl)) s l =
         Ret (s ++ joined_text (map constraint_line (combine l texts)))).
  { clear - Y M D. induction D as [|a x l texts (iv & T & X) D IH]; intros s; cbn [ofold combine map joined_text fold_right].
    - now rewrite app_nil_s.
    - destruct (Y a) as [Y1 Y2]; [cbn; auto|]. rewrite (timespan_ok p g _ _ M Y1 Y2) in T. inv T.
      unfold k_of_graph. rewrite !g_lower_ok by auto. cbn [bind lower upper k_from k_to k_span k_lo k_up].
      unfold k_display, k_span; cbn [k_lo k_up k_from k_to]. unfold tv_neg. rewrite X. cbn [bind]. rewrite IH by (intros; apply Y; cbn; auto).
      unfold joined_text, constraint_line. cbn [fst snd]. rewrite !app_assoc_s. reflexivity. }
  rewrite G. cbn [bind]. now rewrite !app_assoc_s.
Qed.

(** ** C74: the texts of a scheduler *)

Definition plain (c : ascii) : bool := negb (c =? "010")%char.
Definition slot_line (a : Z * string) : string := "t" ++ dec (fst a) ++ " in " ++ snd a ++ nl.
(** The lines of the texts [l] of the slots *)
Definition slot_lines (l : list string) : string := joined_text (map slot_line (enumerate 0 l)).
Lemma enumerate_map {A B} (f : A -> B) l : forall n, enumerate n (map f l) = map (fun a => (fst a, f (snd a))) (enumerate n l).
Proof. induction l as [|a l IH]; intros n; cbn; auto. now rewrite IH. Qed.
Lemma sc_debug_eq s : sc_debug s = slot_lines (map (set_debug ts_debug) (sc_slots s)).
Proof.
  unfold sc_debug, slot_lines. generalize (sc_slots s) 0. intros l.
  assert (G : forall l n x, fold_left (fun x a => x ++ "t" ++ dec (fst a) ++ " in " ++ set_debug ts_debug (snd a) ++ nl) (enumerate n l) x =
    x ++ joined_text (map slot_line (enumerate n (map (set_debug ts_debug) l)))).
  { induction l0 as [|a l0 IH]; intros n x; cbn [enumerate map fold_left joined_text fold_right]; [now rewrite app_nil_s|].
    rewrite IH. cbn [fst snd]. unfold joined_text, slot_line. cbn [fst snd]. rewrite !app_assoc_s. reflexivity. }
  intros n. now rewrite G.
Qed.
Lemma lines_inj l : forall n m, 0 <= n -> (forall x, In x l \/ In x m -> chars plain x = true) ->
  joined_text (map slot_line (enumerate n l)) = joined_text (map slot_line (enumerate n m)) -> l = m.
Proof.
  induction l as [|a l IH]; intros n m Hn P E; destruct m as [|b m]; auto; try discriminate.
  cbn [enumerate map joined_text fold_right] in E. unfold slot_line at 1 3 in E. cbn [fst snd] in E.
  rewrite !app_assoc_s in E. do 3 apply app_inj_l in E.
  apply (split_eq plain) in E; [|apply P; cbn; auto|apply P; cbn; auto|reflexivity|reflexivity].
  destruct E as (-> & E). f_equal. apply (IH (n + 1)); [lia| |].
  - intros x Hx. apply P. cbn. tauto.
  - now injection E.
Qed.
Lemma window_plain c : window_char c = true -> plain c = true.
Proof. intros H. unfold plain. destruct (Ascii.eqb_spec c "010"); auto. subst. discriminate. Qed.
Lemma set_debug_plain l : chars plain (set_debug ts_debug l) = true.
Proof.
  assert (I : forall i, chars plain (iv_debug ts_debug i) = true)
    by (intros i; eapply chars_weaken; [exact window_plain|apply iv_debug_char; auto using ts_debug_char]).
  destruct l as [|i l]; [reflexivity|]. unfold set_debug.
  assert (G : forall l x, chars plain x = true -> chars plain (fold_left (fun s j => s ++ "U" ++ iv_debug ts_debug j) l x) = true).
  { induction l0 as [|j l0 IH]; intros x Hx; cbn [fold_left]; auto. apply IH. rewrite !chars_app, Hx, I. reflexivity. }
  auto.
Qed.
Lemma session_valid p g s : stored g -> proper p g -> session p g s -> Forall (Forall valid_iv) (sc_slots s).
Proof.
  intros M P Se. apply stored_mem in M. apply proper_prop in P; auto. destruct (session_sinv _ _ _ M P Se) as (_ & L & N).
  apply Forall_forall. intros l Hl. apply In_nth with (d := []) in Hl as (k & Hk & <-). apply Forall_forall. intros i Hi.
  specialize (N (Z.of_nat k)). unfold sl in N. rewrite Nat2Z.id in N. assert (K : 0 <= Z.of_nat k < g_size g) by (unfold tset in *; lia).
  destruct (near_from_In _ _ _ (N K) Hi) as (_ & X).
  unfold near, valid_iv, valid in *. lia.
Qed.
(** The Debug text of a scheduler has one line per instant, in order; two schedulers with the same text
    have the same slots. *)
Theorem C74_debug : forall p g s g' s', stored g -> proper p g -> session p g s -> stored g' -> proper p g' -> session p g' s' ->
  sc_debug s = slot_lines (map (set_debug ts_debug) (sc_slots s)) /\ (sc_debug s = sc_debug s' -> sc_slots s = sc_slots s').
Proof.
  intros p g s g' s' M P Se M' P' Se'. split; [apply sc_debug_eq|]. intros E. rewrite !sc_debug_eq in E.
  pose proof (session_valid _ _ _ M P Se) as V. pose proof (session_valid _ _ _ M' P' Se') as V'.
  apply lines_inj in E; [|lia|].
  - revert V V' E. generalize (sc_slots s) (sc_slots s'). clear. intros l. induction l as [|a l IH]; intros [|b m] V V' E; auto; try discriminate.
    inv V. inv V'. cbn [map] in E. injection E as E1 E2. f_equal; [now apply C64_set|auto].
  - intros x [Hx|Hx]; apply in_map_iff in Hx as (l & <- & _); apply set_debug_plain.
Qed.
Lemma iv_text_total none f i : (forall t, valid t -> exists s, f t = Ret s) -> valid_iv i -> exists s, iv_text none f i = Ret s.
Proof.
  intros F (V1 & V2). destruct (F _ V1) as (a & A). destruct (F _ V2) as (b & B). unfold iv_text. rewrite A, B. cbn [bind].
  destruct (iv_is_empty i), (iv_is_singleton i), (iv_is_low_bounded i), (iv_is_up_bounded i); eauto.
Qed.
Lemma set_text_total none f l : (forall t, valid t -> exists s, f t = Ret s) -> Forall valid_iv l -> exists s, set_text none f l = Ret s.
Proof.
  intros F V. destruct V as [|i l Vi V]; [cbn; eauto|]. unfold set_text. destruct (iv_text_total none f i F Vi) as (x & ->). cbn [bind].
  revert x. induction V as [|j l Vj V IH]; intros x; cbn [ofold]; eauto.
  destruct (iv_text_total none f j F Vj) as (y & ->). cbn [bind]. auto.
Qed.
Lemma ts_display_total p dt t : (forall t, 0 <= t < oo -> exists s, dt t = Ret s) -> valid t -> exists s, ts_display p dt t = Ret s.
Proof.
  intros D V. unfold ts_display, is_positive. destruct (Z.leb_spec 0 t).
  - destruct (is_future_infinite t) eqn:E; eauto. apply D. revert E. unfold is_future_infinite, INF, i64_max, valid, oo in *. lia.
  - destruct (is_past_infinite t); eauto. destruct (tv_display_total p (tv_neg t)) as (x & ->); [unfold valid, tv_neg in *; lia|].
    cbn [bind]. eauto.
Qed.
Lemma texts_total (f : tset -> outcome string) l : Forall (fun x => exists s, f x = Ret s) l -> exists ts, Forall2 (fun x s => f x = Ret s) l ts.
Proof. induction 1 as [|a l (x & H) _ (ts & IH)]; [exists []|exists (x :: ts)]; constructor; auto. Qed.
(** Its Display text has one line per instant with the Display text of the slot.  [dt] is the text of a
    date after 1970 and is assumed not to panic. *)
Theorem C74_display : forall p dt g s, stored g -> proper p g -> session p g s -> (forall t, 0 <= t < oo -> exists x, dt t = Ret x) ->
  exists texts, Forall2 (fun l x => set_display (ts_display p dt) l = Ret x) (sc_slots s) texts /\
  sc_display p dt s = Ret (slot_lines texts).
Proof.
  intros p dt g s M P Se D. pose proof (session_valid _ _ _ M P Se) as V.
  destruct (texts_total (set_display (ts_display p dt)) (sc_slots s)) as (ts & T).
  { eapply Forall_impl; [|exact V]. intros l Vl. apply set_text_total; auto. intros. now apply ts_display_total. }
  exists ts. split; auto. unfold sc_display, slot_lines. clear - T.
  assert (G : forall n x, ofold (fun x a => y <- set_display (ts_display p dt) (snd a) ;; Ret (x ++ "t" ++ dec (fst a) ++ " in " ++ y ++ nl))
    x (enumerate n (sc_slots s)) = Ret (x ++ joined_text (map slot_line (enumerate n ts)))).
  { induction T as [|l y ls ts H T IH]; intros n x; cbn [enumerate map ofold joined_text fold_right]; [now rewrite app_nil_s|].
    cbn [fst snd]. rewrite H. cbn [bind]. rewrite IH. unfold joined_text, slot_line. cbn [fst snd]. rewrite !app_assoc_s. reflexivity. }
  apply G.
Qed.
(** Its formatted text, [f] being the text of a date, is the same with the formatted texts of the slots; the
    scheduler of a graph without instants has a text of its own. *)
Theorem C74_format : forall p f g s, stored g -> proper p g -> session p g s -> (forall t, valid t -> exists x, f t = Ret x) ->
  exists texts, Forall2 (fun l x => format_timeset f l = Ret x) (sc_slots s) texts /\
  sc_format f s = Ret (if g_size g =? 0 then "empty time scheduler (no instant)" else slot_lines texts).
Proof.
  intros p f g s M P Se F. pose proof (session_valid _ _ _ M P Se) as V.
  destruct (texts_total (format_timeset f) (sc_slots s)) as (ts & T).
  { eapply Forall_impl; [|exact V]. intros l Vl. apply set_text_total; auto. }
  exists ts. split; auto. apply stored_mem in M. apply proper_prop in P; auto. destruct (session_sinv _ _ _ M P Se) as (_ & L & _).
  assert (G : forall n, omapM (fun a => y <- format_timeset f (snd a) ;; Ret ("t" ++ dec (fst a) ++ " in " ++ y ++ nl)) (enumerate n (sc_slots s)) =
    Ret (map slot_line (enumerate n ts))).
  { clear - T. induction T as [|l y ls ts H T IH]; intros n; cbn [enumerate map omapM]; auto.
    cbn [fst snd]. rewrite H. cbn [bind]. rewrite IH. reflexivity. }
  unfold sc_format. rewrite G. cbn [bind]. unfold slot_lines. destruct T as [|l y ls ts H T].
  - cbn in L. rewrite <- L. reflexivity.
  - replace (g_size g =? 0) with false by (cbn in L; lia). cbn [enumerate map joined_text fold_right]. f_equal.
    generalize (slot_line (0, y)) (map slot_line (enumerate (0 + 1) ts)). clear. intros a l. revert a.
    induction l as [|b l IH]; intros a; cbn [fold_left fold_right]; [now rewrite app_nil_s|]. now rewrite IH, app_assoc_s.
Qed.

Lemma gA_calls p : calls p false gA.
Proof.
  eapply c_extend with (hint := Some 2) (ks := [kk 0 1 3 48; kk 1 2 0 60]) (r := Propagated); [apply c_new| |destruct p; vm_compute; reflexivity|discriminate].
  repeat apply Forall_cons; try apply Forall_nil; unfold legal, valid, oo; cbn; lia.
Qed.
Local Open Scope string_scope.
Example C72_case : forall p, calls p false gA /\ calls p false g_default /\ g_debug p gA = Ret (nl ++
  "[       0       3       3 ]" ++ nl ++ "[     -48       0       0 ]" ++ nl ++ "[    -108     -60       0 ]" ++ nl).
Proof. intros p. split; [apply gA_calls|]. split; [constructor|]. destruct p; vm_compute; reflexivity. Qed.
Example C73_case : forall p, calls p false gA /\ g_display p gA = Ret ("[graph with 3 instants]" ++ nl ++
  "   t1 - t0 in [3ns,45ns]" ++ nl ++ "   t2 - t0 in [3ns,101ns]" ++ nl ++ "   t2 - t1 in [0,56ns]" ++ nl ++ "[with 3 constraints]" ++ nl).
Proof. intros p. split; [apply gA_calls|]. destruct p; vm_compute; reflexivity. Qed.
Example C74_case : forall p, stored gA /\ proper p gA /\ session p gA sA2 /\
  sc_debug sA2 = "t0 in [t=-48,t=-3]U{t=2}" ++ nl ++ "t1 in {t=0}" ++ nl ++ "t2 in {t=5}" ++ nl /\
  sc_display p (fun t => Ret "(date)") sA2 = Ret ("t0 in [45ns before 1970-01-01 00:00:00 UTC,3ns before 1970-01-01 00:00:00 UTC]U{(date)}" ++ nl ++
    "t1 in {(date)}" ++ nl ++ "t2 in {(date)}" ++ nl) /\
  sc_format (fun t => Ret (dec t)) sA2 = Ret ("t0 in [-48,-3]U{2}" ++ nl ++ "t1 in {0}" ++ nl ++ "t2 in {5}" ++ nl) /\
  sc_format (fun t => Ret (dec t)) (sc_new g_default) = Ret "empty time scheduler (no instant)".
Proof.
  intros p. destruct (C52_history_proper _ _ _ _ _ room_3 (histA p)) as (S1 & S2). split; auto. split; auto.
  split; [apply sA2_session|]. destruct p; repeat split; vm_compute; reflexivity.
Qed.
