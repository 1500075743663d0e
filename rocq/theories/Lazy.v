(** Model of the combinators of [src/iter/*.rs] over any source of intervals.

    In [Iter] an inner iterator is the list of the intervals it has still to yield.  Here
    it is any type of states with a [next] function: another combinator, an adapter, an
    iterator which never ends, or one which yields again after [None].  What is done with
    the intervals that are read is the code of [Iter]; only the reading differs. *)
From Verif Require Import Machine TimeValue Interval Iter.

(** [Iterator::next] of a source, which may not come back ([NoFuel]) or panic *)
Definition source (S : Type) := S -> outcome (option interval * S).

(** A slice or a vector *)
Definition list_next : source (list interval) := fun l =>
  match l with [] => Ret (None, []) | x :: r => Ret (Some x, r) end.

(** iter/intersect.rs:86, 95, iter/union.rs:87, 96, iter/compl.rs:27, 35: [Fuse], which
    drops its iterator the first time that it returns [None] and returns [None] for
    ever after *)
Definition fuse_next {S} (n : source S) : source (option S) := fun s =>
  match s with
  | None => Ret (None, None)
  | Some s =>
    r <- n s ;;
    match r with
    | (None, _) => Ret (None, None)
    | (Some x, s') => Ret (Some x, Some s')
    end
  end.

(** what has been read, as a list *)
Definition read (o : option interval) : list interval :=
  match o with None => [] | Some x => [x] end.

(** the [loop] of a [next] method, at most [fuel] turns *)
Fixpoint turns {S A} (step : S -> outcome (S * turn A)) (fuel : nat) (s : S)
  : outcome (option A * S) :=
  match fuel with
  | O => NoFuel
  | Datatypes.S f =>
    r <- step s ;;
    match r with
    | (s', Again) => turns step f s'
    | (s', Yield a) => Ret (Some a, s')
    | (s', Stop) => Ret (None, s')
    end
  end.

Section Two.
  Context {SI SJ : Type}.
  Variable ni : source SI.
  Variable nj : source SJ.

  (** iter/intersect.rs:81-87 *)
  Record linter := mkLI
    { li_i : option SI; li_j : option SJ; li_phase : inter_phase; li_tmp : interval }.
  (** iter/intersect.rs:94-96 *)
  Definition linter_init (i : SI) (j : SJ) : linter :=
    mkLI (Some i) (Some j) IInit iv_all.
  (** iter/intersect.rs:107-214, one turn: line 112 reads both iterators, 146 the first,
      179 the second *)
  Definition linter_turn (s : linter) : outcome (linter * turn interval) :=
    match li_phase s with
    | IInit =>
      r <- fuse_next ni (li_i s) ;;
      q <- fuse_next nj (li_j s) ;;
      let (t, k) := inter_turn (mkInter (read (fst r)) (read (fst q)) IInit (li_tmp s)) in
      Ret (mkLI (snd r) (snd q) (in_phase t) (in_tmp t), k)
    | IWaitI =>
      r <- fuse_next ni (li_i s) ;;
      let (t, k) := inter_turn (mkInter (read (fst r)) [] IWaitI (li_tmp s)) in
      Ret (mkLI (snd r) (li_j s) (in_phase t) (in_tmp t), k)
    | IWaitJ =>
      q <- fuse_next nj (li_j s) ;;
      let (t, k) := inter_turn (mkInter [] (read (fst q)) IWaitJ (li_tmp s)) in
      Ret (mkLI (li_i s) (snd q) (in_phase t) (in_tmp t), k)
    | IEnd => Ret (s, Stop)
    end.
  Definition linter_next (fuel : nat) : source linter := turns linter_turn fuel.

  (** iter/union.rs:82-88 *)
  Record lunion := mkLU
    { lu_i : option SI; lu_j : option SJ; lu_phase : union_phase; lu_tmp : interval }.
  (** iter/union.rs:95-97 *)
  Definition lunion_init (i : SI) (j : SJ) : lunion :=
    mkLU (Some i) (Some j) UInit iv_all.
  (** iter/union.rs:108-228, one turn; the reads are in lines 113, 150, 187, 223, 224 *)
  Definition lunion_turn (s : lunion) : outcome (lunion * turn interval) :=
    match lu_phase s with
    | UInit =>
      r <- fuse_next ni (lu_i s) ;;
      q <- fuse_next nj (lu_j s) ;;
      let (t, k) := union_turn (mkUnion (read (fst r)) (read (fst q)) UInit (lu_tmp s)) in
      Ret (mkLU (snd r) (snd q) (un_phase t) (un_tmp t), k)
    | UWaitI | UOnlyI =>
      r <- fuse_next ni (lu_i s) ;;
      let (t, k) := union_turn (mkUnion (read (fst r)) [] (lu_phase s) (lu_tmp s)) in
      Ret (mkLU (snd r) (lu_j s) (un_phase t) (un_tmp t), k)
    | UWaitJ | UOnlyJ =>
      q <- fuse_next nj (lu_j s) ;;
      let (t, k) := union_turn (mkUnion [] (read (fst q)) (lu_phase s) (lu_tmp s)) in
      Ret (mkLU (lu_i s) (snd q) (un_phase t) (un_tmp t), k)
    | UEnd => Ret (s, Stop)
    end.
  Definition lunion_next (fuel : nat) : source lunion := turns lunion_turn fuel.

  (** iter/compl.rs:25-29 *)
  Record lcompl := mkLC { lc_i : option SI; lc_lower : Z }.
  (** iter/compl.rs:33-38 *)
  Definition lcompl_init (i : SI) : lcompl := mkLC (Some i) (- INF).
  (** iter/compl.rs:68-88, the [for] loop and what follows it *)
  Fixpoint lcompl_for (fuel : nat) (i : option SI) (lo : Z)
    : outcome (option interval * lcompl) :=
    match fuel with
    | O => NoFuel
    | Datatypes.S f =>
      r <- fuse_next ni i ;;
      match r with
      | (None, i') =>
        let (o, c) := compl_for [] lo in Ret (o, mkLC i' (co_lower c))
      | (Some n, i') =>
        if lo <? lower n then
          Ret (Some (mkI lo (just_before (lower n))), mkLC i' (just_after (upper n)))
        else lcompl_for f i' lo
      end
    end.
  (** iter/compl.rs:52-89 *)
  Definition lcompl_next (fuel : nat) : source lcompl := fun s =>
    if is_past_infinite (lc_lower s) then
      r <- fuse_next ni (lc_i s) ;;
      match r with
      | (None, i') => lcompl_for fuel i' (lc_lower s)
      | (Some n, i') =>
        let up := just_before (lower n) in
        let lo := just_after (upper n) in
        if up =? - INF then lcompl_for fuel i' lo
        else Ret (Some (mkI (- INF) up), mkLC i' lo)
      end
    else lcompl_for fuel (lc_i s) (lc_lower s).
End Two.
Arguments linter : clear implicits.
Arguments lunion : clear implicits.
Arguments lcompl : clear implicits.

(** ** Size hints, from those of the fused sources *)

(** iter/intersect.rs:216-229; [saturating_add] cannot saturate for counts of intervals in
    memory and is an addition here *)
Definition linter_hint (ph : inter_phase) (hi hj : Z * option Z) : Z * option Z :=
  match ph with
  | IEnd => (0, Some 0)
  | _ =>
    match snd hi, snd hj with
    | Some m, Some n => (0, Some (m + n))
    | _, _ => (0, None)
    end
  end.
(** iter/union.rs:230-245 *)
Definition lunion_hint (ph : union_phase) (hi hj : Z * option Z) : Z * option Z :=
  match ph with
  | UOnlyI => hi
  | UOnlyJ => hj
  | UEnd => (0, Some 0)
  | _ =>
    match snd hi, snd hj with
    | Some m, Some n => (0, Some (m + n))
    | _, _ => (0, None)
    end
  end.
(** iter/compl.rs:91-99 *)
Definition lcompl_hint (lo : Z) (h : Z * option Z) : Z * option Z :=
  (Z.max 0 (fst h - 1),
   if is_finite lo then snd h else option_map (fun m => m + 1) (snd h)).
