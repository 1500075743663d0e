(** Model of [src/iter/*.rs]: the lazy combinators over sorted intervals.

    The inner iterators are fused, finite and free of side effects; each one is modelled
    by the list of the intervals it has still to yield.  The body of the [loop] of a
    [next] method is a function from the state of the iterator to the new state and
    what this turn does (go round again, return an item, return [None]); [next] runs
    turns under a fuel computed from the state, and running out of it is the outcome
    [NoFuel], which is proved unreachable. *)
From Verif Require Import Machine TimeValue Interval.

Inductive turn (A : Type) :=
| Again
| Yield (a : A)
| Stop.
Arguments Again {A}.
Arguments Yield {A} a.
Arguments Stop {A}.

Section Run.
  Context {S A : Type}.
  Variable step : S -> S * turn A.

  (** one call of [next]: the [loop] *)
  Fixpoint run_next (fuel : nat) (s : S) : outcome (option A * S) :=
    match fuel with
    | O => NoFuel
    | Datatypes.S f =>
      match step s with
      | (s', Again) => run_next f s'
      | (s', Yield a) => Ret (Some a, s')
      | (s', Stop) => Ret (None, s')
      end
    end.

  (** calling [next] until it returns [None] *)
  Fixpoint run_collect (next : S -> outcome (option A * S)) (fuel : nat) (s : S)
    : outcome (list A) :=
    match fuel with
    | O => NoFuel
    | Datatypes.S f =>
      r <- next s ;;
      match r with
      | (None, _) => Ret []
      | (Some a, s') => l <- run_collect next f s' ;; Ret (a :: l)
      end
    end.
End Run.

(** ** Intersection *)

(** iter/intersect.rs:73-79 *)
Inductive inter_phase := IInit | IWaitI | IWaitJ | IEnd.
(** iter/intersect.rs:81-87; [tmp] as in the code *)
Record inter_state := mkInter
  { in_i : list interval; in_j : list interval; in_phase : inter_phase; in_tmp : interval }.
(** iter/intersect.rs:94-96 *)
Definition inter_init (a b : list interval) : inter_state := mkInter a b IInit iv_all.

(** iter/intersect.rs:107-214, one turn of the loop.
    Both inner iterators are advanced in the initial phase, even if the first one is
    exhausted (112). *)
Definition inter_turn (s : inter_state) : inter_state * turn interval :=
  let tmp := in_tmp s in
  match in_phase s with
  | IInit =>
    match in_i s, in_j s with
    | [], _ => (mkInter [] (tl (in_j s)) IEnd tmp, Stop)
    | _ :: ri, [] => (mkInter ri [] IEnd tmp, Stop)
    | i :: ri, j :: rj =>
      if upper i <? just_before (lower j) then (mkInter ri rj IWaitI j, Again)
      else if upper j <? just_before (lower i) then (mkInter ri rj IWaitJ i, Again)
      else if upper i <=? upper j then
        (mkInter ri rj IWaitI j,
         Yield (if lower i <? lower j then mkI (lower j) (upper i) else i))
      else
        (mkInter ri rj IWaitJ i,
         Yield (if lower j <? lower i then mkI (lower i) (upper j) else j))
    end
  | IWaitI =>
    match in_i s with
    | [] => (mkInter [] (in_j s) IEnd tmp, Stop)
    | i :: ri =>
      if upper i <? just_before (lower tmp) then (mkInter ri (in_j s) IWaitI tmp, Again)
      else if upper tmp <? just_before (lower i) then (mkInter ri (in_j s) IWaitJ i, Again)
      else if upper i <=? upper tmp then
        (mkInter ri (in_j s) IWaitI tmp,
         Yield (if lower i <? lower tmp then mkI (lower tmp) (upper i) else i))
      else
        (mkInter ri (in_j s) IWaitJ i,
         Yield (if lower tmp <? lower i then mkI (lower i) (upper tmp) else tmp))
    end
  | IWaitJ =>
    match in_j s with
    | [] => (mkInter (in_i s) [] IEnd tmp, Stop)
    | j :: rj =>
      if upper j <? just_before (lower tmp) then (mkInter (in_i s) rj IWaitJ tmp, Again)
      else if upper tmp <? just_before (lower j) then (mkInter (in_i s) rj IWaitI j, Again)
      else if upper j <=? upper tmp then
        (mkInter (in_i s) rj IWaitJ tmp,
         Yield (if lower j <? lower tmp then mkI (lower tmp) (upper j) else j))
      else
        (mkInter (in_i s) rj IWaitI j,
         Yield (if lower tmp <? lower j then mkI (lower j) (upper tmp) else tmp))
    end
  | IEnd => (s, Stop)
  end.

Definition inter_fuel (s : inter_state) : nat :=
  Datatypes.S (length (in_i s) + length (in_j s)).
Definition inter_next (s : inter_state) : outcome (option interval * inter_state) :=
  run_next inter_turn (inter_fuel s) s.
Definition inter_collect (s : inter_state) : outcome (list interval) :=
  run_collect inter_next (inter_fuel s) s.
Definition inter_list (a b : list interval) : outcome (list interval) :=
  inter_collect (inter_init a b).

(** iter/intersect.rs:216-229; the inner iterators (slices, vectors, options) give exact
    hints; [saturating_add] on [usize] cannot saturate on lengths of real lists and is
    modelled by addition. *)
Definition inter_hint (s : inter_state) : Z * option Z :=
  match in_phase s with
  | IEnd => (0, Some 0)
  | _ => (0, Some (Z.of_nat (length (in_i s)) + Z.of_nat (length (in_j s))))
  end.

(** ** Union *)

(** iter/union.rs:72-79 *)
Inductive union_phase := UInit | UWaitI | UWaitJ | UOnlyI | UOnlyJ | UEnd.
(** iter/union.rs:82-88 *)
Record union_state := mkUnion
  { un_i : list interval; un_j : list interval; un_phase : union_phase; un_tmp : interval }.
(** iter/union.rs:95-97 *)
Definition union_init (a b : list interval) : union_state := mkUnion a b UInit iv_all.

(** iter/union.rs:108-228, one turn of the loop.  Line 190 goes to [OnlyJ] (not [OnlyI])
    when the second iterator is exhausted while waiting for it. *)
Definition union_turn (s : union_state) : union_state * turn interval :=
  let tmp := un_tmp s in
  match un_phase s with
  | UInit =>
    match un_i s, un_j s with
    | [], [] => (mkUnion [] [] UEnd tmp, Stop)
    | i :: ri, [] => (mkUnion ri [] UOnlyI tmp, Yield i)
    | [], j :: rj => (mkUnion [] rj UOnlyJ tmp, Yield j)
    | i :: ri, j :: rj =>
      if upper i <? just_before (lower j) then (mkUnion ri rj UWaitI j, Yield i)
      else if upper j <? just_before (lower i) then (mkUnion ri rj UWaitJ i, Yield j)
      else if upper i <=? upper j then
        (mkUnion ri rj UWaitI (mkI (Z.min (lower i) (lower j)) (upper j)), Again)
      else
        (mkUnion ri rj UWaitJ (mkI (Z.min (lower i) (lower j)) (upper i)), Again)
    end
  | UWaitI =>
    match un_i s with
    | [] => (mkUnion [] (un_j s) UOnlyJ tmp, Yield tmp)
    | i :: ri =>
      if upper i <? just_before (lower tmp) then (mkUnion ri (un_j s) UWaitI tmp, Yield i)
      else if upper tmp <? just_before (lower i) then (mkUnion ri (un_j s) UWaitJ i, Yield tmp)
      else
        let lo := if lower i <? lower tmp then lower i else lower tmp in
        if upper i <=? upper tmp then (mkUnion ri (un_j s) UWaitI (mkI lo (upper tmp)), Again)
        else (mkUnion ri (un_j s) UWaitJ (mkI lo (upper i)), Again)
    end
  | UWaitJ =>
    match un_j s with
    | [] => (mkUnion (un_i s) [] UOnlyJ tmp, Yield tmp)
    | j :: rj =>
      if upper j <? just_before (lower tmp) then (mkUnion (un_i s) rj UWaitJ tmp, Yield j)
      else if upper tmp <? just_before (lower j) then (mkUnion (un_i s) rj UWaitI j, Yield tmp)
      else
        let lo := if lower j <? lower tmp then lower j else lower tmp in
        if upper j <=? upper tmp then (mkUnion (un_i s) rj UWaitJ (mkI lo (upper tmp)), Again)
        else (mkUnion (un_i s) rj UWaitI (mkI lo (upper j)), Again)
    end
  | UOnlyI =>
    match un_i s with
    | [] => (s, Stop)
    | i :: ri => (mkUnion ri (un_j s) UOnlyI tmp, Yield i)
    end
  | UOnlyJ =>
    match un_j s with
    | [] => (s, Stop)
    | j :: rj => (mkUnion (un_i s) rj UOnlyJ tmp, Yield j)
    end
  | UEnd => (s, Stop)
  end.

Definition union_fuel (s : union_state) : nat :=
  Datatypes.S (Datatypes.S (length (un_i s) + length (un_j s))).
Definition union_next (s : union_state) : outcome (option interval * union_state) :=
  run_next union_turn (union_fuel s) s.
Definition union_collect (s : union_state) : outcome (list interval) :=
  run_collect union_next (union_fuel s) s.
Definition union_list (a b : list interval) : outcome (list interval) :=
  union_collect (union_init a b).

(** iter/union.rs:230-245 *)
Definition union_hint (s : union_state) : Z * option Z :=
  let ni := Z.of_nat (length (un_i s)) in
  let nj := Z.of_nat (length (un_j s)) in
  match un_phase s with
  | UOnlyI => (ni, Some ni)
  | UOnlyJ => (nj, Some nj)
  | UEnd => (0, Some 0)
  | _ => (0, Some (ni + nj))
  end.

(** ** Complement *)

(** iter/compl.rs:25-29 *)
Record compl_state := mkCompl { co_iter : list interval; co_lower : Z }.
(** iter/compl.rs:33-38 *)
Definition compl_init (a : list interval) : compl_state := mkCompl a (- INF).

(** iter/compl.rs:68-88: the [for] loop over the inner iterator and what follows it *)
Fixpoint compl_for (l : list interval) (lo : Z) : option interval * compl_state :=
  match l with
  | [] =>
    if is_future_infinite lo then (None, mkCompl [] lo)
    else (Some (mkI lo INF), mkCompl [] INF)
  | n :: r =>
    if lo <? lower n then
      (Some (mkI lo (just_before (lower n))), mkCompl r (just_after (upper n)))
    else compl_for r lo
  end.

(** iter/compl.rs:52-89 [next] *)
Definition compl_next (s : compl_state) : option interval * compl_state :=
  if is_past_infinite (co_lower s) then
    match co_iter s with
    | [] => compl_for [] (co_lower s)
    | n :: r =>
      let up := just_before (lower n) in
      let lo := just_after (upper n) in
      if up =? - INF then compl_for r lo
      else (Some (mkI (- INF) up), mkCompl r lo)
    end
  else compl_for (co_iter s) (co_lower s).

Definition compl_fuel (s : compl_state) : nat :=
  Datatypes.S (Datatypes.S (length (co_iter s))).
Definition compl_collect (s : compl_state) : outcome (list interval) :=
  run_collect (fun s => Ret (compl_next s)) (compl_fuel s) s.
Definition compl_list (a : list interval) : outcome (list interval) :=
  compl_collect (compl_init a).

(** iter/compl.rs:91-99 *)
Definition compl_hint (s : compl_state) : Z * option Z :=
  let n := Z.of_nat (length (co_iter s)) in
  (Z.max 0 (n - 1), Some (if is_finite (co_lower s) then n else n + 1)).

(** ** Exclusion *)

(** iter/excl.rs:12-23: intersection with the complement *)
Definition excl_list (a b : list interval) : outcome (list interval) :=
  c <- compl_list b ;; inter_list a c.
