(** Model of what the attributes [derive(Hash)] and [derive(serde::Serialize, serde::Deserialize)]
    make of the types [TimeValue], [Timestamp], [TimeInterval] and [TimeSet]
    (wins/timevalue.rs:10-12, wins/timestamp.rs:8-10, wins/timeinterval.rs:17-19,
    wins/timeset.rs:18-20). *)
From Verif Require Import Machine TimeValue Interval Iter TimeSet.
Require Import String.
Local Open Scope string_scope.

(** What [hash] writes to the state, one number for each [write]: an [i64] for a time value or a
    timestamp, the fields in their order for an interval, the length and then the items for the
    [Vec] of a set. *)
Definition hash_tv (t : Z) : list Z := [t].
Definition hash_iv (i : interval) : list Z := (hash_tv (lower i) ++ hash_tv (upper i))%list.
Definition hash_set (l : tset) : list Z := Z.of_nat (List.length l) :: List.concat (map hash_iv l).

(** The data model of serde, restricted to what is needed here: integers, structures (or maps) and
    sequences.  The text or the bytes of a format are not modelled. *)
Inductive ser := SInt (z : Z) | SRec (fs : list (string * ser)) | SSeq (xs : list ser).

(** [Serialize]: the tuple structures of one field, [TimeValue], [Timestamp] and [TimeSet], are
    written as their content. *)
Definition ser_tv (t : Z) : ser := SInt t.
Definition ser_iv (i : interval) : ser :=
  SRec [("lower", ser_tv (lower i)); ("upper", ser_tv (upper i))].
Definition ser_set (l : tset) : ser := SSeq (map ser_iv l).

(** [Deserialize].  [None] is an error. *)
Definition de_tv (s : ser) : option Z :=
  match s with SInt z => if in_i64 z then Some z else None | _ => None end.
(** [visit_map]: a field given twice or missing is an error, unknown fields are ignored. *)
Fixpoint de_fields (lo up : option Z) (fs : list (string * ser)) : option interval :=
  match fs with
  | [] => match lo, up with Some l, Some u => Some (mkI l u) | _, _ => None end
  | (n, v) :: r =>
      if n =? "lower" then
        match lo, de_tv v with None, Some z => de_fields (Some z) up r | _, _ => None end
      else if n =? "upper" then
        match up, de_tv v with None, Some z => de_fields lo (Some z) r | _, _ => None end
      else de_fields lo up r
  end.
(** [visit_map] or [visit_seq]; a sequence which is too long is refused by the format. *)
Definition de_iv (s : ser) : option interval :=
  match s with
  | SRec fs => de_fields None None fs
  | SSeq [a; b] => match de_tv a, de_tv b with Some l, Some u => Some (mkI l u) | _, _ => None end
  | _ => None
  end.
Fixpoint de_all (xs : list ser) : option tset :=
  match xs with
  | [] => Some []
  | x :: r => match de_iv x, de_all r with Some i, Some l => Some (i :: l) | _, _ => None end
  end.
Definition de_set (s : ser) : option tset := match s with SSeq xs => de_all xs | _ => None end.
