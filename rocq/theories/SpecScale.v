(** Specification vocabulary for the float factors. *)
From Verif Require Import Machine Spec Interval SpecSets Float.

Definition format (F : fmt) : Prop := F = f32 \/ F = f64.
(** [v] units, [v >= 0], have at most [f_prec] binary digits. *)
Definition rep (F : fmt) (v : Z) : Prop := exists m j, 0 <= m < 2 ^ f_prec F /\ 0 <= j /\ v = m * 2 ^ j.
(** The values of the type *)
Definition value (F : fmt) (f : fl) : Prop :=
  match f with FNan | FInf _ => True | FFin _ u => rep F u /\ u < 2 ^ (f_max F + f_e F) end.
(** The value [- f] *)
Definition f_opp (f : fl) : fl :=
  match f with FNan => FNan | FInf s => FInf (negb s) | FFin s u => FFin (negb s) u end.
(** [f] is below 0; [f] is between -1 and 1, both excluded *)
Definition below_zero (f : fl) : Prop :=
  match f with FNan => False | FInf s => s = true | FFin s u => s = true /\ u <> 0 end.
Definition contracting (F : fmt) (f : fl) : Prop :=
  match f with FNan | FInf _ => False | FFin _ u => u < 2 ^ f_e F end.
