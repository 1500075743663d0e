(** Machine-level vocabulary shared by all the model files: results of Rust
    computations and fixed-width integer arithmetic.

    Nothing here is specific to chronologic.  [i64], [u32], [usize] values are
    represented by [Z]; an operation that may overflow takes the build profile. *)
From Coq Require Export ZArith List Lia Bool.
Export ListNotations.
Open Scope Z_scope.

(** Result of a Rust computation.
    [Panic]: the thread panics.  [Ub]: an unchecked access is out of bounds
    (undefined behaviour).  [NoFuel]: the bounded interpretation of a loop or of
    a recursion was too short (theorems always state [= Ret _], hence exclude it). *)
Inductive outcome (A : Type) : Type :=
| Ret (a : A)
| Panic
| Ub
| NoFuel.
Arguments Ret {A} a.
Arguments Panic {A}.
Arguments Ub {A}.
Arguments NoFuel {A}.

Definition bind {A B} (x : outcome A) (f : A -> outcome B) : outcome B :=
  match x with
  | Ret a => f a
  | Panic => Panic
  | Ub => Ub
  | NoFuel => NoFuel
  end.

Notation "x <- e ;; f" := (bind e (fun x => f))
  (at level 61, e at next level, right associativity).

Definition omap {A B} (f : A -> B) (x : outcome A) : outcome B :=
  bind x (fun a => Ret (f a)).

(** Left fold with effects: [for b in l { acc = f(acc, b) }]. *)
Fixpoint ofold {A B} (f : A -> B -> outcome A) (acc : A) (l : list B) : outcome A :=
  match l with
  | [] => Ret acc
  | b :: r => a <- f acc b ;; ofold f a r
  end.

(** [iter.map(f).collect::<Vec<_>>()] with effects. *)
Fixpoint omapM {A B} (f : A -> outcome B) (l : list A) : outcome (list B) :=
  match l with
  | [] => Ret []
  | a :: r => b <- f a ;; bs <- omapM f r ;; Ret (b :: bs)
  end.

(** The two Cargo profiles: [Debug] = overflow checks and [debug_assert!] on,
    [Release] = two's complement wrap around and [debug_assert!] off. *)
Inductive profile := Debug | Release.

Definition i64_min : Z := -9223372036854775808.
Definition i64_max : Z := 9223372036854775807.

Definition in_i64 (z : Z) : bool := (i64_min <=? z) && (z <=? i64_max).

(** Two's complement reduction to 64 bits ([as i64], wrapping arithmetic). *)
Definition wrap64 (z : Z) : Z := (z + 2 ^ 63) mod 2 ^ 64 - 2 ^ 63.

(** Plain [+], [-], [*], unary [-] on [i64]. *)
Definition chk64 (p : profile) (z : Z) : outcome Z :=
  if in_i64 z then Ret z
  else match p with Debug => Panic | Release => Ret (wrap64 z) end.

Definition add64 p (x y : Z) := chk64 p (x + y).
Definition sub64 p (x y : Z) := chk64 p (x - y).
Definition mul64 p (x y : Z) := chk64 p (x * y).
Definition neg64 p (x : Z) := chk64 p (- x).
Definition abs64 p (x : Z) := chk64 p (Z.abs x).

(** [/] on [i64]: truncates toward zero, panics in both profiles on 0 and on MIN/-1. *)
Definition div64 (x y : Z) : outcome Z :=
  if (y =? 0) || ((x =? i64_min) && (y =? -1)) then Panic else Ret (Z.quot x y).

(** [saturating_add], [saturating_mul] on [i64]. *)
Definition sat64 (z : Z) : Z := Z.max i64_min (Z.min i64_max z).

(** [saturating_div] on [i64]: panics on 0 only. *)
Definition sat_div64 (x y : Z) : outcome Z :=
  if y =? 0 then Panic else Ret (sat64 (Z.quot x y)).

(** [<<] by a constant smaller than 64: bits are dropped silently in both profiles. *)
Definition shl64 (x k : Z) : Z := wrap64 (Z.shiftl x k).
(** [>>] on a signed integer: arithmetic shift. *)
Definition shr64 (x k : Z) : Z := Z.shiftr x k.

(** [as i32] *)
Definition wrap32 (z : Z) : Z := (z + 2 ^ 31) mod 2 ^ 32 - 2 ^ 31.

(** [u32] arithmetic. *)
Definition u32_max : Z := 4294967295.
Definition chk32 (p : profile) (z : Z) : outcome Z :=
  if (0 <=? z) && (z <=? u32_max) then Ret z
  else match p with Debug => Panic | Release => Ret (z mod 2 ^ 32) end.
Definition add32 p (x y : Z) := chk32 p (x + y).
Definition sub32 p (x y : Z) := chk32 p (x - y).
Definition mul32 p (x y : Z) := chk32 p (x * y).

(** [usize] arithmetic (64-bit targets). *)
Definition usize_max : Z := 18446744073709551615.
Definition chkus (p : profile) (z : Z) : outcome Z :=
  if (0 <=? z) && (z <=? usize_max) then Ret z
  else match p with Debug => Panic | Release => Ret (z mod 2 ^ 64) end.
Definition addus p (x y : Z) := chkus p (x + y).
Definition subus p (x y : Z) := chkus p (x - y).
Definition mulus p (x y : Z) := chkus p (x * y).

(** [debug_assert!(c)] *)
Definition debug_assert (p : profile) (c : bool) : outcome unit :=
  match p with
  | Debug => if c then Ret tt else Panic
  | Release => Ret tt
  end.

(** [assert!(c)] *)
Definition assert_ (c : bool) : outcome unit := if c then Ret tt else Panic.
