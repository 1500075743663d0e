(** The float operations of [Float] compared, on samples, with those of Coq's [SpecFloat] (the computable
    IEEE 754 of the standard library): every special value, subnormal and largest values, random values. *)
From Verif Require Import Machine TimeValue Interval Iter TimeSet Scaling Float.
From Coq Require Import SpecFloat.

Definition of_spec (F : fmt) (x : spec_float) : fl :=
  match x with
  | S754_zero s => FFin s 0
  | S754_infinity s => FInf s
  | S754_nan => FNan
  | S754_finite s m e => FFin s (Zpos m * 2 ^ (e + f_e F))
  end.
Definition fl_eqb (x y : fl) : bool :=
  match x, y with
  | FNan, FNan => true
  | FInf s, FInf s' => Bool.eqb s s'
  | FFin s u, FFin s' v => Bool.eqb s s' && (u =? v)
  | _, _ => false
  end.
Definition norm F (m e : Z) := binary_normalize (f_prec F) (f_max F) m e false.
Fixpoint gen (n : nat) (x : Z) : list Z := match n with O => [] | S n => x :: gen n ((x * 6364136223846793005 + 1442695040888963407) mod 2^64) end.
Definition samples (F:fmt) : list spec_float :=
  [S754_nan; S754_infinity true; S754_infinity false; S754_zero true; S754_zero false] ++
  map (fun z => norm F (if Z.odd (z/7) then - (z / 2^(z mod 40)) else z / 2^(z mod 13)) ((z / 64) mod (f_max F + f_e F + 60) - f_e F - 40)) (gen 25 12345) ++
  map (fun z => norm F z 0) [1;-1;3;2^53-1;2^53+1;2^24+1;2^63;2^63-1;-5;49] ++ map (fun e => norm F 1 (- f_e F + e)) [0;1;2;20;30;50;52;54] ++
  map (fun e => norm F (2^ f_prec F - 1) (- f_e F + e)) [0;1;2;20;30;50;52;54; f_max F + f_e F - f_prec F].
Definition agree F (l : list spec_float) := forallb (fun x => fl_eqb (finv F (of_spec F x)) (of_spec F (SFdiv (f_prec F) (f_max F) (norm F 1 0) x)) &&
  forallb (fun y => fl_eqb (fmul F (of_spec F x) (of_spec F y)) (of_spec F (SFmul (f_prec F) (f_max F) x y)) &&
    Bool.eqb (f_lt (of_spec F x) (of_spec F y)) (SFltb x y)) l) l.
Definition agree_int F n := forallb (fun z => fl_eqb (f_of F (z - 2^63)) (of_spec F (norm F (z - 2^63) 0))) (gen n 77).
(** Special, subnormal, large and ordinary values *)
Definition few F := [S754_nan; S754_infinity true; S754_zero true; norm F (2 ^ f_prec F - 1) (-30); norm F (- 3) 0;
  norm F 1 (- f_e F); norm F (2 ^ f_prec F - 1) (4 - f_e F); norm F (2 ^ f_prec F - 1) (f_max F - f_prec F); norm F 5404319552844595 (- 54); norm F 49 0].
Example float_f32 : agree f32 (few f32) = true /\ agree_int f32 10 = true.
Proof. split; vm_compute; reflexivity. Qed.
(** More samples, compared while this file is compiled, which fails if one of them differs. They leave
    no proof, as these large numbers are slow to check again. *)
Definition more_samples : bool := ltac:(
  let b := eval vm_compute in (agree f32 (samples f32) && agree_int f32 100 && agree f64 (few f64) && agree_int f64 100) in
  lazymatch b with true => exact true end).
