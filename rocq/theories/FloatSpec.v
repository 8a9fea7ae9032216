(** What is assumed of floating-point arithmetic, and the formats that satisfy it. *)
From Coq Require Import Reals ZArith.
From Flocq Require Import Core.
From Verif Require Import FloatModel.
Open Scope R_scope.

(** A rounding with relative error u, absolute error eta (underflow), exact on the multiples k / 2^e of small powers of two with |k| <= B. *)
Record arithmetic (u eta : R) (B : Z) (f : R -> R) : Prop := {
  ar_monotone : forall x y, x <= y -> f x <= f y;
  ar_odd : forall x, f (- x) = - f x;
  ar_stable : forall x, f (f x) = f x;
  ar_exact : forall k e, (Z.abs k <= B)%Z -> (e <= 100)%nat -> f (IZR k / 2 ^ e) = IZR k / 2 ^ e;
  ar_error : forall x, Rabs (f x - x) <= u * Rabs x + eta }.
(** IEEE 754, round to nearest even, with gradual underflow and with flush to zero. *)
Definition binary64 : R -> R := round radix2 (FLT_exp (-1074) 53) ZnearestE.
Definition binary32 : R -> R := round radix2 (FLT_exp (-149) 24) ZnearestE.
Definition flushed (t : R) (f : R -> R) (x : R) : R := if Rlt_dec (Rabs (f x)) t then 0 else f x.
(** The library functions stay in their ranges. *)
Record library (a : fpu) : Prop := {
  lib_cos : forall x, -1 <= f_cos a x <= 1;
  lib_tanh : forall x, -1 <= f_tanh a x <= 1;
  lib_asin0 : f_asin a 0 = 0 }.
(** A property of every pixel that is added up. *)
Fixpoint over (t : summation) (P : nat -> nat -> Prop) : Prop := match t with Pixel i j => P i j | Added l r => over l P /\ over r P end.
(** Both parts of a complex number are representable. *)
Definition representable (f : R -> R) (z : R * R) : Prop := f (fst z) = fst z /\ f (snd z) = snd z.
(** A machine whose library functions are correctly rounded: double precision, single precision (with Python's floats in double). *)
Definition machine (f : R -> R) : fpu :=
  {| rnd := f; dbl := binary64; f_cos := fun x => f (cos x); f_sin := fun x => f (sin x); f_acos := fun x => f (acos x); f_asin := fun x => f (asin x); f_tanh := fun x => f (tanh x) |}.
Definition double : fpu := machine binary64.
Definition single : fpu := machine binary32.
(** The pixel size of a DLP9500, 10.8 * micro, as Python evaluates it. *)
Definition size9500 : R := binary64 (binary64 (108 / 10) * binary64 (1 / 1000000)).
(** No rounding at all. *)
Definition exact : fpu := {| rnd := fun x => x; dbl := fun x => x; f_cos := cos; f_sin := sin; f_acos := acos; f_asin := asin; f_tanh := tanh |}.
(** The pixels added up, with multiplicity. *)
Fixpoint pixels (t : summation) : list (nat * nat) := match t with Pixel i j => cons (i, j) nil | Added l r => (pixels l ++ pixels r)%list end.
