(** How accurate the library's inverse and hyperbolic functions are, and how far rounding moves the duty cycle of the random grating (C124). *)
From Coq Require Import Reals.
From Verif Require Import FloatModel.
Open Scope R_scope.

Record inverse_accurate (a : fpu) (v : R) : Prop := {
  acc_acos : forall x, -1 <= x <= 1 -> Rabs (f_acos a x - acos x) <= 2 * v;
  acc_asin : forall x, -1 <= x <= 1 -> Rabs (f_asin a x - asin x) <= 2 * v;
  acc_tanh : forall x, Rabs (f_tanh a x - tanh x) <= v }.
(** Steepness [r], carrier phases of size [s]. *)
Definition duty_error (v r s : R) : R := r * (33 * v * (s + 8) + 3 * sqrt v) + 6 * v.
