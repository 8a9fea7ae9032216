(** Bounds for the rounding errors of Hermite-Gauss modes. *)
From Coq Require Import Reals ZArith List.
From Verif Require Import ProfileModel FloatSpec FlSimSpec.
Open Scope R_scope.

(** The Hermite polynomial with all coefficients made positive: recursion with a plus sign. *)
Fixpoint hermite_size (n : nat) (X : R) : R :=
  match n with O => 1 | S O => 2 * X | S (S k as n') => 2 * X * hermite_size n' X + 2 * INR n' * hermite_size k X end.
(** First-order error of a mode of orders n and m at distances up to X and Y beam widths; e is the error of tf.exp. *)
Definition herm_error (u e : R) (n m : nat) (X Y : R) : R := 4 * u * (INR (5 + 6 * (n + m)) + 7 * (X ^ 2 + Y ^ 2)) + e.
(** Coefficients as stored. *)
Definition stored_hermite (u : R) (n : nat) (h : list R) : Prop := Forall2 (near (4 * u) 0) (hermite_coef n) h.
