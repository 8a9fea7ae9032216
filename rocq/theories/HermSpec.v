(** Vocabulary for C113: the image of a sampled Hermite-Gauss beam. *)
From Coq Require Import Reals Arith.
From Coquelicot Require Import Complex.
From Verif Require Import Cx ModeSpec.
Open Scope R_scope.

(** Bounds on |H_n(sqrt 2 t) exp(-t^2)| and on its first and second derivative. *)
Definition sup0 (n : nat) : R := sqrt (sqrt (PI * (INR n + 1 / 2)) * 2 ^ n * INR (fact n)).
Definition lower (f : nat -> R) (n : nat) : R := match n with O => 0 | S k => 2 * (INR k + 1) * f k end.
Definition sup1 (n : nat) : R := (lower sup0 n + sup0 (S n)) / sqrt 2.
Definition sup2 (n : nat) : R := (lower sup1 n + sup1 (S n)) / sqrt 2.
(** Values at the two ends A, B of the array (in units of the waist). *)
Definition edge (n : nat) (A B : R) : R := Rabs (hermite n (sqrt 2 * A)) * exp (- A ^ 2) + Rabs (hermite n (sqrt 2 * B)) * exp (- B ^ 2).
(** Error of the Fourier integral caused by the part of the beam outside [A, B], for orders n and n + 1. *)
Fixpoint tails (A B k : R) (n : nat) : R * R :=
  match n with
  | O => let t := (exp (- A ^ 2) + exp (- B ^ 2)) * (2 / sqrt PI + Rabs k / 2) in (t, sqrt 2 * Rabs k * t + sqrt 2 * edge 0 A B)
  | S p => let (a, b) := tails A B k p in (b, 2 * (INR p + 1) * a + sqrt 2 * Rabs k * b + sqrt 2 * edge (S p) A B)
  end.
(** Error made along one axis by sampling H_n(sqrt 2 (x - c) / w) exp(- (x - c)^2 / w^2) with pitch h on [-L, L) at the angular frequency kappa:
    second order in the pitch, ends of the array, part of the beam missing the array. *)
Definition hg_axis_error (n : nat) (h L c w kappa : R) : R :=
  let A := - (L + c) / w in let B := (L - c) / w in let k := w * kappa in
  w * (2 * L / w * (h / w) ^ 2 / 12 * (sup2 n + 2 * Rabs k * sup1 n + k ^ 2 * sup0 n) + h / w / 2 * edge n A B + fst (tails A B k n)).
(** Error of a product of two factors of size at most t1, t2. *)
Definition product_error (t1 t2 e1 e2 : R) : R := (t1 + e1) * (t2 + e2) - t1 * t2.
