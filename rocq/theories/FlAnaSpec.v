(** Bounds for the rounding errors in analysis.py. *)
From Coq Require Import Reals ZArith List Permutation.
From Verif Require Import ZernSpec AnaSpec FloatModel FloatSpec FlSimSpec FlAnaModel.
Open Scope R_scope.

(** The array zf holds the mode with an absolute error of at most e at the pixels G. *)
Definition evaluates (G : nat -> nat -> Prop) (ny nx : nat) (radius : R) (x : bool) (e : R) (n m : Z) (zf : nat -> nat -> R) : Prop :=
  forall z, samples_mode ny nx radius n m x z -> forall i j, (i < ny)%nat -> (j < nx)%nat -> G i j -> Rabs (zf i j - z i j) <= e.
(** The mode is at most Zm at the pixels G. *)
Definition mode_bound (G : nat -> nat -> Prop) (ny nx : nat) (radius : R) (x : bool) (Zm : R) (n m : Z) : Prop :=
  forall z, samples_mode ny nx radius n m x z -> forall i j, (i < ny)%nat -> (j < nx)%nat -> G i j -> Rabs (z i j) <= Zm.
(** Every selected pixel is added up once. *)
Definition adds_selected (q : numerics) (ny nx : nat) (radius : R) (t : summation) : Prop := Permutation (pixels t) (selected q ny nx radius).
(** No pixel of the circle is lost when the square of the radius is rounded. *)
Definition clear_radius (q : numerics) (ny nx : nat) (radius : R) : Prop :=
  forall i j, (i < ny)%nat -> (j < nx)%nat -> dist_sq ny nx i j < radius ^ 2 -> dist_sq ny nx i j <> flt q (radius ^ 2).
(** Error of a coefficient of a profile bounded by F. *)
Definition coefficient_error (u eta : R) (d : nat) (F Zm e : R) : R := F * e + ((1 + u) ^ (d + 2) - 1) * (F * (Zm + e)) + 3 * (1 + u) ^ (d + 1) * eta.
(** Error of c * z if |c| <= K is known up to ec; v and theta are the errors of the precision of that product. *)
Definition term_error (v theta K ec Zm e : R) : R := ((1 + v) ^ 2 - 1) * ((K + ec) * (Zm + e)) + theta * ((1 + v) * (Zm + e) + 1) + ec * (Zm + e) + K * e.
(** Error of the reconstruction after k terms of error w each, every one of them at most M. *)
Fixpoint reconstruction_error (u eta w M : R) (k : nat) : R :=
  match k with O => 0 | S k => (1 + u) * (reconstruction_error u eta w M k + w) + u * (INR (S k) * M) + eta end.
