(** Vocabulary for reflecting beam and target of a phase-retrieval run (C125). *)
From Coq Require Import Reals ZArith Arith.
From Coquelicot Require Import Complex.
From Verif Require Import Cx Sums PyBase ProfileModel SlmModel LibModel DmdModel SimModel SimSpec DmdSpec HoloSpec.
Open Scope R_scope.

(** The pixel opposite to k on a row of n pixels, cyclically with period n; pixel 0 is its own opposite. *)
Definition opposite (n k : nat) : nat := ((n - k) mod n)%nat.
(** Beam and phases with columns (a) and rows (b) reversed; images reversed about the optical axis. *)
Definition flipped_beam {A} (s : slm) (a b : bool) (F : nat -> nat -> A) (i j : nat) : A :=
  F (if b then opposite (s_Ny s) i else i) (if a then opposite (s_Nx s) j else j).
Definition flipped_image {A} (s : slm) (a b : bool) (T : nat -> nat -> A) (u v : nat) : A :=
  T (if b then reflect (s_Ny s) u else u) (if a then reflect (s_Nx s) v else v).
(** Sum of squared differences between what is displayed and c times the target. *)
Definition display_error (s : slm) (c : R) (E : nat -> nat -> C) (T : nat -> nat -> R) : R :=
  rsum2 (s_Ny s) (s_Nx s) (fun u v => (Cmod (E u v) - c * T u v) ^ 2).
