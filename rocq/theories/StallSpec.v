(** Vocabulary for the progress of a Gerchberg-Saxton run (C126). *)
From Coq Require Import Reals ZArith Arith.
From Coquelicot Require Import Complex.
From Verif Require Import Cx Sums PyBase ProfileModel SlmModel LibModel DmdModel SimModel SimSpec DmdSpec HoloSpec.
Open Scope R_scope.

(** [B] is the beam that would give the image of the phases [g] with its amplitudes replaced by [T] and its phases [U] kept
    (any phase where the image is dark). *)
Definition corrected_beam (s : slm) (F : nat -> nat -> C) (T g : nat -> nat -> R) (B : nat -> nat -> C) : Prop :=
  exists U : nat -> nat -> C,
    (forall u v, in_slm s u v -> let z := image_of (s_Ny s) (s_Nx s) (modulated F g) u v in Cmod (U u v) = 1 /\ z = (RtoC (Cmod z) * U u v)%C) /\
    (forall i j, in_slm s i j -> B i j = spectrum_of (s_Ny s) (s_Nx s) (fun u v => (RtoC (T u v) * U u v)%C) i j).
(** How far the phases move from g to g', weighted with the amplitudes of beam and corrected beam. *)
Definition movement (s : slm) (A : nat -> nat -> R) (B : nat -> nat -> C) (g g' : nat -> nat -> R) : R :=
  rsum2 (s_Ny s) (s_Nx s) (fun i j => A i j * Cmod (B i j) * Cmod (cis (g' i j) - cis (g i j))%C ^ 2) / INR (s_Ny s * s_Nx s).
