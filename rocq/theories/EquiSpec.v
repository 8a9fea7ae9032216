(** Vocabulary for moving the target of a phase-retrieval run (C100). *)
From Coq Require Import Reals ZArith Arith.
From Coquelicot Require Import Complex.
From Verif Require Import Cx Sums PyBase ProfileModel SlmModel LibModel DmdModel SimModel SimSpec DmdSpec HoloSpec.
Open Scope R_scope.

(** Phase advance of a tilted plane wave at pixel (i, j): a turns across the width, b turns across the height. *)
Definition tilt (s : slm) (a b : Z) (i j : nat) : R :=
  2 * PI * (IZR a * (INR j - INR (s_Nx s) / 2) / INR (s_Nx s) + IZR b * (INR (s_Ny s) / 2 - INR i) / INR (s_Ny s)).
(** An array moved by a columns to the right and b rows up, cyclically. *)
Definition moved_array {A} (s : slm) (a b : Z) (T : nat -> nat -> A) (u v : nat) : A :=
  T (Z.to_nat ((Z.of_nat u + b) mod Z.of_nat (s_Ny s))) (Z.to_nat ((Z.of_nat v - a) mod Z.of_nat (s_Nx s))).
(** No accidental zeros: with the phases p the image is nowhere dark where light is wanted, and the spectrum of the field put in its place
    ([wanted I U] from the image and its phase factor) vanishes on no lit pixel. *)
Definition no_zeros (s : slm) (F : nat -> nat -> C) (T : nat -> nat -> R) (wanted : C -> C -> nat -> nat -> C) (p : nat -> nat -> R) : Prop :=
  let I := image_of (s_Ny s) (s_Nx s) (modulated F p) in
  (forall u v, in_slm s u v -> T u v <> 0 -> I u v <> RtoC 0) /\
  (forall i j, in_slm s i j -> F i j <> RtoC 0 -> spectrum_of (s_Ny s) (s_Nx s) (fun u v => wanted (I u v) (unit_of (I u v)) u v) i j <> RtoC 0).
(** The field put in the place of the image by Gerchberg-Saxton and by MRAF. *)
Definition gs_field (T : nat -> nat -> R) (I U : C) (u v : nat) : C := (RtoC (T u v) * U)%C.
Definition mraf_field (T : nat -> nat -> R) (W : nat -> nat -> C) (m : R) (I U : C) (u v : nat) : C :=
  (RtoC m * (RtoC (T u v) * U) * W u v + RtoC (1 - m) * I * (RtoC 1 - W u v))%C.
