(** Vocabulary for what MRAF aims at (C128). *)
From Coq Require Import Reals ZArith Arith.
From Coquelicot Require Import Complex.
From Verif Require Import Cx Sums PyBase ProfileModel SlmModel LibModel DmdModel SimModel SimSpec DmdSpec HoloSpec.
Open Scope R_scope.

(** Squared amplitude errors in the image plane, weighted with the window. *)
Definition window_error (ny nx : nat) (F : nat -> nat -> C) (W T phi : nat -> nat -> R) : R :=
  rsum2 ny nx (fun u v => W u v * (Cmod (image_of ny nx (modulated F phi) u v) - T u v) ^ 2).
(** Keyword arguments of MRAF, the mixing factor possibly left out. *)
Definition mraf_options (N : Z) (w : parg) (om : option R) : lkwargs := {| lk_N := Some N; lk_window := Some w; lk_mix := om |}.
(** [B] is the beam that would give the image of the phases [g], moved inside the window towards the amplitudes [T] at its own
    phases [U], and unchanged outside. *)
Definition windowed_beam (s : slm) (F : nat -> nat -> C) (W T g : nat -> nat -> R) (B : nat -> nat -> C) : Prop :=
  exists U : nat -> nat -> C,
    (forall u v, in_slm s u v -> let z := image_of (s_Ny s) (s_Nx s) (modulated F g) u v in Cmod (U u v) = 1 /\ z = (RtoC (Cmod z) * U u v)%C) /\
    (forall i j, in_slm s i j -> B i j = spectrum_of (s_Ny s) (s_Nx s) (fun u v => let z := image_of (s_Ny s) (s_Nx s) (modulated F g) u v in
       (z + RtoC (W u v) * (RtoC (T u v) * U u v - z))%C) i j).
