(** Vocabulary for displaying a computed hologram with an aberrated beam (C131). *)
From Coq Require Import Reals ZArith Arith.
From Coquelicot Require Import Complex.
From Verif Require Import Cx Sums PyBase ProfileModel SlmModel LibModel DmdModel SimModel SimSpec DmdSpec HoloSpec.
Open Scope R_scope.

(** lcos.slm_state = phi. *)
Definition assigned (s : slm) (phi : nat -> nat -> R) : lcos := {| l_slm := s; l_state := LReal (s_Ny s) (s_Nx s) phi |}.
(** Squared errors of the amplitudes of a simulated image (in units of [eta_scale]), weighted. *)
Definition displayed_error (s : slm) (W T : nat -> nat -> R) (E : nat -> nat -> C) : R :=
  rsum2 (s_Ny s) (s_Nx s) (fun u v => W u v * (Cmod (E u v) / eta_scale s - T u v) ^ 2).
(** The unpadded simulation of the device with phases phi and this beam gives the error e. *)
Definition simulated_error (h : heap) (s : slm) (input : parg) (W T phi : nat -> nat -> R) (e : R) : Prop :=
  forall m, pad_x m = 0%Z -> pad_y m = 0%Z -> exists m' E, propagate_to_image h (DevLcos (assigned s phi)) m input = (m', Ok tt) /\
    field_is (f_image m') (s_Ny s) (s_Nx s) E /\ displayed_error s W T E = e.
