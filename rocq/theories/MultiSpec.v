(** Vocabulary for targets made of several beams (C129). *)
From Coq Require Import Reals ZArith Arith.
From Coquelicot Require Import Complex.
From Verif Require Import Cx Sums PyBase ProfileModel SlmModel LibModel DmdModel SimModel SimSpec DmdSpec.
Open Scope R_scope.

(** n beams T k with complex weights a k. *)
Definition superposed (n : nat) (a : nat -> C) (T : nat -> nat -> nat -> C) (u v : nat) : C := csum n (fun k => a k * T k u v)%C.
(** calculate_dmd_state succeeds with efficiency eta, whichever of the three direct methods is used. *)
Definition reports (h : heap) (d : dmd) (input target : parg) (w : option parg) (kw : kwargs) (u : nat -> nat -> R) (eta : R) : Prop :=
  forall m, m = MIdeal \/ m = MSimple \/ m = MRandom -> snd (calculate_dmd_state h d input target m w kw u) = Ok (Fin eta).
(** The target can be displayed with this input: its spectrum does not vanish altogether, but vanishes where the input is dark. *)
Definition displayable (d : dmd) (F T W : nat -> nat -> C) : Prop :=
  (forall i j, in_array d i j -> F i j = RtoC 0 -> windowed d T W i j = RtoC 0) /\ (exists i j, in_array d i j /\ windowed d T W i j <> RtoC 0).
(** The unpadded simulation of the ideal hologram shows the field [first] plus light of the zeroth and of the conjugate order. *)
Definition displays_first (h : heap) (d : dmd) (input target : parg) (w : option parg) (kw : kwargs) (u : nat -> nat -> R) (F S first : nat -> nat -> C) (m : sim) : Prop :=
  exists d' m' eta, calculate_dmd_state h d input target MIdeal w kw u = (d', Ok (Fin eta)) /\ propagate_to_image h (DevDmd d') m input = (m', Ok tt) /\
    field_is (f_image m') (s_Ny (d_slm d)) (s_Nx (d_slm d)) (fun p q =>
      (first p q + RtoC (eta / 2) * image_of (s_Ny (d_slm d)) (s_Nx (d_slm d)) (zeroth_order F S) p q + RtoC (eta / 4) * image_of (s_Ny (d_slm d)) (s_Nx (d_slm d)) (conjugate_order d F S) p q)%C).
