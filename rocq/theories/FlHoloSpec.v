(** What is assumed of the library when a DMD hologram is calculated (C134). *)
From Coq Require Import Reals.
From Coquelicot Require Import Complex.
From Verif Require Import Cx Sums DFT ProfileModel SlmModel FloatModel FloatSpec FlSimSpec FlHoloModel.
Open Scope R_scope.

(** A forward transform with relative error e and absolute error d in the Euclidean norm, on arrays of numbers of the backend's precision. *)
Definition accurate_forward (a : fpu) (e d : R) (ny nx : nat) (F : (nat -> nat -> C) -> nat -> nat -> C) : Prop :=
  forall f, (forall i j, (i < ny)%nat -> (j < nx)%nat -> representable (rnd a) (f i j)) ->
    norm ny nx (fun i j => F f i j - fft2 ny nx f i j)%C <= e * norm ny nx (fft2 ny nx f) + d.
(** The modulus has relative error v and absolute error o; the angle points in the right direction within v, whichever
    representative modulo a full turn the library returns. *)
Record accurate_polar (q : polar) (v o : R) : Prop := {
  pol_nonneg : forall z, 0 <= f_abs q z;
  pol_abs : forall z, Rabs (f_abs q z - Cmod z) <= v * Cmod z + o;
  pol_dir : forall z, z <> RtoC 0 -> Cmod (cis (f_angle q z) - z / RtoC (Cmod z))%C <= v;
  pol_size : forall z, z <> RtoC 0 -> Rabs (f_angle q z) <= 4 }.
(** How much the darkest mirror amplifies the errors of the transform: beam E at least [b] everywhere, spectrum S, of which the window leaves S'. *)
Definition contrast (ny nx : nat) (E S S' : nat -> nat -> C) (b : R) : R := norm ny nx E / b * (norm ny nx S / norm ny nx S').
(** Underflow is negligible beside the beam, the spectrum and the efficiency. *)
Definition holo_no_underflow (v b eta o d : R) (ny nx : nat) (E S' : nat -> nat -> C) : Prop :=
  let m := norm ny nx S' / norm ny nx E in o <= v * b /\ o <= v * (b * m) /\ d <= v * (b * m) /\ 8 * eta <= v * (b * m) /\ eta <= v * m.
Definition eta_no_underflow (v eta' ps sf N b : R) (ny nx : nat) (S' : nat -> nat -> C) : Prop :=
  eta' <= v * ps ^ 2 /\ eta' <= v * (ps ^ 2 / sf) /\ eta' <= v * (ps ^ 2 / sf * N * b / norm ny nx S').
(** The window as an array, if there is one. *)
Definition window_of (w : option parg) (W : nat -> nat -> C) : option (nat -> nat -> C) := match w with None => None | Some _ => Some W end.
(** A library whose modulus and angle are correctly rounded. *)
Definition rounded_polar (f : R -> R) : polar := {| f_abs := fun z => f (Cmod z); f_angle := fun z => f (carg z) |}.
(** A library that does not round. *)
Definition exact_polar : polar := {| f_abs := Cmod; f_angle := carg |}.
