(** How accurate the library's cosine and sine are (C123). *)
From Coq Require Import Reals.
From Verif Require Import FloatModel.
Open Scope R_scope.

Record accurate (a : fpu) (v : R) : Prop := {
  acc_cos : forall x, Rabs (f_cos a x - cos x) <= v;
  acc_sin : forall x, Rabs (f_sin a x - sin x) <= v }.
(** Phase of the carrier per unit length, and the largest carrier phase that a mirror at (x, y) can have, two pixels of pitch [ps] added. *)
Definition wave_number (p : R) : R := 2 * PI / p.
Definition phase_size (p ps x y : R) : R := wave_number p * (Rabs x + Rabs y + 2 * ps).
(** Underflow is negligible beside the pixel pitch, the period and the phase per pixel. *)
Definition no_underflow (eta v ps p : R) : Prop := eta <= v * ps /\ eta <= v * p /\ eta <= v * wave_number p /\ eta <= v * (wave_number p * ps).
