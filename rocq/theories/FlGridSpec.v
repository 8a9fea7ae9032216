(** Vocabulary for image-plane coordinates computed in floating point (C138, C139). *)
From Coq Require Import Reals.
Open Scope R_scope.

(** Nothing underflows while the coordinates of n points of pitch ps are computed: [u], [eta] for BACKEND.dtype, [u'], [eta'] for Python's floats. *)
Definition no_underflow (u eta u' eta' : R) (n : nat) (ps sf : R) : Prop :=
  eta' <= u' ^ 2 * ps /\ eta' <= u' ^ 2 * sf /\ eta' <= u' ^ 2 * (1 / (INR n * ps) / 4) /\
  eta <= u ^ 2 * (sf / 4) /\ eta <= u ^ 2 * (1 / (INR n * ps) / 4) /\ eta <= u ^ 2 * (sf / (INR n * ps) / 4).
(** The wanted coordinate of a column (of a row: with the opposite sign) of the image plane. *)
Definition image_coordinate (n : nat) (ps sf : R) (j : nat) : R := (INR j - INR (n / 2)) * sf / (INR n * ps).
(** How close to the edge of a window rounding may matter, in one direction and for a circle. *)
Definition edge (u eta x x0 w : R) : R := 10 * u * (Rabs x + Rabs x0 + Rabs w) + 4 * eta.
Definition rim (u eta x y x0 y0 r : R) : R := 10 * u * (Rabs x + Rabs x0 + Rabs y + Rabs y0 + Rabs r) + 6 * eta.
