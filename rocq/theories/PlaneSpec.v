(** Integrals over the whole plane, used to state overlaps and powers of beam modes. *)
From Coq Require Import Reals.
From Coquelicot Require Import Coquelicot.
Open Scope R_scope.

(** [v] is the integral of F over the plane, iterated in polar coordinates about (x0, y0). *)
Definition plane_polar (F : R -> R -> R) (x0 y0 v : R) : Prop :=
  exists G, (forall r, 0 <= r -> is_RInt (fun phi => F (x0 + r * cos phi) (y0 + r * sin phi) * r) (- PI) PI (G r)) /\
    is_RInt_gen G (at_point 0) (Rbar_locally p_infty) v.
(** [v] is the integral of F over the plane, iterated in Cartesian coordinates. *)
Definition plane_xy (F : R -> R -> R) (v : R) : Prop :=
  exists G, (forall y, is_RInt_gen (fun x => F x y) (Rbar_locally m_infty) (Rbar_locally p_infty) (G y)) /\
    is_RInt_gen G (Rbar_locally m_infty) (Rbar_locally p_infty) v.
