(** Bounds for the rounding errors of super-Gaussian profiles. *)
From Coq Require Import Reals.
Open Scope R_scope.

(** Powers of numbers that are not negative, with a positive exponent. *)
Definition power (s p : R) : R := if Rlt_dec 0 s then Rpower s p else 0.
(** A power function of relative error v and absolute error o (underflow). *)
Definition accurate_pow (f : R -> R -> R) (v o : R) : Prop := forall s p, 0 <= s -> 1 <= p -> 0 <= f s p /\ Rabs (f s p - power s p) <= v * power s p + o.
(** First-order error at distances up to X and Y beam widths; e and v are the errors of tf.exp and tf.pow, o that of underflow. *)
Definition super_error (u e v o p X Y : R) : R := 4 * u + (56 * u * p + 2 * v) * Rpower (X ^ 2 + Y ^ 2) p + o + e.
(** The same for exponents up to 1. *)
Definition accurate_root (f : R -> R -> R) (v o : R) : Prop := forall s p, 0 <= s -> 0 < p <= 1 -> 0 <= f s p /\ Rabs (f s p - power s p) <= v * power s p + o.
(** First-order error for powers p up to 1 where the exponent is t. *)
Definition root_error (u e v o p t : R) : R := 4 * u + (8 * u + 2 * v) * t + 2 * power (8 * o) p + o + e.
(** First-order error for powers p of at least 1 where the exponent is t. *)
Definition steep_error (u e v o p t : R) : R := 4 * u + (32 * u * p + 2 * v) * t + 4 * (o / u) + o + e.
