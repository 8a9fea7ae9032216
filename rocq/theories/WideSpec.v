(** Vocabulary for Gaussian beams sampled in floating point (C137). *)
From Coq Require Import Reals.
Open Scope R_scope.

(** Relative error [v] of the library's exponential of numbers that are not positive, with underflow below [o]. *)
Definition accurate_exp (f_exp : R -> R) (v o : R) : Prop := forall t, t <= 0 -> Rabs (f_exp t - exp t) <= v * exp t + o.
(** How many waists a point and the centre of the beam are away from the axis, plus one, squared and added over the two directions. *)
Definition reach (x0 y0 w x y : R) : R := (1 + (Rabs x + Rabs x0) / w) ^ 2 + (1 + (Rabs y + Rabs y0) / w) ^ 2.
(** A centred beam of waist [w] is darker by at most this factor at the corner of a DLP9500, whose diagonal is 2 sqrt (142 mm^2). *)
Definition corner_contrast (w : R) : R := exp (142 / 1000000 / w ^ 2).
