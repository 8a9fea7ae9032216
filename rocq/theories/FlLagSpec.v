(** Bounds for the rounding errors of Laguerre-Gauss modes. *)
From Coq Require Import Reals ZArith List.
From Verif Require Import ProfileModel FloatSpec FlSimSpec FlZernSpec.
Open Scope R_scope.

(** Integer powers of relative error v and absolute error o (underflow). *)
Definition accurate_ipow (f : R -> nat -> R) (v o : R) : Prop := forall s k, Rabs (f s k - s ^ k) <= v * Rabs s ^ k + o.
(** Coefficients as stored. *)
Definition stored_laguerre (u : R) (p al : nat) (h : list R) : Prop := Forall2 (near (4 * u) 0) (laguerre_coef p al) h.
(** First-order relative error of the amplitude of a mode with azimuthal order k and radial order p up to Q beam widths from the centre; kp is the error of
    tf.pow in units of 4 u, e that of tf.exp. *)
Definition lag_error (u e : R) (kp k p : nat) (Q : R) : R := 4 * u * (INR (5 * k + kp + 7 * p + 5) + 5 * Q ^ 2) + e.
(** Error of the amplitude: M is the size of the polynomial factors, N that of the Laguerre polynomial, E the Gaussian factor. *)
Definition amplitude_error (z eta M N E : R) : R := 2 * z * (M * E) + (2 * (M + N) + 1) * eta.
(** Error of the components; eq is the error of the cosine and of the sine. *)
Definition component_error (u eta ME ea eq : R) : R := rounded u eta ME (ea * (1 + eq) + ME * eq).
