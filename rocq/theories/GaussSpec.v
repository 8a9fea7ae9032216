(** Vocabulary for C91 and C92: the image and the power of a sampled Gaussian beam. *)
From Coq Require Import Reals.
Open Scope R_scope.

(** Bound on the error made along one axis by sampling a Gaussian of waist w centred at c with pitch h on [-L, L) while it oscillates at the spatial (angular)
    frequency kappa: the first term comes from the finite pitch, the second one from the part of the beam that misses the array. *)
Definition axis_error (h L c w kappa : R) : R :=
  h * (2 + Rabs (w * kappa) * sqrt PI) + w * ((exp (- ((L + c) / w) ^ 2) + exp (- ((L - c) / w) ^ 2)) * (2 / sqrt PI + Rabs (w * kappa) / 2)).
(** Error of a product of two one-dimensional integrals of size at most sqrt PI * w. *)
Definition plane_error (w e1 e2 : R) : R := (sqrt PI * w + e1) * (sqrt PI * w + e2) - PI * w ^ 2.
(** The same without oscillation, to second order in the pitch, for a centre strictly inside the array. *)
Definition span_error (h L c w : R) : R :=
  let gA := exp (- ((L + c) / w) ^ 2) in let gB := exp (- ((L - c) / w) ^ 2) in
  L * h ^ 2 / (3 * w ^ 2) + h * Rabs (gB - gA) / 2 + w ^ 2 * (gA / (2 * (L + c)) + gB / (2 * (L - c))).
