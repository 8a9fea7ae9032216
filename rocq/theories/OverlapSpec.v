(** Vocabulary for C116 and C117: power and overlap of sampled beams. *)
From Coq Require Import Reals ZArith Arith Bool.
From Verif Require Import Cx ModeSpec HermSpec RingSpec.
Open Scope R_scope.

(** H_n(sqrt 2 t) exp(-t^2) in absolute value. *)
Definition height (n : nat) (t : R) : R := Rabs (hermite n (sqrt 2 * t)) * exp (- t ^ 2).
(** Bound on the part of the integral of the product of two such functions that lies beyond t. *)
Fixpoint beyond (p q : nat) (t : R) : R :=
  match p, q with
  | O, O => sqrt 2 / sqrt PI * exp (- 2 * t ^ 2)
  | S p', O => height p' t * height 0 t / sqrt 2
  | O, S q' => height 0 t * height q' t / sqrt 2
  | S p', S q' => height (S p') t * height q' t / sqrt 2 + 2 * (INR p' + 1) * beyond p' q' t
  end.
(** Bound on the second derivative of the product. *)
Definition bend (p q : nat) : R := sup2 p * sup0 q + 2 * (sup1 p * sup1 q) + sup0 p * sup2 q.
(** Error made along one axis by sampling the product of two modes of waist w centred at c with pitch h on [-L, L). *)
Definition overlap_axis_error (p q : nat) (h L c w : R) : R :=
  let A := - (L + c) / w in let B := (L - c) / w in
  w * (2 * L / w * (h / w) ^ 2 / 12 * bend p q + h / w / 2 * (height p A * height q A + height p B * height q B) + (beyond p q A + beyond p q B)).
(** The integral along one axis of the product of the modes p and q of waist w. *)
Definition axis_overlap (p q : nat) (w : R) : R := if (p =? q)%nat then w * sqrt (PI / 2) * 2 ^ p * INR (fact p) else 0.
(** Error of the sum over the panel of the product of the modes (n, m) and (n', m'). *)
Definition overlap_error (n m n' m' : nat) (h Lx Ly x0 y0 w : R) : R :=
  product_error (axis_overlap m m' w) (axis_overlap n n' w) (overlap_axis_error m m' h Ly y0 w) (overlap_axis_error n n' h Lx x0 w).
(** The integral over the plane of the product of the modes (n, m) and (n', m'). *)
Definition mode_overlap (n m n' m' : nat) (w : R) : R :=
  if ((n =? n') && (m =? m'))%bool then PI * w ^ 2 / 2 * 2 ^ (n + m) * INR (fact n * fact m) else 0.
(** The overlap error of a panel with nx by ny pixels of pitch h. *)
Definition panel_error (h : R) (ny nx : nat) (x0 y0 w : R) (n m n' m' : nat) : R := overlap_error n m n' m' h (INR nx / 2 * h) (INR ny / 2 * h) x0 y0 w.
(** Norm of the expansion of a Laguerre-Gauss mode, and the integral over the plane of the squared modulus of the mode of amplitude a. *)
Definition ring_scale (p q : nat) : R := 4 ^ p * INR (fact p) * 2 ^ q.
Definition lg_power (a w : R) (l : Z) (p : nat) : R := PI * a ^ 2 * w ^ 2 / 2 * (INR (fact (p + Z.abs_nat l)) / INR (fact p)).
Definition lg_error (E : nat -> nat -> nat -> nat -> R) (a : R) (l : Z) (p : nat) (a' : R) (l' : Z) (p' : nat) : R :=
  let q := Z.abs_nat l in let q' := Z.abs_nat l' in
  Rabs a / ring_scale p q * (Rabs a' / ring_scale p' q') * rings_abs p q (fun n m => rings_abs p' q' (fun n' m' => E n m n' m')).
