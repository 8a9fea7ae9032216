(** Textbook special functions used to state properties of the beam modes. *)
From Coq Require Import Reals ZArith Arith List Bool Lia.
From Coquelicot Require Import Complex Coquelicot.
From Verif Require Import Cx Sums PyBase ProfileModel ProfSpec.
Open Scope R_scope.

(** Hermite polynomials by the Rodrigues formula. *)
Definition hermite (n : nat) (x : R) : R := (-1) ^ n * exp (x ^ 2) * Derive_n (fun t => exp (- t ^ 2)) n x.
(** Generalised Laguerre polynomials by the three-term recurrence: (L_n, L_{n+1}). *)
Fixpoint laguerre_pair (al : R) (n : nat) (x : R) : R * R :=
  match n with
  | O => (1, 1 + al - x)
  | S k => let (a, b) := laguerre_pair al k x in (b, ((2 * INR k + 3 + al - x) * b - (INR k + 1 + al) * a) / (INR k + 2))
  end.
Definition laguerre (n : nat) (al x : R) : R := fst (laguerre_pair al n x).
(** The mode functions. *)
Definition hg_mode (x0 y0 a w : R) (n m : nat) (x y : R) : R :=
  a * hermite n (sqrt 2 * (x - x0) / w) * hermite m (sqrt 2 * (y - y0) / w) * exp (- ((x - x0) ^ 2 + (y - y0) ^ 2) / w ^ 2).
(** Laguerre-Gauss mode in polar coordinates about its centre. *)
Definition lg_mode (a w : R) (l : Z) (p : nat) (r phi : R) : C :=
  (RtoC (a * (sqrt 2 * r / w) ^ Z.abs_nat l * laguerre p (INR (Z.abs_nat l)) (2 * r ^ 2 / w ^ 2) * exp (- r ^ 2 / w ^ 2)) * cis (- IZR l * phi))%C.
(** Super-Gaussian at distance d from its centre, p > 0. *)
Definition sg_mode (a w p d : R) : R := if Req_EM_T d 0 then a else a * exp (- Rpower (d ^ 2 / w ^ 2) p).
Definition dist2 (x0 y0 x y : R) : R := sqrt ((x - x0) ^ 2 + (y - y0) ^ 2).
(** The profile p of h is the indicator function of the region A. *)
Definition indicates (h : heap) (p : prof) (A : R -> R -> Prop) : Prop :=
  forall x y, exists z, gives h p x y z false /\ (A x y -> z = RtoC 1) /\ (~ A x y -> z = RtoC 0).
