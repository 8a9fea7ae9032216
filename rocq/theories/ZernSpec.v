(** Textbook Zernike polynomials. *)
From Coq Require Import Reals ZArith Arith List Bool Lia.
From Coquelicot Require Import Complex Coquelicot.
From Verif Require Import Cx Sums PyBase ProfileModel ProfSpec.
Open Scope R_scope.

(** Valid index pairs. *)
Definition zvalid (n m : Z) : Prop := (Z.abs m <= n)%Z /\ Z.even (n - m) = true.
(** Radial polynomial R_n^mu (Born & Wolf), mu <= n, n - mu even:
    sum over k of (-1)^k (n-k)! / (k! ((n+mu)/2-k)! ((n-mu)/2-k)!) rho^(n-2k). *)
Definition radial (n mu : nat) (rho : R) : R :=
  rsum (S ((n - mu) / 2)) (fun k => (-1) ^ k * INR (fact (n - k)) /
    (INR (fact k) * INR (fact ((n + mu) / 2 - k)) * INR (fact ((n - mu) / 2 - k))) * rho ^ (n - 2 * k)).
Definition angular (m : Z) (phi : R) : R := if (0 <=? m)%Z then cos (IZR m * phi) else sin (IZR (Z.abs m) * phi).
Definition znorm (n m : Z) (normalize : bool) : R :=
  if normalize then (if (m =? 0)%Z then sqrt (IZR n + 1) else sqrt (2 * IZR n + 2)) else 1.
(** The mode of amplitude a at polar coordinates (r, phi). *)
Definition zmode (a radius : R) (n m : Z) (normalize : bool) (r phi : R) : R :=
  a * znorm n m normalize * radial (Z.to_nat n) (Z.abs_nat m) (r / radius) * angular m phi.
(** [v] is the integral of F over the disc of the given radius, as an iterated integral in polar coordinates. *)
Definition disc_integral (F : R -> R -> R) (radius v : R) : Prop :=
  exists G, (forall r, 0 <= r <= radius -> is_RInt (fun phi => F (r * cos phi) (r * sin phi) * r) (- PI) PI (G r)) /\ is_RInt G 0 radius v.
