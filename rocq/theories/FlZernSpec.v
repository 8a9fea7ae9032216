(** Bounds for the rounding errors of Zernike modes. *)
From Coq Require Import Reals ZArith List.
From Verif Require Import ZernSpec AnaSpec ProfileModel FloatSpec FlSimSpec FlAnaModel FlZernModel.
Import ListNotations.
Open Scope R_scope.

(** The library: the angle is known up to ea, cosine and sine up to ec. *)
Record accurate_zlib (l : zlib) (ea ec : R) : Prop := {
  zl_angle : forall x y, exists phi, Rabs phi <= PI /\ x = sqrt (x ^ 2 + y ^ 2) * cos phi /\ y = sqrt (x ^ 2 + y ^ 2) * sin phi /\ Rabs (z_atan2 l y x - phi) <= ea;
  zl_cos : forall t, Rabs (z_cos l t - cos t) <= ec;
  zl_sin : forall t, Rabs (z_sin l t - sin t) <= ec }.
(** Error after rounding a number that is at most M and known up to e. *)
Definition rounded (u eta M e : R) : R := e + u * (M + e) + eta.
(** Sum of the absolute values of the coefficients. *)
Definition weight (coef : list R) : R := fold_right (fun c s => Rabs c + s) 0 coef.
(** Error of the radial polynomial of degree n with coefficients of weight L. *)
Definition radial_error (u eta : R) (n : nat) (L : R) : R := ((1 + 4 * u) ^ (1 + 5 * n) - 1) * L + 3 * INR n * (1 + 4 * u) ^ (5 * n) * eta.
(** Error of the angular factor. *)
Definition angular_error (u eta ea ec : R) (m : Z) : R := ec + rounded u eta (IZR (Z.abs m) * PI) (IZR (Z.abs m) * ea).
(** Error of a mode whose normalization is s. *)
Definition mode_error (u eta ea ec : R) (n : nat) (m : Z) (L s : R) : R :=
  let er := rounded u eta 1 (radial_error u eta n L) in
  let eq := angular_error u eta ea ec m in
  let ez := rounded u eta 1 (er * (1 + eq) + eq) in
  rounded u eta s (4 * u * s * (1 + ez) + s * ez).
(** The stored coefficients and the stored normalization. *)
Definition stored_coefficients (u : R) (n m : Z) (coef : list R) : Prop := Forall2 (near (4 * u) 0) (zern_coef n m) coef.
Definition stored_norm (u : R) (l : zlib) (n m : Z) (nrm : R) : Prop := Rabs (z_rnd l nrm - znorm n m true) <= 4 * u * znorm n m true.
(** Pixels that are not moved onto the rim of the disc from outside. *)
Definition off_rim (l : zlib) (ny nx : nat) (radius : R) (i j : nat) : Prop := dist_sq ny nx i j <= radius ^ 2 \/ fl_rho l radius (px nx j) (py ny i) <> 1.
