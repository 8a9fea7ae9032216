(** Zernike modes (profile.py:376-430) with rounding, on the grids of analysis.py. *)
From Coq Require Import Reals ZArith List Bool.
From Verif Require Import Cx ProfileModel FloatModel FlAnaModel.
Import ListNotations.
Open Scope R_scope.

(** Rounding to BACKEND.dtype and TensorFlow's functions; tf.sqrt is the rounded square root. *)
Record zlib := { z_rnd : R -> R; z_atan2 : R -> R -> R; z_cos : R -> R; z_sin : R -> R }.
(** tf.math.polyval (Horner, highest coefficient first). *)
Definition fl_polyval (l : zlib) (coeffs : list R) (x : R) : R :=
  match coeffs with [] => 0 | c :: cs => fold_left (fun p c => z_rnd l (c + z_rnd l (p * x))) cs c end.
(** profile.py:410-411; x ** 2 is taken to be the rounded product, the radius was rounded when the constant was created. *)
Definition fl_rho (l : zlib) (radius x y : R) : R :=
  z_rnd l (z_rnd l (sqrt (z_rnd l (z_rnd l (x ^ 2) + z_rnd l (y ^ 2)))) / z_rnd l radius).
(** profile.py:409-430. [nrm] is the normalization, a float of Python; [coef] are the coefficients as stored. *)
Definition fl_zern_value (l : zlib) (a radius : R) (n m : Z) (nrm : option R) (extrap : bool) (coef : list R) (x y : R) : R :=
  let rho := fl_rho l radius x y in
  let zu :=
    if (n =? 0)%Z && (m =? 0)%Z then z_rnd l (z_rnd l a * 1)
    else
      let phi := z_atan2 l y x in
      let Rr := fl_polyval l coef rho in
      if (m =? 0)%Z then z_rnd l (z_rnd l a * Rr)
      else if (0 <? m)%Z then z_rnd l (z_rnd l (z_rnd l a * Rr) * z_cos l (z_rnd l (z_rnd l (IZR m) * phi)))
      else z_rnd l (z_rnd l (z_rnd l a * Rr) * z_sin l (z_rnd l (- z_rnd l (IZR m) * phi))) in
  let z := match nrm with Some c => z_rnd l (z_rnd l c * zu) | None => zu end in
  if extrap then z else if Rlt_dec 1 rho then 0 else z.
(** analysis.py:28, 37 and 80, 90: Zernike(1, radius, n, m, extrapolate=...)(xx, yy); profile.py:14-17 rounds the coordinates. *)
Definition fl_mode (q : numerics) (l : zlib) (ny nx : nat) (radius : R) (n m : Z) (nrm : R) (extrap : bool) (coef : list R) (i j : nat) : R :=
  fl_zern_value l 1 radius n m (Some nrm) extrap coef (z_rnd l (fl_ana_x q nx j)) (z_rnd l (fl_ana_y q ny i)).
(** profile.py:397: math.sqrt rounds to float64. *)
Definition fl_norm (q : numerics) (n m : Z) : R := flt q (sqrt (if (m =? 0)%Z then IZR (n + 1) else IZR (2 * n + 2))).
(** analysis.py:36-42 with these modes, [coef] being the stored coefficients of each mode. *)
Definition fl_removal (q : numerics) (l : zlib) (ny nx : nat) (radius : R) (t : summation) (coef : Z -> Z -> list R) (f : nat -> nat -> R) (d : bool) : nat -> nat -> R :=
  fl_remove_trivial_phase q t (fun n m => fl_mode q l ny nx radius n m (fl_norm q n m) false (coef n m)) f d.
(** analysis.py:87-97 with these modes and extrapolate=False. *)
Definition fl_zern_decomposition (q : numerics) (l : zlib) (ny nx : nat) (radius : R) (t : summation) (coef : Z -> Z -> list R) (f : nat -> nat -> R) (num_terms : Z) :=
  fl_zernike_decomposition q t (fun n m => fl_mode q l ny nx radius n m (fl_norm q n m) false (coef n m)) f num_terms.
