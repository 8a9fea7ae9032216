(** Laguerre-Gauss modes with rounding. *)
From Coq Require Import Reals ZArith List.
From Coquelicot Require Import Complex.
From Verif Require Import Cx ProfileModel FlAnaModel FlZernModel.
Open Scope R_scope.

(** profile.py:287-299 LaguerreGaussian._func. The parameters are rounded when the variables are created (277-280), [h] are the stored coefficients (284),
    [s2] is math.sqrt(2) after the conversion to the backend's precision, [f_exp] is tf.exp, [f_pow] is tf.pow with an integer; x ** 2 is taken to be the
    rounded product. The complex exponential of i t is (z_cos t, z_sin t), and products of complex numbers one of which is real, or imaginary, have
    rounded products as components, the others being 0. *)
Definition fl_laguerre (l : zlib) (f_exp : R -> R) (f_pow : R -> nat -> R) (s2 : R) (h : list R) (x0 y0 A w : R) (q : Z) (x y : R) : C :=
  let dx := z_rnd l (x - z_rnd l x0) in
  let dy := z_rnd l (y - z_rnd l y0) in
  let r2 := z_rnd l (z_rnd l (dx ^ 2) + z_rnd l (dy ^ 2)) in
  let w2 := z_rnd l (z_rnd l w ^ 2) in
  let r := z_rnd l (sqrt r2) in
  let phi := z_atan2 l dy dx in
  let Lpl := fl_polyval l h (z_rnd l (z_rnd l (2 * r2) / w2)) in
  let power := f_pow (z_rnd l (z_rnd l (s2 * r) / z_rnd l w)) (Z.abs_nat q) in
  let amplitude := z_rnd l (z_rnd l (z_rnd l (z_rnd l A * power) * f_exp (z_rnd l (- r2 / w2))) * Lpl) in
  let t := z_rnd l (- z_rnd l (IZR q) * phi) in
  (z_rnd l (amplitude * z_cos l t), z_rnd l (amplitude * z_sin l t)).
