(** Hermite-Gauss modes of any order with rounding. *)
From Coq Require Import Reals ZArith List.
From Verif Require Import Cx ProfileModel FlAnaModel FlZernModel.
Open Scope R_scope.

(** profile.py:226-232 HermiteGaussian._func. The parameters are rounded when the variables are created (216-219), [hn] and [hm] are the stored
    coefficients (222-223), [s2] is math.sqrt(2) after the conversion to the backend's precision, [f_exp] is tf.exp; x ** 2 is taken to be the rounded product. *)
Definition fl_hermite (l : zlib) (f_exp : R -> R) (s2 : R) (hn hm : list R) (x0 y0 A w x y : R) : R :=
  let xn := z_rnd l (z_rnd l (x - z_rnd l x0) / z_rnd l w) in
  let yn := z_rnd l (z_rnd l (y - z_rnd l y0) / z_rnd l w) in
  let h_n := fl_polyval l hn (z_rnd l (s2 * xn)) in
  let h_m := fl_polyval l hm (z_rnd l (s2 * yn)) in
  z_rnd l (z_rnd l (z_rnd l (z_rnd l A * h_n) * h_m) * f_exp (- z_rnd l (z_rnd l (xn ^ 2) + z_rnd l (yn ^ 2)))).
