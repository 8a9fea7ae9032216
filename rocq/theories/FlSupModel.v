(** Super-Gaussian profiles with rounding. *)
From Coq Require Import Reals ZArith List.
From Verif Require Import Cx ProfileModel FlAnaModel FlZernModel.
Open Scope R_scope.

(** profile.py:323-337 SuperGaussian. The parameters are rounded when the variables are created (324-328); [f_exp] is tf.exp and [f_pow] is tf.pow;
    x_norm ** 2 is taken to be the rounded product. *)
Definition fl_super (l : zlib) (f_exp : R -> R) (f_pow : R -> R -> R) (x0 y0 A w p x y : R) : R :=
  let xn := z_rnd l (z_rnd l (x - z_rnd l x0) / z_rnd l w) in
  let yn := z_rnd l (z_rnd l (y - z_rnd l y0) / z_rnd l w) in
  z_rnd l (z_rnd l A * f_exp (- f_pow (z_rnd l (z_rnd l (xn ^ 2) + z_rnd l (yn ^ 2))) (z_rnd l p))).
