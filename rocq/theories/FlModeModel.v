(** The fundamental Gaussian mode with rounding. *)
From Coq Require Import Reals ZArith.
From Coquelicot Require Import Complex.
From Verif Require Import Cx FloatModel.
Open Scope R_scope.

(** profile.py:215-232 HermiteGaussian._func for n = m = 0, where both polyvals give 1 exactly. The parameters are rounded when the
    variables are created, x ** 2 is taken to be the rounded product, [f_exp] is tf.exp. *)
Definition fl_gaussian (a : fpu) (f_exp : R -> R) (x0 y0 A w x y : R) : R :=
  let xn := rnd a (rnd a (x - rnd a x0) / rnd a w) in
  let yn := rnd a (rnd a (y - rnd a y0) / rnd a w) in
  rnd a (rnd a (rnd a (rnd a A * 1) * 1) * f_exp (- rnd a (rnd a (xn ^ 2) + rnd a (yn ^ 2)))).
(** The beam as sampled on the rounded grid (slm.py:105-107, 132-168). *)
Definition fl_gaussian_beam (a : fpu) (f_exp : R -> R) (Ny Nx : nat) (ps x0 y0 A w : R) (i j : nat) : R :=
  let (x, y) := fl_grid a Ny Nx ps i j in fl_gaussian a f_exp x0 y0 A w x y.
