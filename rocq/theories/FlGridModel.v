(** Image-plane coordinates and windows evaluated in floating point. *)
From Coq Require Import Reals ZArith List.
From Verif Require Import Cx PyBase ProfileModel SlmModel LibModel DmdModel SimModel FloatModel.
Open Scope R_scope.

(** slm.py:52: a product of two Python floats. *)
Definition fl_scaling_factor (a : fpu) (s : slm) : R := dbl a (wavelength s * focal_length s).
(** numpy.fft.fftfreq(n, d): val = 1.0 / (n * d), then integers times val, all in double precision. *)
Definition fl_fftfreq (a : fpu) (n : nat) (d : R) : list R :=
  let N := ((Z.of_nat n - 1) / 2 + 1)%Z in
  let v := dbl a (1 / dbl a (dbl a (INR n) * d)) in
  map (fun k => dbl a (dbl a (IZR k) * v)) (arange 0 N ++ arange (- (Z.of_nat n / 2)) 0).
(** slm.py:115-123; simulation.py:94-104 is the same with the padded sizes. tf.constant(..., dtype=BACKEND.dtype) rounds; a Python float times a
    tensor is first converted to the dtype of the tensor. *)
Definition fl_image_grid_of (a : fpu) (nx ny : nat) (ps sf : R) : tensor R * tensor R :=
  let kx := fftshift1 (map (rnd a) (fl_fftfreq a nx ps)) in
  let ky := fftshift1 (map (rnd a) (map Ropp (fl_fftfreq a ny ps))) in
  mesh_xy (map (fun k => rnd a (k * rnd a sf)) kx) (map (fun k => rnd a (k * rnd a sf)) ky).
Definition fl_image_plane_grid (a : fpu) (s : slm) : tensor R * tensor R :=
  fl_image_grid_of a (s_Nx s) (s_Ny s) (pixel_size s) (fl_scaling_factor a s).
(** simulation.py:94-104 (padded sizes not positive: outside the model, as in SimModel). *)
Definition fl_image_plane_padded_grid (a : fpu) (s : slm) (m : sim) : tensor R * tensor R :=
  fl_image_grid_of a (Z.to_nat (sim_Nx s m)) (Z.to_nat (sim_Ny s m)) (pixel_size s) (fl_scaling_factor a s).
(** window.py:9-18: the attributes are tf.Variables of BACKEND.dtype; the product of the two casts is exact. *)
Definition fl_rect_value (a : fpu) (x0 y0 wx wy x y : R) : R :=
  rnd a (ind (Rltb (Rabs (rnd a (x - rnd a x0))) (rnd a (rnd a wx / 2))) * ind (Rltb (Rabs (rnd a (y - rnd a y0))) (rnd a (rnd a wy / 2)))).
(** window.py:53-60; x ** 2 is taken to be the rounded product. *)
Definition fl_circ_value (a : fpu) (x0 y0 r x y : R) : R :=
  ind (Rleb (rnd a (rnd a (rnd a (x - rnd a x0) ^ 2) + rnd a (rnd a (y - rnd a y0) ^ 2))) (rnd a (rnd a r ^ 2))).
