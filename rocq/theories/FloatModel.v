(** Floating-point evaluation of the parts of the code whose answer could be spoiled by rounding. The other model files compute with exact reals;
    here every arithmetic operation is followed by a rounding. Overflow is not modelled. *)
From Coq Require Import Reals ZArith List Bool.
From Coquelicot Require Import Complex.
From Verif Require Import Cx PyBase ProfileModel SlmModel LibModel DmdModel.
Open Scope R_scope.

(** Rounding to BACKEND.dtype, rounding to Python's float, and the library functions as evaluated by TensorFlow. *)
Record fpu := { rnd : R -> R; dbl : R -> R; f_cos : R -> R; f_sin : R -> R; f_acos : R -> R; f_asin : R -> R; f_tanh : R -> R }.

(** slm.py:82-87 _convert_pixel_index_to_dmd_coordinate. *)
Definition fl_to_coordinate (a : fpu) (Ny Nx : nat) (ps i j : R) : R * R :=
  let i := rnd a (rnd a (INR Ny) - i) in
  let j := rnd a (j - rnd a (dbl a (INR Nx / 2))) in
  let i := rnd a (i - rnd a (dbl a (INR Ny / 2))) in
  (rnd a (j * rnd a ps), rnd a (i * rnd a ps)).
(** slm.py:98-107: the indices are tf.range of the backend's dtype. *)
Definition fl_grid (a : fpu) (Ny Nx : nat) (ps : R) (i j : nat) : R * R :=
  fl_to_coordinate a Ny Nx ps (rnd a (INR i)) (rnd a (INR j)).
(** simulation.py:111-118: the indices start at minus the padding. *)
Definition fl_padded_grid (a : fpu) (Ny Nx : nat) (ps : R) (py px : Z) (i j : nat) : R * R :=
  fl_to_coordinate a Ny Nx ps (rnd a (rnd a (IZR (- py)) + rnd a (INR i))) (rnd a (rnd a (IZR (- px)) + rnd a (INR j))).
(** slm.py:89-96 _convert_slm_coordinate_to_pixel_index. *)
Definition fl_to_index (a : fpu) (Ny Nx : nat) (ps x y : R) : R * R :=
  let x := rnd a (x / rnd a ps) in
  let y := rnd a (y / rnd a ps) in
  let i := rnd a (y + rnd a (dbl a (INR Ny / 2))) in
  let j := rnd a (x + rnd a (dbl a (INR Nx / 2))) in
  (rnd a (rnd a (INR Ny) - i), j).
(** slm.py:223-228 _circular_mask; x ** 2 is taken to be the rounded product, (d / 2) ** 2 is evaluated by Python. *)
Definition fl_circular_mask (a : fpu) (i j d : R) (ii jj : nat) : bool :=
  let rr := rnd a (rnd a (rnd a (rnd a (INR jj) - rnd a j) ^ 2) + rnd a (rnd a (rnd a (INR ii) - rnd a i) ^ 2)) in
  if Rlt_dec rr (rnd a (dbl a (dbl a (d / 2) ^ 2))) then true else false.

(** _lib.py:113 _grating_phase. *)
Definition fl_grating_phase (a : fpu) (x y theta p : R) : R :=
  rnd a (rnd a (rnd a (dbl a (2 * dbl a PI)) / p) * rnd a (rnd a (f_cos a theta * x) + rnd a (f_sin a theta * y))).
(** The argument of the cosine in _lib.py:145-150 and 195-200. *)
Definition fl_fringe (a : fpu) (neg : bool) (pin pout x y p theta : R) : R :=
  let g := fl_grating_phase a x y theta p in
  let pin := if neg then - pin else pin in
  let pout := if neg then - pout else pout in
  f_cos a (rnd a (g - rnd a (pout - pin))).
(** _lib.py:150 *)
Definition fl_ideal (a : fpu) (neg : bool) (amp pin pout x y p theta : R) : R :=
  rnd a (amp * rnd a (rnd a (fl_fringe a neg pin pout x y p theta / 2) + rnd a (1 / 2))).
(** _lib.py:161 *)
Definition fl_simple (a : fpu) (neg : bool) (amp pin pout x y p theta : R) : bool :=
  if Rlt_dec (rnd a (1 / 2)) (fl_ideal a neg amp pin pout x y p theta) then true else false.
(** _lib.py:200-207; [u] is the random threshold. *)
Definition fl_random (a : fpu) (neg : bool) (amp pin pout x y p theta r u : R) : bool :=
  let q := f_acos a (fl_fringe a neg pin pout x y p theta) in
  let w := f_asin a amp in
  let g := rnd a (rnd a (1 / 2) * rnd a (f_tanh a (rnd a (rnd a r * rnd a (q + w))) - f_tanh a (rnd a (rnd a r * rnd a (q - w))))) in
  if Rlt_dec u g then true else false.

(** slm.py:313-320 _calc_amp_phase: the ratio of amplitudes (0 where the wanted amplitude is 0), its maximum, the quotient. *)
Definition fl_ratio (a : fpu) (amp_out amp_in : R) : xr :=
  if Req_EM_T amp_out 0 then Fin 0 else match xdiv (Fin amp_out) (Fin amp_in) with Fin r => Fin (rnd a r) | x => x end.
Definition fl_amp_scaled (a : fpu) (ny nx : nat) (amp_out amp_in : nat -> nat -> R) (i j : nat) : xr :=
  match xdiv (fl_ratio a (amp_out i j) (amp_in i j)) (reduce_max (T2 ny nx (fun i j => fl_ratio a (amp_out i j) (amp_in i j)))) with
  | Fin r => Fin (rnd a r) | x => x end.

(** simulation.py:137: input_profile * state_tensor, a product of complex numbers. *)
Definition fl_cmul (a : fpu) (z w : C) : C :=
  (rnd a (rnd a (fst z * fst w) - rnd a (snd z * snd w)), rnd a (rnd a (fst z * snd w) + rnd a (snd z * fst w))).
(** slm.py:390-391: a bool or float state as complex numbers. *)
Definition bool_factor (b : bool) : C := if b then (1, 0) else (0, 0).
Definition grey_factor (g : R) : C := (g, 0).
(** simulation.py:149-150 _field_to_intensity. *)
Definition fl_intensity (a : fpu) (z : C) : R := rnd a (rnd a (fst z ^ 2) + rnd a (snd z ^ 2)).
(** np.sum adds the pixels in an order that depends on the version and the shape: any binary tree of additions. *)
Inductive summation := Pixel (i j : nat) | Added (l r : summation).
Fixpoint fl_sum (a : fpu) (f : nat -> nat -> R) (t : summation) : R :=
  match t with Pixel i j => f i j | Added l r => rnd a (fl_sum a f l + fl_sum a f r) end.
(** The product of np.sum's scalar with Python's float: NumPy 2 rounds the float to the scalar's precision first, NumPy 1 computes it as Python would. *)
Inductive promotion := Weak | Wide.
Definition fl_times (a : fpu) (w : promotion) (s area : R) : R := match w with Weak => rnd a (s * rnd a area) | Wide => dbl a (s * area) end.
(** simulation.py:195-225 get_input_power, get_output_power, get_image_plane_power. *)
Definition fl_power (a : fpu) (w : promotion) (area : R) (field : nat -> nat -> C) (t : summation) : R :=
  fl_times a w (fl_sum a (fun i j => fl_intensity a (field i j)) t) area.
