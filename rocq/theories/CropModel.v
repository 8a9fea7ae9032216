(** Padded grids of a simulation for any integer padding, also one that takes pixels away: simulation.py:94-123. *)
From Coq Require Import Reals ZArith List.
From Verif Require Import Cx PyBase ProfileModel SlmModel LibModel DmdModel SimModel.
Open Scope R_scope.

(** numpy.fft.fftfreq(n, d) for an integer n: 1.0 / (n * d) of Python floats comes first, then np.empty(n). *)
Definition fftfreq_any (n : Z) (d : R) : res (list R) :=
  if Req_EM_T (IZR n * d) 0 then Err ZeroDivisionError
  else if (n <? 0)%Z then Err ValueError else Ok (fftfreq (Z.to_nat n) d).
(** tf.range(a, b) with step 1 refuses a start above the limit. *)
Definition range_any (a b : Z) : res (list R) := if (b <? a)%Z then Err ETensorFlow else Ok (map IZR (arange a b)).
(** simulation.py:94-104, 106-109. *)
Definition image_grid_any (s : slm) (m : sim) : res (tensor R * tensor R) :=
  let! kx := fftfreq_any (sim_Nx s m) (pixel_size s) in
  let! ky := fftfreq_any (sim_Ny s m) (pixel_size s) in
  Ok (mesh_xy (map (fun k => k * scaling_factor s) (fftshift1 kx)) (map (fun k => k * scaling_factor s) (fftshift1 (map Ropp ky)))).
(** simulation.py:111-123. *)
Definition fourier_grid_any (s : slm) (m : sim) : res (tensor R * tensor R) :=
  let! jj := range_any (- pad_x m) (Z.of_nat (s_Nx s) + pad_x m) in
  let! ii := range_any (- pad_y m) (Z.of_nat (s_Ny s) + pad_y m) in
  Ok (grid_map (pixel_to_coord s) (mesh_ij ii jj)).
