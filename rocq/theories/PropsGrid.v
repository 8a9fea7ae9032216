(** C12-C14: coordinate grids. *)
From Coq Require Import Reals Lra ZArith Arith List Bool Lia.
From Coquelicot Require Import Complex.
From Verif Require Import Cx Sums DFT PyBase ProfileModel SlmModel LibModel DmdModel SimModel SimSpec GridFacts GridFacts2.
Open Scope R_scope.

(** A 5 x 4 device (odd and even size) used to show that hypotheses are satisfiable. *)
Definition ex_slm : slm := {| wavelength := 2; focal_length := 3; s_Nx := 5; s_Ny := 4; pixel_size := / 2 |}.

(** Every entry of fourier_plane_grid: x grows with the column, y falls with the row. *)
Theorem C12_fourier_grid_positions : forall s : slm,
  grid_is (fourier_plane_grid s) (s_Ny s) (s_Nx s)
    (fun i j => (INR j - INR (s_Nx s) / 2) * pixel_size s) (fun i j => (INR (s_Ny s) / 2 - INR i) * pixel_size s).
Proof. exact fourier_plane_grid_is. Qed.
Print Assumptions C12_fourier_grid_positions.

Theorem C12_pixel_to_coordinate : forall (s : slm) (i j : R),
  pixel_to_coord s i j = ((j - INR (s_Nx s) / 2) * pixel_size s, (INR (s_Ny s) / 2 - i) * pixel_size s).
Proof. exact pixel_to_coord_formula. Qed.
Print Assumptions C12_pixel_to_coordinate.

Theorem C12_conversions_inverse : forall s : slm, pixel_size s <> 0 ->
  (forall i j x y, pixel_to_coord s i j = (x, y) -> coord_to_pixel s x y = (i, j)) /\
  (forall i j x y, coord_to_pixel s x y = (i, j) -> pixel_to_coord s i j = (x, y)).
Proof. exact conversions_inverse. Qed.
Print Assumptions C12_conversions_inverse.
Example C12_conversions_inverse_case : pixel_size ex_slm <> 0 /\ pixel_to_coord ex_slm 1 3 = (/ 4, / 2).
Proof. split; unfold ex_slm, pixel_to_coord; simpl; [lra|f_equal; lra]. Qed.

Theorem C12_neighbours_and_centre : forall (s : slm) (i j x y : R), pixel_to_coord s i j = (x, y) ->
  pixel_to_coord s i (j + 1) = (x + pixel_size s, y) /\ pixel_to_coord s (i + 1) j = (x, y - pixel_size s) /\
  pixel_to_coord s (INR (s_Ny s) / 2) (INR (s_Nx s) / 2) = (0, 0).
Proof. exact neighbours_and_centre. Qed.
Print Assumptions C12_neighbours_and_centre.

(** For even sizes one pixel of the grid sits exactly on the optical axis, for odd sizes none does. *)
Theorem C12_axis_pixel : forall (s : slm) X Y, grid_is (fourier_plane_grid s) (s_Ny s) (s_Nx s) X Y ->
  pixel_size s <> 0 -> (0 < s_Nx s)%nat -> (0 < s_Ny s)%nat ->
  ((exists i j, (i < s_Ny s)%nat /\ (j < s_Nx s)%nat /\ X i j = 0 /\ Y i j = 0)
   <-> Nat.even (s_Nx s) = true /\ Nat.even (s_Ny s) = true).
Proof. exact axis_pixel. Qed.
Print Assumptions C12_axis_pixel.

Theorem C13_image_grid : forall s : slm, pixel_size s <> 0 ->
  grid_is (image_plane_grid s) (s_Ny s) (s_Nx s)
    (fun u v => IZR (Z.of_nat v - Z.of_nat (s_Nx s / 2)) * (wavelength s * focal_length s) / (INR (s_Nx s) * pixel_size s))
    (fun u v => - (IZR (Z.of_nat u - Z.of_nat (s_Ny s / 2)) * (wavelength s * focal_length s) / (INR (s_Ny s) * pixel_size s))).
Proof. exact image_plane_grid_is. Qed.
Print Assumptions C13_image_grid.
Example C13_image_grid_case : pixel_size ex_slm <> 0 /\ (s_Nx ex_slm / 2 = 2)%nat.
Proof. split; [unfold ex_slm; simpl; lra|reflexivity]. Qed.

(** Strictly monotone, uniform, the origin exactly once; cell area as reported for an unpadded simulation. *)
Theorem C13_image_grid_shape : forall (s : slm) X Y, grid_is (image_plane_grid s) (s_Ny s) (s_Nx s) X Y ->
  0 < pixel_size s -> 0 < wavelength s * focal_length s ->
  exists dx dy, 0 < dx /\ 0 < dy /\
   (forall u v, (u < s_Ny s)%nat -> (S v < s_Nx s)%nat -> X u (S v) = X u v + dx /\ Y u (S v) = Y u v) /\
   (forall u v, (S u < s_Ny s)%nat -> (v < s_Nx s)%nat -> Y (S u) v = Y u v - dy /\ X (S u) v = X u v) /\
   (forall u v, (u < s_Ny s)%nat -> (v < s_Nx s)%nat -> ((X u v = 0 /\ Y u v = 0) <-> (u = s_Ny s / 2 /\ v = s_Nx s / 2)%nat)) /\
   ((0 < s_Nx s)%nat -> (0 < s_Ny s)%nat -> forall m, pad_x m = 0%Z -> pad_y m = 0%Z -> image_plane_pixel_area s m = Ok (dx * dy)).
Proof. exact image_grid_shape. Qed.
Print Assumptions C13_image_grid_shape.
Example C13_image_grid_shape_case : 0 < pixel_size ex_slm /\ 0 < wavelength ex_slm * focal_length ex_slm /\ (0 < s_Nx ex_slm)%nat.
Proof. unfold ex_slm; simpl. repeat split; try lra; lia. Qed.

Theorem C14_fourier_grid_extends : forall (s : slm) (m : sim) x y x' y', (0 <= pad_x m)%Z -> (0 <= pad_y m)%Z ->
  grid_is (fourier_plane_grid s) (s_Ny s) (s_Nx s) x y ->
  grid_is (fourier_plane_padded_grid s m) (s_Ny s + 2 * Z.to_nat (pad_y m)) (s_Nx s + 2 * Z.to_nat (pad_x m)) x' y' ->
  forall i j, (i < s_Ny s)%nat -> (j < s_Nx s)%nat ->
    x' (Z.to_nat (pad_y m) + i)%nat (Z.to_nat (pad_x m) + j)%nat = x i j /\
    y' (Z.to_nat (pad_y m) + i)%nat (Z.to_nat (pad_x m) + j)%nat = y i j.
Proof. exact fourier_grid_extends. Qed.
Print Assumptions C14_fourier_grid_extends.

Theorem C14_padded_grid_sizes : forall (s : slm) (m : sim), (0 <= pad_x m)%Z -> (0 <= pad_y m)%Z -> pixel_size s <> 0 ->
  (exists x y, grid_is (fourier_plane_padded_grid s m) (s_Ny s + 2 * Z.to_nat (pad_y m)) (s_Nx s + 2 * Z.to_nat (pad_x m)) x y) /\
  (exists x y, grid_is (image_plane_padded_grid s m) (s_Ny s + 2 * Z.to_nat (pad_y m)) (s_Nx s + 2 * Z.to_nat (pad_x m)) x y).
Proof. exact padded_grid_sizes. Qed.
Print Assumptions C14_padded_grid_sizes.
Example C14_case : let m := {| pad_x := 5; pad_y := 4; f_input := None; f_output := None; f_image := None |} in
  (0 <= pad_x m)%Z /\ (0 <= pad_y m)%Z /\ sim_Nx ex_slm m = (3 * 5)%Z /\ sim_Ny ex_slm m = (3 * 4)%Z.
Proof. cbn. lia. Qed.

(** Padding to k times the device size refines the image grid k-fold: sample k*v + o of the padded grid is sample
    v of the plain one (o the offset of the centres), for odd and even k and sizes. *)
Theorem C14_image_grid_refines : forall (s : slm) (m : sim) (kx ky : nat) X Y X' Y', pixel_size s <> 0 -> (0 < kx)%nat -> (0 < ky)%nat ->
  sim_Nx s m = Z.of_nat (kx * s_Nx s) -> sim_Ny s m = Z.of_nat (ky * s_Ny s) ->
  grid_is (image_plane_grid s) (s_Ny s) (s_Nx s) X Y ->
  grid_is (image_plane_padded_grid s m) (ky * s_Ny s) (kx * s_Nx s) X' Y' ->
  exists oy ox, (oy < ky)%nat /\ (ox < kx)%nat /\
  forall u v, (u < s_Ny s)%nat -> (v < s_Nx s)%nat ->
    (ky * u + oy < ky * s_Ny s)%nat /\ (kx * v + ox < kx * s_Nx s)%nat /\
    X' (ky * u + oy)%nat (kx * v + ox)%nat = X u v /\ Y' (ky * u + oy)%nat (kx * v + ox)%nat = Y u v.
Proof. exact image_grid_refines. Qed.
Print Assumptions C14_image_grid_refines.
