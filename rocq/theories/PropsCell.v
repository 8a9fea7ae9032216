(** C121: the reported pixel areas are the cells of the reported grids. *)
From Coq Require Import Reals Lra ZArith Arith List Bool Lia.
From Coquelicot Require Import Complex.
From Verif Require Import Cx Sums PyBase ProfileModel SlmModel LibModel DmdModel SimModel SimSpec GridFacts CellFacts.
Open Scope R_scope.

Theorem C121_image_cells : forall s m X Y, pixel_size s <> 0 -> (0 < sim_Nx s m)%Z -> (0 < sim_Ny s m)%Z -> let ny := Z.to_nat (sim_Ny s m) in let nx := Z.to_nat (sim_Nx s m) in
  grid_is (image_plane_padded_grid s m) ny nx X Y ->
  exists P, image_plane_pixel_area s m = Ok P /\ P * INR (ny * nx) * fourier_plane_pixel_area s = (wavelength s * focal_length s) ^ 2 /\ (wavelength s * focal_length s <> 0 -> 0 < P) /\
   (forall i j, (S i < ny)%nat -> (S j < nx)%nat -> (X i (S j) - X i j) * (Y i j - Y (S i) j) = P /\ X (S i) j = X i j /\ Y i (S j) = Y i j) /\
   (X (ny / 2)%nat (nx / 2)%nat = 0 /\ Y (ny / 2)%nat (nx / 2)%nat = 0).
Proof. exact image_cells. Qed.
Print Assumptions C121_image_cells.
Theorem C121_fourier_cells : forall s m x y, (0 <= pad_x m)%Z -> (0 <= pad_y m)%Z -> let ny := Z.to_nat (sim_Ny s m) in let nx := Z.to_nat (sim_Nx s m) in
  grid_is (fourier_plane_padded_grid s m) ny nx x y ->
  (pixel_size s <> 0 -> 0 < fourier_plane_pixel_area s) /\
  (forall i j, (S i < ny)%nat -> (S j < nx)%nat -> (x i (S j) - x i j) * (y i j - y (S i) j) = fourier_plane_pixel_area s /\ x (S i) j = x i j /\ y i (S j) = y i j).
Proof. exact fourier_cells. Qed.
Print Assumptions C121_fourier_cells.
Theorem C121_area_fails_only_without_pixels : forall s m, (exists e, image_plane_pixel_area s m = Err e) <-> (sim_Nx s m = 0 \/ sim_Ny s m = 0)%Z \/ pixel_size s = 0.
Proof. exact area_error. Qed.
Print Assumptions C121_area_fails_only_without_pixels.
Theorem C121_image_plane_size_fixed : forall s m m' P P', image_plane_pixel_area s m = Ok P -> image_plane_pixel_area s m' = Ok P' -> P' * IZR (sim_Nx s m' * sim_Ny s m') = P * IZR (sim_Nx s m * sim_Ny s m).
Proof. exact area_ratio. Qed.
Print Assumptions C121_image_plane_size_fixed.
(** The DMD of the unit test: a DLP9500 padded to twice its size has image pixels of a quarter of the area. *)
Example C121_case : let s := d_slm (DLP9500 (369 / 1000000000) (37 / 1000) 2 (- PI / 4) false) in let m k l := {| pad_x := k; pad_y := l; f_input := None; f_output := None; f_image := None |} in
  sim_Nx s (m 960 540)%Z = (2 * sim_Nx s (m 0 0))%Z /\ sim_Ny s (m 960 540)%Z = (2 * sim_Ny s (m 0 0))%Z /\ pixel_size s <> 0 /\ wavelength s * focal_length s <> 0 /\
  exists X Y, grid_is (image_plane_padded_grid s (m 960 540)%Z) (Z.to_nat (sim_Ny s (m 960 540)%Z)) (Z.to_nat (sim_Nx s (m 960 540)%Z)) X Y.
Proof.
  cbv zeta. assert (P : pixel_size (d_slm (DLP9500 (369 / 1000000000) (37 / 1000) 2 (- PI / 4) false)) <> 0) by (unfold DLP9500, dmd_new, micro; cbn [d_slm pixel_size]; lra).
  split; [reflexivity|]. split; [reflexivity|]. split; [exact P|]. split; [unfold DLP9500, dmd_new; cbn [d_slm wavelength focal_length]; lra|].
  do 2 eexists. apply image_grid_of_is. exact P.
Qed.
