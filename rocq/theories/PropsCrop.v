(** Simulations with any integer padding (C145). *)
From Coq Require Import Reals Lra ZArith Arith List Bool Lia.
From Coquelicot Require Import Complex.
From Verif Require Import Cx Sums PyBase ProfileModel SlmModel LibModel DmdModel SimModel SimSpec SimExamples SimHist CropModel CropFacts.
Import ListNotations.
Open Scope R_scope.

(** The image-plane grid for any padding: its values where both padded sizes are positive, and exactly when which exception is raised otherwise. *)
Theorem C145_image_grid : forall s m,
  (pixel_size s <> 0 -> (0 < sim_Nx s m)%Z -> (0 < sim_Ny s m)%Z -> exists g, image_grid_any s m = Ok g /\
     grid_is g (Z.to_nat (sim_Ny s m)) (Z.to_nat (sim_Nx s m))
       (fun _ j => (INR j - IZR (sim_Nx s m / 2)) * (wavelength s * focal_length s) / (IZR (sim_Nx s m) * pixel_size s))
       (fun i _ => (IZR (sim_Ny s m / 2) - INR i) * (wavelength s * focal_length s) / (IZR (sim_Ny s m) * pixel_size s))) /\
  (image_grid_any s m = Err ZeroDivisionError <-> pixel_size s = 0 \/ sim_Nx s m = 0%Z \/ (0 < sim_Nx s m)%Z /\ sim_Ny s m = 0%Z) /\
  (image_grid_any s m = Err ValueError <-> pixel_size s <> 0 /\ ((sim_Nx s m < 0)%Z \/ (0 < sim_Nx s m)%Z /\ (sim_Ny s m < 0)%Z)).
Proof. exact image_grid_outcome. Qed.
Print Assumptions C145_image_grid.
(** Where it exists, it is the grid of the other theorems. *)
Theorem C145_same_grids : forall s m,
  (pixel_size s <> 0 -> (0 < sim_Nx s m)%Z -> (0 < sim_Ny s m)%Z -> image_grid_any s m = Ok (image_plane_padded_grid s m)) /\
  ((0 <= sim_Nx s m)%Z -> (0 <= sim_Ny s m)%Z -> fourier_grid_any s m = Ok (fourier_plane_padded_grid s m)).
Proof. exact (fun s m => conj (image_grid_any_ok s m) (fourier_grid_any_ok s m)). Qed.
Print Assumptions C145_same_grids.
Theorem C145_fourier_grid : forall s m,
  ((0 <= sim_Nx s m)%Z -> (0 <= sim_Ny s m)%Z -> exists g, fourier_grid_any s m = Ok g /\
     grid_is g (Z.to_nat (sim_Ny s m)) (Z.to_nat (sim_Nx s m))
       (fun _ j => (IZR (Z.of_nat j - pad_x m) - INR (s_Nx s) / 2) * pixel_size s) (fun i _ => (INR (s_Ny s) / 2 - IZR (Z.of_nat i - pad_y m)) * pixel_size s)) /\
  ((sim_Nx s m < 0)%Z \/ (sim_Ny s m < 0)%Z -> fourier_grid_any s m = Err ETensorFlow).
Proof. exact fourier_grid_outcome. Qed.
Print Assumptions C145_fourier_grid.
(** Negative padding: the grid in the SLM plane is the panel's own without cx columns and cy rows at each border. *)
Theorem C145_crop : forall s m (cx cy : nat) x y, pad_x m = (- Z.of_nat cx)%Z -> pad_y m = (- Z.of_nat cy)%Z -> (2 * cx <= s_Nx s)%nat -> (2 * cy <= s_Ny s)%nat ->
  grid_is (fourier_plane_grid s) (s_Ny s) (s_Nx s) x y ->
  exists g, fourier_grid_any s m = Ok g /\ grid_is g (s_Ny s - 2 * cy) (s_Nx s - 2 * cx) (fun i j => x (i + cy)%nat (j + cx)%nat) (fun i j => y (i + cy)%nat (j + cx)%nat).
Proof. exact crop_is_interior. Qed.
Print Assumptions C145_crop.
(** But nothing can be propagated: the call raises what converting the profile raises, and TensorFlow's error otherwise, and leaves the object as it was. *)
Theorem C145_no_propagation : forall h dev m a, (pad_x m < 0)%Z \/ (pad_y m < 0)%Z ->
  propagate_to_image h dev m a = (m, Err (match profile_to_tensor_c h (dev_slm dev) a true with Err e => e | Ok _ => ETensorFlow end)).
Proof. exact no_propagation. Qed.
Print Assumptions C145_no_propagation.
(** After any calls whatever, failed ones included, there is no result, nothing to block and no power. *)
Theorem C145_never_a_result : forall w ops, (pad_x (w_sim w) < 0)%Z \/ (pad_y (w_sim w) < 0)%Z -> no_result (w_sim w) ->
  let w' := fold_left (fun w o => fst (step w o)) ops w in let s := dev_slm (w_dev w') in
  no_result (w_sim w') /\ (forall a, snd (step w' (Propagate a)) <> Ok tt) /\ (forall r, snd (step w' (Block r)) <> Ok tt) /\
  get_input_power s (w_sim w') = Err TypeError /\ get_output_power s (w_sim w') = Err TypeError /\ (exists e, get_image_plane_power s (w_sim w') = Err e).
Proof. exact crop_history. Qed.
Print Assumptions C145_never_a_result.
(** The constructor accepts it: a DLP9500 without its outer 960 columns has no columns left, with 961 fewer than none. *)
Example C145_case : let d := DLP9500 (369 / 1000000000) (200 / 1000) 4 (PI / 4) false in let s := d_slm d in
  exists m m0 m1, dmd_sim_new (Some (DevDmd d)) (PyInt (-100)) (PyInt 0) = Ok m /\ dmd_sim_new (Some (DevDmd d)) (PyInt (-960)) (PyInt 0) = Ok m0 /\ dmd_sim_new (Some (DevDmd d)) (PyInt (-961)) (PyInt 0) = Ok m1 /\
    (exists g, image_grid_any s m = Ok g) /\ image_grid_any s m0 = Err ZeroDivisionError /\ image_grid_any s m1 = Err ValueError /\ (exists g, fourier_grid_any s m0 = Ok g) /\ fourier_grid_any s m1 = Err ETensorFlow /\
    (pad_x m < 0)%Z /\ no_result m.
Proof.
  intros d s. set (m k := {| pad_x := k; pad_y := 0; f_input := None; f_output := None; f_image := None |}). exists (m (-100)%Z), (m (-960)%Z), (m (-961)%Z). split; [reflexivity|]. split; [reflexivity|]. split; [reflexivity|].
  assert (Hp : pixel_size s <> 0) by (unfold s, d, DLP9500, dmd_new; cbn [d_slm pixel_size]; unfold micro; lra).
  assert (EX : Z.of_nat (s_Nx s) = 1920%Z) by reflexivity. assert (EY : Z.of_nat (s_Ny s) = 1080%Z) by reflexivity.
  split; [|split; [|split; [|split; [|split; [|split]]]]].
  - destruct (proj1 (C145_image_grid s (m (-100)%Z)) Hp) as (g & G & _); [..|exists g; exact G]; unfold sim_Nx, sim_Ny; cbn [m pad_x pad_y]; lia.
  - apply (proj1 (proj2 (C145_image_grid s _))). right. left. unfold sim_Nx. cbn [m pad_x]. lia.
  - apply (proj2 (proj2 (C145_image_grid s _))). split; [exact Hp|]. left. unfold sim_Nx. cbn [m pad_x]. lia.
  - destruct (proj1 (C145_fourier_grid s (m (-960)%Z))) as (g & G & _); [..|exists g; exact G]; unfold sim_Nx, sim_Ny; cbn [m pad_x pad_y]; lia.
  - apply (proj2 (C145_fourier_grid s _)). left. unfold sim_Nx. cbn [m pad_x]. lia.
  - cbn [m pad_x]. lia.
  - repeat split.
Qed.
