(** Cells of the padded grids and the reported pixel areas (C121). *)
From Coq Require Import Reals Lra Psatz ZArith Arith List Bool Lia.
From Coquelicot Require Import Complex.
From Verif Require Import Cx Sums PyBase ProfileModel SlmModel LibModel DmdModel SimModel SimSpec GridFacts GridFacts2.
Open Scope R_scope.

Lemma image_cells s m X Y : pixel_size s <> 0 -> (0 < sim_Nx s m)%Z -> (0 < sim_Ny s m)%Z -> let ny := Z.to_nat (sim_Ny s m) in let nx := Z.to_nat (sim_Nx s m) in
  grid_is (image_plane_padded_grid s m) ny nx X Y ->
  exists P, image_plane_pixel_area s m = Ok P /\ P * INR (ny * nx) * fourier_plane_pixel_area s = (wavelength s * focal_length s) ^ 2 /\ (wavelength s * focal_length s <> 0 -> 0 < P) /\
   (forall i j, (S i < ny)%nat -> (S j < nx)%nat -> (X i (S j) - X i j) * (Y i j - Y (S i) j) = P /\ X (S i) j = X i j /\ Y i (S j) = Y i j) /\
   (X (ny / 2)%nat (nx / 2)%nat = 0 /\ Y (ny / 2)%nat (nx / 2)%nat = 0).
Proof.
  intros Hp Hx Hy ny nx G. assert (G0 := image_grid_of_is nx ny (pixel_size s) (scaling_factor s) Hp).
  assert (E : image_plane_padded_grid s m = image_grid_of nx ny (pixel_size s) (scaling_factor s)) by reflexivity. rewrite E in G.
  assert (V : forall i j, (i < ny)%nat -> (j < nx)%nat -> X i j = IZR (Z.of_nat j - Z.of_nat (nx / 2)) * scaling_factor s / (INR nx * pixel_size s) /\ Y i j = - (IZR (Z.of_nat i - Z.of_nat (ny / 2)) * scaling_factor s / (INR ny * pixel_size s))).
  { intros i j Hi Hj. destruct (grid_is_get _ _ _ _ _ i j G Hi Hj) as [<- <-]. exact (grid_is_get _ _ _ _ _ i j G0 Hi Hj). }
  assert (HI : IZR (sim_Nx s m * sim_Ny s m) = INR nx * INR ny) by (rewrite mult_IZR; unfold nx, ny; rewrite !INR_IZR_INZ, !Z2Nat.id by lia; reflexivity).
  assert (Nx0 : 0 < INR nx) by (apply lt_0_INR; lia). assert (Ny0 : 0 < INR ny) by (apply lt_0_INR; lia).
  exists (scaling_factor s ^ 2 / (INR nx * INR ny) / pixel_size s ^ 2). split; [|split; [|split; [|split]]].
  - unfold image_plane_pixel_area. destruct (Z.eqb_spec (sim_Nx s m * sim_Ny s m) 0) as [K|_]; [nia|]. destruct (Req_EM_T (pixel_size s) 0); [contradiction|]. rewrite HI. reflexivity.
  - unfold fourier_plane_pixel_area. change (wavelength s * focal_length s) with (scaling_factor s). rewrite mult_INR. field. repeat split; lra.
  - change (wavelength s * focal_length s) with (scaling_factor s). intros Hs. assert (0 < scaling_factor s ^ 2) by nra. assert (0 < pixel_size s ^ 2) by nra. apply Rdiv_lt_0_compat; [|assumption]. apply Rdiv_lt_0_compat; [assumption|nra].
  - intros i j Hi Hj. destruct (V i (S j) ltac:(lia) Hj) as [-> ->]. destruct (V i j ltac:(lia) ltac:(lia)) as [-> ->]. destruct (V (S i) j Hi ltac:(lia)) as [-> ->].
    rewrite !minus_IZR, <- !INR_IZR_INZ, !S_INR. split; [field; repeat split; lra|split; reflexivity].
  - assert (ny / 2 < ny)%nat by (apply Nat.div_lt; lia). assert (nx / 2 < nx)%nat by (apply Nat.div_lt; lia). destruct (V (ny / 2)%nat (nx / 2)%nat) as [-> ->]; [assumption|assumption|].
    rewrite !Z.sub_diag. split; unfold Rdiv; ring.
Qed.
Lemma fourier_cells s m x y : (0 <= pad_x m)%Z -> (0 <= pad_y m)%Z -> let ny := Z.to_nat (sim_Ny s m) in let nx := Z.to_nat (sim_Nx s m) in
  grid_is (fourier_plane_padded_grid s m) ny nx x y ->
  (pixel_size s <> 0 -> 0 < fourier_plane_pixel_area s) /\
  (forall i j, (S i < ny)%nat -> (S j < nx)%nat -> (x i (S j) - x i j) * (y i j - y (S i) j) = fourier_plane_pixel_area s /\ x (S i) j = x i j /\ y i (S j) = y i j).
Proof.
  intros Hx Hy ny nx G. assert (G0 := fourier_plane_padded_grid_is s m Hy Hx). split; [unfold fourier_plane_pixel_area; intros; nra|]. intros i j Hi Hj.
  assert (V : forall i j, (i < ny)%nat -> (j < nx)%nat -> x i j = (IZR (Z.of_nat j - pad_x m) - INR (s_Nx s) / 2) * pixel_size s /\ y i j = (INR (s_Ny s) / 2 - IZR (Z.of_nat i - pad_y m)) * pixel_size s).
  { intros a b Ha Hb. destruct (grid_is_get _ _ _ _ _ a b G Ha Hb) as [<- <-]. exact (grid_is_get _ _ _ _ _ a b G0 Ha Hb). }
  destruct (V i (S j) ltac:(lia) Hj) as [-> ->]. destruct (V i j ltac:(lia) ltac:(lia)) as [-> ->]. destruct (V (S i) j Hi ltac:(lia)) as [-> ->].
  unfold fourier_plane_pixel_area. rewrite !minus_IZR, <- !INR_IZR_INZ, !S_INR. split; [ring|split; reflexivity].
Qed.
Lemma area_error s m : (exists e, image_plane_pixel_area s m = Err e) <-> (sim_Nx s m = 0 \/ sim_Ny s m = 0)%Z \/ pixel_size s = 0.
Proof.
  unfold image_plane_pixel_area. destruct (Z.eqb_spec (sim_Nx s m * sim_Ny s m) 0) as [K|K].
  - split; [intros _; left; nia|eauto].
  - destruct (Req_EM_T (pixel_size s) 0); [split; eauto|]. split; [intros (e & H); discriminate|]. intros [[H|H]|H]; [rewrite H in K; lia|rewrite H in K; lia|contradiction].
Qed.
(** Twice, three times, ... as many pixels: the pixels get smaller in proportion. *)
Lemma area_ratio s m m' P P' : image_plane_pixel_area s m = Ok P -> image_plane_pixel_area s m' = Ok P' -> P' * IZR (sim_Nx s m' * sim_Ny s m') = P * IZR (sim_Nx s m * sim_Ny s m).
Proof.
  unfold image_plane_pixel_area. destruct (Z.eqb_spec (sim_Nx s m * sim_Ny s m) 0) as [|K]; [discriminate|]. destruct (Z.eqb_spec (sim_Nx s m' * sim_Ny s m') 0) as [|K']; [discriminate|].
  destruct (Req_EM_T (pixel_size s) 0); [discriminate|]. intros H H'. injection H as <-. injection H' as <-. field. repeat split; try assumption; apply not_0_IZR; assumption.
Qed.
