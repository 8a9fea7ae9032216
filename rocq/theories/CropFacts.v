(** Simulations with any integer padding (C145). *)
From Coq Require Import Reals Lra Psatz ZArith Arith List Bool Lia.
From Coquelicot Require Import Complex.
From Verif Require Import Cx Sums PyBase ProfileModel SlmModel LibModel DmdModel SimModel SimSpec GridFacts GridFacts2 SimHist CropModel.
Import ListNotations.
Open Scope R_scope.

Lemma freq_ok n d : d <> 0 -> (0 < n)%Z -> fftfreq_any n d = Ok (fftfreq (Z.to_nat n) d).
Proof.
  intros Hd Hn. unfold fftfreq_any. destruct (Req_EM_T (IZR n * d) 0) as [E|_].
  - apply Rmult_integral in E. destruct E as [E|E]; [|contradiction]. apply eq_IZR_R0 in E. lia.
  - destruct (Z.ltb_spec n 0); [lia|reflexivity].
Qed.
Lemma freq_zero n d : d = 0 \/ n = 0%Z -> fftfreq_any n d = Err ZeroDivisionError.
Proof. intros H. unfold fftfreq_any. destruct (Req_EM_T (IZR n * d) 0) as [_|N]; [reflexivity|]. destruct N. destruct H as [->| ->]; ring. Qed.
Lemma freq_negative n d : d <> 0 -> (n < 0)%Z -> fftfreq_any n d = Err ValueError.
Proof.
  intros Hd Hn. unfold fftfreq_any. destruct (Req_EM_T (IZR n * d) 0) as [E|_].
  - apply Rmult_integral in E. destruct E as [E|E]; [|contradiction]. apply eq_IZR_R0 in E. lia.
  - destruct (Z.ltb_spec n 0); [reflexivity|lia].
Qed.
Lemma image_grid_any_ok s m : pixel_size s <> 0 -> (0 < sim_Nx s m)%Z -> (0 < sim_Ny s m)%Z -> image_grid_any s m = Ok (image_plane_padded_grid s m).
Proof. intros Hp Hx Hy. unfold image_grid_any. rewrite freq_ok by assumption. cbn [rbind]. rewrite freq_ok by assumption. reflexivity. Qed.
Lemma image_grid_outcome s m :
  (pixel_size s <> 0 -> (0 < sim_Nx s m)%Z -> (0 < sim_Ny s m)%Z -> exists g, image_grid_any s m = Ok g /\
     grid_is g (Z.to_nat (sim_Ny s m)) (Z.to_nat (sim_Nx s m))
       (fun _ j => (INR j - IZR (sim_Nx s m / 2)) * (wavelength s * focal_length s) / (IZR (sim_Nx s m) * pixel_size s))
       (fun i _ => (IZR (sim_Ny s m / 2) - INR i) * (wavelength s * focal_length s) / (IZR (sim_Ny s m) * pixel_size s))) /\
  (image_grid_any s m = Err ZeroDivisionError <-> pixel_size s = 0 \/ sim_Nx s m = 0%Z \/ (0 < sim_Nx s m)%Z /\ sim_Ny s m = 0%Z) /\
  (image_grid_any s m = Err ValueError <-> pixel_size s <> 0 /\ ((sim_Nx s m < 0)%Z \/ (0 < sim_Nx s m)%Z /\ (sim_Ny s m < 0)%Z)).
Proof.
  split.
  { intros Hp Hx Hy. eexists. split; [exact (image_grid_any_ok s m Hp Hx Hy)|].
    refine (grid_is_ext _ _ _ _ _ _ _ (image_grid_of_is (Z.to_nat (sim_Nx s m)) (Z.to_nat (sim_Ny s m)) (pixel_size s) (scaling_factor s) Hp) _).
    intros i j Hi Hj. change (scaling_factor s) with (wavelength s * focal_length s). rewrite !minus_IZR, !half_Z, !INR_IZR_INZ, !Z2Nat.id by lia. split; [reflexivity|unfold Rdiv; ring]. }
  unfold image_grid_any. destruct (Req_EM_T (pixel_size s) 0) as [Hp|Hp].
  { rewrite freq_zero by (left; exact Hp). cbn [rbind]. split; split; intros H; [left; exact Hp|reflexivity|discriminate|destruct H; contradiction]. }
  destruct (Z.lt_trichotomy (sim_Nx s m) 0) as [Hx|[Hx|Hx]].
  - rewrite freq_negative by assumption. cbn [rbind]. split; split; intros H; [discriminate|destruct H as [H|[H|H]]; [contradiction|lia|lia]|auto|reflexivity].
  - rewrite freq_zero by (right; exact Hx). cbn [rbind]. split; split; intros H; [auto|reflexivity|discriminate|lia].
  - rewrite freq_ok by assumption. cbn [rbind]. destruct (Z.lt_trichotomy (sim_Ny s m) 0) as [Hy|[Hy|Hy]].
    + rewrite freq_negative by assumption. cbn [rbind]. split; split; intros H; [discriminate|destruct H as [H|[H|H]]; [contradiction|lia|lia]|auto|reflexivity].
    + rewrite freq_zero by (right; exact Hy). cbn [rbind]. split; split; intros H; [auto|reflexivity|discriminate|lia].
    + rewrite freq_ok by assumption. cbn [rbind]. split; split; intros H; [discriminate|destruct H as [H|[H|H]]; [contradiction|lia|lia]|discriminate|lia].
Qed.

Lemma fourier_grid_any_ok s m : (0 <= sim_Nx s m)%Z -> (0 <= sim_Ny s m)%Z -> fourier_grid_any s m = Ok (fourier_plane_padded_grid s m).
Proof. unfold sim_Nx, sim_Ny. intros Hx Hy. unfold fourier_grid_any, range_any. destruct (Z.ltb_spec (Z.of_nat (s_Nx s) + pad_x m) (- pad_x m)); [lia|]. cbn [rbind]. destruct (Z.ltb_spec (Z.of_nat (s_Ny s) + pad_y m) (- pad_y m)); [lia|reflexivity]. Qed.
Lemma fourier_grid_outcome s m :
  ((0 <= sim_Nx s m)%Z -> (0 <= sim_Ny s m)%Z -> exists g, fourier_grid_any s m = Ok g /\
     grid_is g (Z.to_nat (sim_Ny s m)) (Z.to_nat (sim_Nx s m))
       (fun _ j => (IZR (Z.of_nat j - pad_x m) - INR (s_Nx s) / 2) * pixel_size s) (fun i _ => (INR (s_Ny s) / 2 - IZR (Z.of_nat i - pad_y m)) * pixel_size s)) /\
  ((sim_Nx s m < 0)%Z \/ (sim_Ny s m < 0)%Z -> fourier_grid_any s m = Err ETensorFlow).
Proof.
  split.
  - intros Hx Hy. eexists. split; [exact (fourier_grid_any_ok s m Hx Hy)|]. unfold sim_Nx, sim_Ny in *. unfold fourier_plane_padded_grid.
    assert (G : grid_is (mesh_ij (map IZR (arange (- pad_y m) (Z.of_nat (s_Ny s) + pad_y m))) (map IZR (arange (- pad_x m) (Z.of_nat (s_Nx s) + pad_x m))))
      (Z.to_nat (Z.of_nat (s_Ny s) + 2 * pad_y m)) (Z.to_nat (Z.of_nat (s_Nx s) + 2 * pad_x m)) (fun i _ => IZR (Z.of_nat i - pad_y m)) (fun _ j => IZR (Z.of_nat j - pad_x m))).
    { unfold mesh_ij. rewrite !map_arange_length.
      replace (Z.of_nat (s_Ny s) + pad_y m - - pad_y m)%Z with (Z.of_nat (s_Ny s) + 2 * pad_y m)%Z by lia.
      replace (Z.of_nat (s_Nx s) + pad_x m - - pad_x m)%Z with (Z.of_nat (s_Nx s) + 2 * pad_x m)%Z by lia.
      split; cbn [fst snd teq]; (split; [reflexivity|split; [reflexivity|]]); intros i j Hi Hj; rewrite nth_map_arange by lia; f_equal; lia. }
    refine (grid_is_ext _ _ _ _ _ _ _ (grid_map_is (pixel_to_coord s) _ _ _ _ _ G) _). intros i j _ _. rewrite pixel_to_coord_formula. cbn [fst snd]. split; [reflexivity|ring].
  - unfold sim_Nx, sim_Ny, fourier_grid_any, range_any. intros H. destruct (Z.ltb_spec (Z.of_nat (s_Nx s) + pad_x m) (- pad_x m)); [reflexivity|]. cbn [rbind]. destruct (Z.ltb_spec (Z.of_nat (s_Ny s) + pad_y m) (- pad_y m)); [reflexivity|lia].
Qed.

Lemma no_propagation h dev m a : (pad_x m < 0)%Z \/ (pad_y m < 0)%Z ->
  propagate_to_image h dev m a = (m, Err (match profile_to_tensor_c h (dev_slm dev) a true with Err e => e | Ok _ => ETensorFlow end)).
Proof.
  intros H. unfold propagate_to_image. cbv zeta. destruct profile_to_tensor_c as [t|e]; [|reflexivity].
  destruct t as [z|ny nx f]; cbn [tf_pad]; [reflexivity|]. destruct (Z.ltb_spec (pad_y m) 0); [reflexivity|]. destruct (Z.ltb_spec (pad_x m) 0); [reflexivity|lia].
Qed.
Lemma after_none ops : forall w, (pad_x (w_sim w) < 0)%Z \/ (pad_y (w_sim w) < 0)%Z -> no_result (w_sim w) ->
  w_sim (fold_left (fun w o => fst (step w o)) ops w) = w_sim w.
Proof.
  induction ops as [|o ops IH]; intros w H N; [reflexivity|]. cbn [fold_left].
  assert (E : w_sim (fst (step w o)) = w_sim w).
  { destruct o; cbn [step].
    - rewrite no_propagation by exact H. reflexivity.
    - destruct (w_dev w); try reflexivity. unfold block_zeroth_order. cbv zeta. destruct N as (_ & N & _). rewrite N. reflexivity.
    - unfold clear. cbn [fst w_sim]. destruct N as (N1 & N2 & N3). destruct (w_sim w) as [px py fi fo fm]. cbn in *. subst. reflexivity.
    - reflexivity.
    - destruct (w_dev w); reflexivity.
    - destruct (w_dev w); reflexivity. }
  rewrite IH; rewrite ?E; auto.
Qed.
Lemma crop_history w ops : (pad_x (w_sim w) < 0)%Z \/ (pad_y (w_sim w) < 0)%Z -> no_result (w_sim w) ->
  let w' := fold_left (fun w o => fst (step w o)) ops w in let s := dev_slm (w_dev w') in
  no_result (w_sim w') /\ (forall a, snd (step w' (Propagate a)) <> Ok tt) /\ (forall r, snd (step w' (Block r)) <> Ok tt) /\
  get_input_power s (w_sim w') = Err TypeError /\ get_output_power s (w_sim w') = Err TypeError /\ (exists e, get_image_plane_power s (w_sim w') = Err e).
Proof.
  intros H N w' s. assert (E : w_sim w' = w_sim w) by (apply after_none; assumption). rewrite E. split; [exact N|]. split; [|split].
  - intros a. cbn [step]. rewrite E, no_propagation by exact H. cbn [snd]. discriminate.
  - intros r. cbn [step]. destruct (w_dev w'); cbn [snd]; try discriminate. rewrite E. unfold block_zeroth_order. cbv zeta. destruct N as (_ & N & _). rewrite N. discriminate.
  - destruct N as (N1 & N2 & N3). unfold get_input_power, get_output_power, get_image_plane_power, input_intensity, output_intensity, image_plane_intensity, power. rewrite N1, N2, N3. cbn [option_map rbind].
    split; [reflexivity|]. split; [reflexivity|]. destruct image_plane_pixel_area as [P|e]; cbn [rbind]; eexists; reflexivity.
Qed.
Lemma crop_is_interior s m (cx cy : nat) x y : pad_x m = (- Z.of_nat cx)%Z -> pad_y m = (- Z.of_nat cy)%Z -> (2 * cx <= s_Nx s)%nat -> (2 * cy <= s_Ny s)%nat ->
  grid_is (fourier_plane_grid s) (s_Ny s) (s_Nx s) x y ->
  exists g, fourier_grid_any s m = Ok g /\ grid_is g (s_Ny s - 2 * cy) (s_Nx s - 2 * cx) (fun i j => x (i + cy)%nat (j + cx)%nat) (fun i j => y (i + cy)%nat (j + cx)%nat).
Proof.
  intros Ex Ey Hx Hy G. assert (SX : sim_Nx s m = Z.of_nat (s_Nx s - 2 * cx)) by (unfold sim_Nx; lia). assert (SY : sim_Ny s m = Z.of_nat (s_Ny s - 2 * cy)) by (unfold sim_Ny; lia).
  destruct (proj1 (fourier_grid_outcome s m)) as (g & E & K); [lia|lia|]. exists g. split; [exact E|]. rewrite SX, SY, !Nat2Z.id in K.
  apply (grid_is_ext _ _ _ _ _ _ _ K). intros i j Hi Hj. assert (Gi := grid_is_get _ _ _ _ _ (i + cy)%nat (j + cx)%nat G ltac:(lia) ltac:(lia)). assert (Gk := grid_is_get _ _ _ _ _ (i + cy)%nat (j + cx)%nat (fourier_plane_grid_is s) ltac:(lia) ltac:(lia)).
  destruct Gi as [<- <-]. destruct Gk as [-> ->]. rewrite Ex, Ey, !INR_IZR_INZ. replace (Z.of_nat j - - Z.of_nat cx)%Z with (Z.of_nat (j + cx)) by lia. replace (Z.of_nat i - - Z.of_nat cy)%Z with (Z.of_nat (i + cy)) by lia. split; reflexivity.
Qed.
