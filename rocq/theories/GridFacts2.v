(** Consequences of the grid formulas. *)
From Coq Require Import Reals Lra ZArith Arith List Bool Lia.
From Coquelicot Require Import Complex.
From Verif Require Import Cx Sums DFT PyBase ProfileModel SlmModel LibModel DmdModel SimModel SimSpec GridFacts.
Open Scope R_scope.

Lemma pixel_to_coord_formula s i j :
  pixel_to_coord s i j = ((j - INR (s_Nx s) / 2) * pixel_size s, (INR (s_Ny s) / 2 - i) * pixel_size s).
Proof. unfold pixel_to_coord. f_equal. field. Qed.
Lemma conversions_inverse s : pixel_size s <> 0 ->
  (forall i j x y, pixel_to_coord s i j = (x, y) -> coord_to_pixel s x y = (i, j)) /\
  (forall i j x y, coord_to_pixel s x y = (i, j) -> pixel_to_coord s i j = (x, y)).
Proof.
  intros H. split; intros i j x y E.
  - rewrite <- (coord_pixel s i j H), E. reflexivity.
  - rewrite <- (pixel_coord s x y H), E. reflexivity.
Qed.
Lemma neighbours_and_centre s i j x y : pixel_to_coord s i j = (x, y) ->
  pixel_to_coord s i (j + 1) = (x + pixel_size s, y) /\ pixel_to_coord s (i + 1) j = (x, y - pixel_size s) /\
  pixel_to_coord s (INR (s_Ny s) / 2) (INR (s_Nx s) / 2) = (0, 0).
Proof.
  unfold pixel_to_coord. intros E; injection E as <- <-. repeat split; f_equal; field.
Qed.
Lemma even_INR_half n j : INR j = INR n / 2 -> n = (2 * j)%nat.
Proof. intros H. apply INR_eq. rewrite mult_INR. simpl. lra. Qed.
Lemma axis_pixel s X Y : grid_is (fourier_plane_grid s) (s_Ny s) (s_Nx s) X Y ->
  pixel_size s <> 0 -> (0 < s_Nx s)%nat -> (0 < s_Ny s)%nat ->
  ((exists i j, (i < s_Ny s)%nat /\ (j < s_Nx s)%nat /\ X i j = 0 /\ Y i j = 0)
   <-> Nat.even (s_Nx s) = true /\ Nat.even (s_Ny s) = true).
Proof.
  intros G Hps Hx Hy.
  assert (HG : forall i j, (i < s_Ny s)%nat -> (j < s_Nx s)%nat ->
     X i j = (INR j - INR (s_Nx s) / 2) * pixel_size s /\ Y i j = (INR (s_Ny s) / 2 - INR i) * pixel_size s).
  { intros i j Hi Hj. destruct (grid_is_get _ _ _ _ _ i j G Hi Hj) as [<- <-].
    exact (grid_is_get _ _ _ _ _ i j (fourier_plane_grid_is s) Hi Hj). }
  split.
  - intros (i & j & Hi & Hj & E1 & E2). destruct (HG i j Hi Hj) as [F1 F2]. rewrite F1 in E1. rewrite F2 in E2.
    apply Rmult_integral in E1 as [E1|]; [|contradiction]. apply Rmult_integral in E2 as [E2|]; [|contradiction].
    rewrite (even_INR_half (s_Nx s) j) by lra. rewrite (even_INR_half (s_Ny s) i) by lra.
    rewrite !Nat.even_mul. auto.
  - intros [E1 E2]. apply Nat.even_spec in E1. apply Nat.even_spec in E2. destruct E1 as [j E1], E2 as [i E2].
    exists i, j. split; [lia|]. split; [lia|]. destruct (HG i j ltac:(lia) ltac:(lia)) as [-> ->].
    rewrite E1, E2, !mult_INR. simpl. split; field.
Qed.
Lemma image_plane_grid_is s : pixel_size s <> 0 ->
  grid_is (image_plane_grid s) (s_Ny s) (s_Nx s)
    (fun u v => IZR (Z.of_nat v - Z.of_nat (s_Nx s / 2)) * (wavelength s * focal_length s) / (INR (s_Nx s) * pixel_size s))
    (fun u v => - (IZR (Z.of_nat u - Z.of_nat (s_Ny s / 2)) * (wavelength s * focal_length s) / (INR (s_Ny s) * pixel_size s))).
Proof. intros H. apply image_grid_of_is. exact H. Qed.
Lemma image_grid_shape s X Y : grid_is (image_plane_grid s) (s_Ny s) (s_Nx s) X Y ->
  0 < pixel_size s -> 0 < wavelength s * focal_length s ->
  exists dx dy, 0 < dx /\ 0 < dy /\
   (forall u v, (u < s_Ny s)%nat -> (S v < s_Nx s)%nat -> X u (S v) = X u v + dx /\ Y u (S v) = Y u v) /\
   (forall u v, (S u < s_Ny s)%nat -> (v < s_Nx s)%nat -> Y (S u) v = Y u v - dy /\ X (S u) v = X u v) /\
   (forall u v, (u < s_Ny s)%nat -> (v < s_Nx s)%nat -> ((X u v = 0 /\ Y u v = 0) <-> (u = s_Ny s / 2 /\ v = s_Nx s / 2)%nat)) /\
   ((0 < s_Nx s)%nat -> (0 < s_Ny s)%nat -> forall m, pad_x m = 0%Z -> pad_y m = 0%Z -> image_plane_pixel_area s m = Ok (dx * dy)).
Proof.
  intros G Hps Hsf. set (sf := wavelength s * focal_length s) in *. assert (Hp : pixel_size s <> 0) by lra.
  assert (HG : forall u v, (u < s_Ny s)%nat -> (v < s_Nx s)%nat ->
     X u v = IZR (Z.of_nat v - Z.of_nat (s_Nx s / 2)) * sf / (INR (s_Nx s) * pixel_size s) /\
     Y u v = - (IZR (Z.of_nat u - Z.of_nat (s_Ny s / 2)) * sf / (INR (s_Ny s) * pixel_size s))).
  { intros u v Hu Hv. destruct (grid_is_get _ _ _ _ _ u v G Hu Hv) as [<- <-].
    exact (grid_is_get _ _ _ _ _ u v (image_plane_grid_is s Hp) Hu Hv). }
  exists (if Nat.eqb (s_Nx s) 0 then 1 else sf / (INR (s_Nx s) * pixel_size s)).
  exists (if Nat.eqb (s_Ny s) 0 then 1 else sf / (INR (s_Ny s) * pixel_size s)).
  assert (Hd : forall n, 0 < (if Nat.eqb n 0 then 1 else sf / (INR n * pixel_size s))).
  { intros n. destruct (Nat.eqb_spec n 0); [lra|]. apply Rdiv_lt_0_compat; [exact Hsf|]. apply Rmult_lt_0_compat; [|exact Hps].
    apply lt_0_INR. lia. }
  split; [apply Hd|]. split; [apply Hd|].
  assert (HIZ : forall a n, IZR (Z.of_nat a - Z.of_nat n) = INR a - INR n) by (intros; rewrite minus_IZR, <- !INR_IZR_INZ; reflexivity).
  split; [|split; [|split]].
  - intros u v Hu Hv. destruct (HG u (S v) Hu Hv) as [-> ->]. destruct (HG u v Hu ltac:(lia)) as [-> ->].
    destruct (Nat.eqb_spec (s_Nx s) 0); [lia|]. assert (INR (s_Nx s) <> 0) by (apply INR_neq_0; lia).
    rewrite !HIZ, S_INR. split; [field; auto|reflexivity].
  - intros u v Hu Hv. destruct (HG (S u) v Hu Hv) as [-> ->]. destruct (HG u v ltac:(lia) Hv) as [-> ->].
    destruct (Nat.eqb_spec (s_Ny s) 0); [lia|]. assert (INR (s_Ny s) <> 0) by (apply INR_neq_0; lia).
    rewrite !HIZ, S_INR. split; [field; auto|reflexivity].
  - intros u v Hu Hv. destruct (HG u v Hu Hv) as [-> ->].
    assert (INR (s_Nx s) <> 0) by (apply INR_neq_0; lia). assert (INR (s_Ny s) <> 0) by (apply INR_neq_0; lia).
    assert (Hz : forall a n, INR n <> 0 -> IZR a * sf / (INR n * pixel_size s) = 0 -> a = 0%Z).
    { intros a n Hn E. apply eq_IZR. apply Rmult_eq_reg_r with (sf / (INR n * pixel_size s)).
      - rewrite Rmult_0_l, <- E. field. auto.
      - apply Rmult_integral_contrapositive. split; [lra|]. apply Rinv_neq_0_compat. auto. }
    split.
    + intros [E1 E2]. apply Hz in E1; [|assumption]. assert (E3 : IZR (Z.of_nat u - Z.of_nat (s_Ny s / 2)) * sf / (INR (s_Ny s) * pixel_size s) = 0) by lra.
      apply Hz in E3; [|assumption]. lia.
    + intros [-> ->]. rewrite !Z.sub_diag. unfold Rdiv. split; ring.
  - intros Hx Hy m Ex Ey. unfold image_plane_pixel_area, sim_Nx, sim_Ny. rewrite Ex, Ey, !Z.add_0_r.
    destruct (Z.eqb_spec (Z.of_nat (s_Nx s) * Z.of_nat (s_Ny s)) 0); [nia|].
    destruct (Req_EM_T (pixel_size s) 0); [contradiction|].
    destruct (Nat.eqb_spec (s_Nx s) 0); [lia|]. destruct (Nat.eqb_spec (s_Ny s) 0); [lia|].
    f_equal. change (scaling_factor s) with sf. rewrite mult_IZR, <- !INR_IZR_INZ. field. repeat split; auto; apply INR_neq_0; lia.
Qed.
Lemma fourier_grid_extends s m x y x' y' : (0 <= pad_x m)%Z -> (0 <= pad_y m)%Z ->
  grid_is (fourier_plane_grid s) (s_Ny s) (s_Nx s) x y ->
  grid_is (fourier_plane_padded_grid s m) (s_Ny s + 2 * Z.to_nat (pad_y m)) (s_Nx s + 2 * Z.to_nat (pad_x m)) x' y' ->
  forall i j, (i < s_Ny s)%nat -> (j < s_Nx s)%nat ->
    x' (Z.to_nat (pad_y m) + i)%nat (Z.to_nat (pad_x m) + j)%nat = x i j /\
    y' (Z.to_nat (pad_y m) + i)%nat (Z.to_nat (pad_x m) + j)%nat = y i j.
Proof.
  intros Hx Hy G G' i j Hi Hj.
  destruct (grid_is_get _ _ _ _ _ i j G Hi Hj) as [<- <-].
  destruct (grid_is_get _ _ _ _ _ i j (fourier_plane_grid_is s) Hi Hj) as [-> ->].
  destruct (grid_is_get _ _ _ _ _ (Z.to_nat (pad_y m) + i)%nat (Z.to_nat (pad_x m) + j)%nat G' ltac:(lia) ltac:(lia)) as [<- <-].
  assert (Bi : (Z.to_nat (pad_y m) + i < Z.to_nat (sim_Ny s m))%nat) by (unfold sim_Ny; lia).
  assert (Bj : (Z.to_nat (pad_x m) + j < Z.to_nat (sim_Nx s m))%nat) by (unfold sim_Nx; lia).
  destruct (grid_is_get _ _ _ _ _ _ _ (fourier_plane_padded_grid_is s m Hy Hx) Bi Bj) as [-> ->].
  replace (Z.of_nat (Z.to_nat (pad_y m) + i) - pad_y m)%Z with (Z.of_nat i) by lia.
  replace (Z.of_nat (Z.to_nat (pad_x m) + j) - pad_x m)%Z with (Z.of_nat j) by lia.
  rewrite <- !INR_IZR_INZ. auto.
Qed.
Lemma padded_grid_sizes s m : (0 <= pad_x m)%Z -> (0 <= pad_y m)%Z -> pixel_size s <> 0 ->
  (exists x y, grid_is (fourier_plane_padded_grid s m) (s_Ny s + 2 * Z.to_nat (pad_y m)) (s_Nx s + 2 * Z.to_nat (pad_x m)) x y) /\
  (exists x y, grid_is (image_plane_padded_grid s m) (s_Ny s + 2 * Z.to_nat (pad_y m)) (s_Nx s + 2 * Z.to_nat (pad_x m)) x y).
Proof.
  intros Hx Hy Hp.
  replace (s_Ny s + 2 * Z.to_nat (pad_y m))%nat with (Z.to_nat (sim_Ny s m)) by (unfold sim_Ny; lia).
  replace (s_Nx s + 2 * Z.to_nat (pad_x m))%nat with (Z.to_nat (sim_Nx s m)) by (unfold sim_Nx; lia).
  split; do 2 eexists; [apply fourier_plane_padded_grid_is; assumption|apply image_grid_of_is; exact Hp].
Qed.
Lemma refine_offset k n : (0 < k)%nat -> (k * (n / 2) <= (k * n) / 2 < k * (n / 2) + k)%nat.
Proof.
  intros Hk. assert (E := Nat.div_mod n 2 ltac:(lia)). assert (M := Nat.mod_upper_bound n 2 ltac:(lia)).
  assert (E' := Nat.div_mod (k * n) 2 ltac:(lia)). assert (M' := Nat.mod_upper_bound (k * n) 2 ltac:(lia)).
  set (a := (n / 2)%nat) in *. set (b := (n mod 2)%nat) in *. set (c := ((k * n) / 2)%nat) in *. set (e := ((k * n) mod 2)%nat) in *. nia.
Qed.
Lemma image_grid_refines s m (kx ky : nat) X Y X' Y' : pixel_size s <> 0 -> (0 < kx)%nat -> (0 < ky)%nat ->
  sim_Nx s m = Z.of_nat (kx * s_Nx s) -> sim_Ny s m = Z.of_nat (ky * s_Ny s) ->
  grid_is (image_plane_grid s) (s_Ny s) (s_Nx s) X Y ->
  grid_is (image_plane_padded_grid s m) (ky * s_Ny s) (kx * s_Nx s) X' Y' ->
  exists oy ox, (oy < ky)%nat /\ (ox < kx)%nat /\
  forall u v, (u < s_Ny s)%nat -> (v < s_Nx s)%nat ->
    (ky * u + oy < ky * s_Ny s)%nat /\ (kx * v + ox < kx * s_Nx s)%nat /\
    X' (ky * u + oy)%nat (kx * v + ox)%nat = X u v /\ Y' (ky * u + oy)%nat (kx * v + ox)%nat = Y u v.
Proof.
  intros Hp Hkx Hky Ex Ey G G'.
  assert (Rx := refine_offset kx (s_Nx s) Hkx). assert (Ry := refine_offset ky (s_Ny s) Hky).
  exists ((ky * s_Ny s) / 2 - ky * (s_Ny s / 2))%nat, ((kx * s_Nx s) / 2 - kx * (s_Nx s / 2))%nat.
  set (oy := (_ - ky * _)%nat). set (ox := (_ - kx * _)%nat).
  assert (Hoy : (oy < ky)%nat) by lia. assert (Hox : (ox < kx)%nat) by lia.
  split; [exact Hoy|]. split; [exact Hox|]. intros u v Hu Hv.
  assert (Bu : (ky * u + oy < ky * s_Ny s)%nat) by nia. assert (Bv : (kx * v + ox < kx * s_Nx s)%nat) by nia.
  split; [exact Bu|]. split; [exact Bv|].
  destruct (grid_is_get _ _ _ _ _ u v G Hu Hv) as [<- <-].
  destruct (grid_is_get _ _ _ _ _ u v (image_plane_grid_is s Hp) Hu Hv) as [-> ->].
  destruct (grid_is_get _ _ _ _ _ _ _ G' Bu Bv) as [<- <-].
  unfold image_plane_padded_grid. rewrite Ex, Ey, !Nat2Z.id.
  destruct (grid_is_get _ _ _ _ _ _ _ (image_grid_of_is (kx * s_Nx s) (ky * s_Ny s) (pixel_size s) (scaling_factor s) Hp) Bu Bv) as [-> ->].
  unfold scaling_factor.
  assert (Ku : IZR (Z.of_nat (ky * u + oy) - Z.of_nat (ky * s_Ny s / 2)) = INR ky * IZR (Z.of_nat u - Z.of_nat (s_Ny s / 2))).
  { rewrite (INR_IZR_INZ ky), <- mult_IZR. f_equal. unfold oy. nia. }
  assert (Kv : IZR (Z.of_nat (kx * v + ox) - Z.of_nat (kx * s_Nx s / 2)) = INR kx * IZR (Z.of_nat v - Z.of_nat (s_Nx s / 2))).
  { rewrite (INR_IZR_INZ kx), <- mult_IZR. f_equal. unfold ox. nia. }
  rewrite Ku, Kv, !mult_INR. split; field; repeat split; try assumption; apply INR_neq_0; lia.
Qed.
