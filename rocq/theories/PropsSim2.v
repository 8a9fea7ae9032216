(** C60-C63: the image-plane field as samples of one function of position. *)
From Coq Require Import Reals Lra ZArith Arith List Bool Lia.
From Coquelicot Require Import Complex.
From Verif Require Import Cx Sums DFT PyBase ProfileModel SlmModel LibModel DmdModel SimModel SimSpec GridFacts GridFacts2 SimFacts SimFacts2 SimFacts4 SimExamples.
Import ListNotations.
Open Scope R_scope.

(** ** C60 *)
Theorem C60_padding_keeps_field : forall h dev a F S m1 m2 m1' m2' I1 I2 X1 Y1 X2 Y2,
  let s := dev_slm dev in
  full_input h s a F -> full_state dev S ->
  propagate_to_image h dev m1 a = (m1', Ok tt) -> propagate_to_image h dev m2 a = (m2', Ok tt) ->
  (0 < s_Nx s)%nat -> (0 < s_Ny s)%nat -> pixel_size s <> 0 ->
  grid_is (image_plane_padded_grid s m1) (NY s m1) (NX s m1) X1 Y1 ->
  grid_is (image_plane_padded_grid s m2) (NY s m2) (NX s m2) X2 Y2 ->
  field_is (f_image m1') (NY s m1) (NX s m1) I1 -> field_is (f_image m2') (NY s m2) (NX s m2) I2 ->
  forall u v u' v', (u < NY s m1)%nat -> (v < NX s m1)%nat -> (u' < NY s m2)%nat -> (v' < NX s m2)%nat ->
  X1 u v = X2 u' v' -> Y1 u v = Y2 u' v' -> I1 u v = I2 u' v'.
Proof. exact padding_keeps_field. Qed.
Print Assumptions C60_padding_keeps_field.
(** A 3 x 2 device without padding and with padding 3 and 1: an off-axis point of the one is a point of the other. *)
Definition ex_sim_bare : sim := {| pad_x := 0; pad_y := 0; f_input := None; f_output := None; f_image := None |}.
Definition ex_sim_fine : sim := {| pad_x := 3; pad_y := 1; f_input := None; f_output := None; f_image := None |}.
Example C60_case : exists m1 m2 X1 Y1 X2 Y2, let s := d_slm ex_dmd in
  propagate_to_image ex_heap (DevDmd ex_dmd) ex_sim_bare ex_input = (m1, Ok tt) /\
  propagate_to_image ex_heap (DevDmd ex_dmd) ex_sim_fine ex_input = (m2, Ok tt) /\
  grid_is (image_plane_padded_grid s ex_sim_bare) 2 3 X1 Y1 /\ grid_is (image_plane_padded_grid s ex_sim_fine) 4 9 X2 Y2 /\
  X1 0%nat 2%nat = X2 0%nat 7%nat /\ Y1 0%nat 2%nat = Y2 0%nat 7%nat /\ X1 0%nat 2%nat <> 0 /\ Y1 0%nat 2%nat <> 0.
Proof.
  assert (HS := state_bool ex_dmd _ eq_refl). destruct (ex_runs (DevDmd ex_dmd) _ HS eq_refl) as (H1 & _).
  destruct (propagate_succeeds _ _ ex_sim_bare _ _ _ H1 HS) as [m1 P1]; [cbn; lia|cbn; lia|unfold scaling_factor; cbn; lra|].
  destruct (propagate_succeeds _ _ ex_sim_fine _ _ _ H1 HS) as [m2 P2]; [cbn; lia|cbn; lia|unfold scaling_factor; cbn; lra|].
  exists m1, m2. do 4 eexists. cbv zeta. split; [exact P1|]. split; [exact P2|].
  assert (Hps : pixel_size (d_slm ex_dmd) <> 0) by (cbn; lra).
  split; [exact (image_grid_of_is 3 2 _ _ Hps)|]. split; [exact (image_grid_of_is 9 4 _ _ Hps)|].
  cbv beta. unfold scaling_factor. cbn. repeat split; lra.
Qed.

(** ** C61 *)
Theorem C61_tilt_moves_image : forall h1 h2 dev a1 a2 F1 F2 S m1 m2 m1' m2' I1 I2 x y X1 Y1 X2 Y2 a b,
  let s := dev_slm dev in
  full_input h1 s a1 F1 -> full_input h2 s a2 F2 -> full_state dev S ->
  (0 < s_Nx s)%nat -> (0 < s_Ny s)%nat -> pixel_size s <> 0 ->
  grid_is (fourier_plane_grid s) (s_Ny s) (s_Nx s) x y ->
  (forall i j, (i < s_Ny s)%nat -> (j < s_Nx s)%nat -> F2 i j = (cis (2 * PI * (x i j * a + y i j * b) / (wavelength s * focal_length s)) * F1 i j)%C) ->
  propagate_to_image h1 dev m1 a1 = (m1', Ok tt) -> propagate_to_image h2 dev m2 a2 = (m2', Ok tt) ->
  grid_is (image_plane_padded_grid s m1) (NY s m1) (NX s m1) X1 Y1 ->
  grid_is (image_plane_padded_grid s m2) (NY s m2) (NX s m2) X2 Y2 ->
  field_is (f_image m1') (NY s m1) (NX s m1) I1 -> field_is (f_image m2') (NY s m2) (NX s m2) I2 ->
  exists k, Cmod k = 1 /\ (Nat.even (s_Nx s) = true -> Nat.even (s_Ny s) = true -> k = RtoC 1) /\
  forall u v u' v', (u < NY s m1)%nat -> (v < NX s m1)%nat -> (u' < NY s m2)%nat -> (v' < NX s m2)%nat ->
  X2 u' v' = X1 u v - a -> Y2 u' v' = Y1 u v - b -> I2 u' v' = (k * I1 u v)%C.
Proof. exact tilt_moves. Qed.
Print Assumptions C61_tilt_moves_image.
(** A tilt of one image pixel: the point right of the axis moves onto the axis. *)
Example C61_case : exists a F2 m1 m2 x y X Y, let s := d_slm ex_dmd in
  grid_is (fourier_plane_grid s) 2 3 x y /\
  (forall i j, (i < 2)%nat -> (j < 3)%nat -> F2 i j = (cis (2 * PI * (x i j * a + y i j * 0) / (wavelength s * focal_length s)) * ex_field i j)%C) /\
  full_input ex_heap s (AConstC (T2 2 3 F2)) F2 /\
  propagate_to_image ex_heap (DevDmd ex_dmd) ex_sim_bare ex_input = (m1, Ok tt) /\
  propagate_to_image ex_heap (DevDmd ex_dmd) ex_sim_bare (AConstC (T2 2 3 F2)) = (m2, Ok tt) /\
  grid_is (image_plane_padded_grid s ex_sim_bare) 2 3 X Y /\
  X 0%nat 1%nat = X 0%nat 2%nat - a /\ Y 0%nat 1%nat = Y 0%nat 2%nat - 0 /\ a <> 0.
Proof.
  assert (HS := state_bool ex_dmd _ eq_refl). destruct (ex_runs (DevDmd ex_dmd) _ HS eq_refl) as (H1 & _).
  destruct (propagate_succeeds _ _ ex_sim_bare _ _ _ H1 HS) as [m1 P1]; [cbn; lia|cbn; lia|unfold scaling_factor; cbn; lra|].
  set (s := d_slm ex_dmd). set (a := scaling_factor s / (3 * pixel_size s)).
  set (x := fun i j : nat => (INR j - INR (s_Nx s) / 2) * pixel_size s). set (y := fun i j : nat => (INR (s_Ny s) / 2 - INR i) * pixel_size s).
  set (F2 := fun i j => (cis (2 * PI * (x i j * a + y i j * 0) / (wavelength s * focal_length s)) * ex_field i j)%C).
  assert (HF2 : full_input ex_heap s (AConstC (T2 2 3 F2)) F2) by reflexivity.
  destruct (propagate_succeeds _ (DevDmd ex_dmd) ex_sim_bare _ _ _ HF2 HS) as [m2 P2]; [cbn; lia|cbn; lia|unfold scaling_factor; cbn; lra|].
  exists a, F2, m1, m2, x, y. do 2 eexists. cbv zeta. split; [exact (fourier_plane_grid_is s)|]. split; [reflexivity|].
  split; [exact HF2|]. split; [exact P1|]. split; [exact P2|].
  assert (Hps : pixel_size (d_slm ex_dmd) <> 0) by (cbn; lra).
  split; [exact (image_grid_of_is 3 2 _ _ Hps)|]. cbv beta. subst a s. unfold scaling_factor. cbn. repeat split; lra.
Qed.

(** ** C62 *)
Theorem C62_real_field_symmetric : forall h dev m a F S m' I X Y,
  let s := dev_slm dev in
  full_input h s a F -> full_state dev S -> propagate_to_image h dev m a = (m', Ok tt) ->
  (0 < s_Nx s)%nat -> (0 < s_Ny s)%nat -> pixel_size s <> 0 ->
  (forall i j, (i < s_Ny s)%nat -> (j < s_Nx s)%nat -> snd (F i j * S i j)%C = 0) ->
  grid_is (image_plane_padded_grid s m) (NY s m) (NX s m) X Y -> field_is (f_image m') (NY s m) (NX s m) I ->
  forall u v u' v', (u < NY s m)%nat -> (v < NX s m)%nat -> (u' < NY s m)%nat -> (v' < NX s m)%nat ->
  X u' v' = - X u v -> Y u' v' = - Y u v -> I u' v' = (fst (I u v), - snd (I u v)).
Proof. exact real_field_symmetric. Qed.
Print Assumptions C62_real_field_symmetric.
Theorem C62_dmd_orders_symmetric : forall h d m a F b m' I X Y,
  full_input h (d_slm d) a (fun i j => RtoC (F i j)) -> d_state d = DBool (s_Ny (d_slm d)) (s_Nx (d_slm d)) b ->
  propagate_to_image h (DevDmd d) m a = (m', Ok tt) ->
  (0 < s_Nx (d_slm d))%nat -> (0 < s_Ny (d_slm d))%nat -> pixel_size (d_slm d) <> 0 ->
  grid_is (image_plane_padded_grid (d_slm d) m) (NY (d_slm d) m) (NX (d_slm d) m) X Y -> field_is (f_image m') (NY (d_slm d) m) (NX (d_slm d) m) I ->
  forall u v u' v', (u < NY (d_slm d) m)%nat -> (v < NX (d_slm d) m)%nat -> (u' < NY (d_slm d) m)%nat -> (v' < NX (d_slm d) m)%nat ->
  X u' v' = - X u v -> Y u' v' = - Y u v -> Cmod (I u' v') = Cmod (I u v).
Proof. exact dmd_orders_symmetric. Qed.
Print Assumptions C62_dmd_orders_symmetric.
Example C62_case : exists m' X Y, let F := fun i j => RtoC (INR i - 2 * INR j) in let s := d_slm ex_dmd in
  full_input ex_heap s (AConstC (T2 2 3 F)) F /\ propagate_to_image ex_heap (DevDmd ex_dmd) ex_sim (AConstC (T2 2 3 F)) = (m', Ok tt) /\
  grid_is (image_plane_padded_grid s ex_sim) 6 5 X Y /\
  X 1%nat 0%nat = - X 5%nat 4%nat /\ Y 1%nat 0%nat = - Y 5%nat 4%nat /\ X 1%nat 0%nat <> 0 /\ Y 1%nat 0%nat <> 0.
Proof.
  assert (HS := state_bool ex_dmd _ eq_refl).
  destruct (propagate_succeeds ex_heap (DevDmd ex_dmd) ex_sim (AConstC (T2 2 3 (fun i j => RtoC (INR i - 2 * INR j)))) _ _ eq_refl HS) as [m' P];
    [cbn; lia|cbn; lia|unfold scaling_factor; cbn; lra|].
  assert (Hps : pixel_size (d_slm ex_dmd) <> 0) by (cbn; lra).
  exists m'. do 2 eexists. cbv zeta. split; [reflexivity|]. split; [exact P|]. split; [exact (image_grid_of_is 5 6 _ _ Hps)|].
  cbv beta. unfold scaling_factor. cbn. repeat split; lra.
Qed.

(** ** C63 *)
Theorem C63_axis_and_bound : forall h dev m a F S m' I X Y,
  let s := dev_slm dev in
  full_input h s a F -> full_state dev S -> propagate_to_image h dev m a = (m', Ok tt) ->
  (0 < s_Nx s)%nat -> (0 < s_Ny s)%nat -> pixel_size s <> 0 ->
  grid_is (image_plane_padded_grid s m) (NY s m) (NX s m) X Y -> field_is (f_image m') (NY s m) (NX s m) I ->
  forall u v, (u < NY s m)%nat -> (v < NX s m)%nat ->
  Cmod (I u v) <= Rabs (pixel_size s ^ 2 / (wavelength s * focal_length s)) * rsum2 (s_Ny s) (s_Nx s) (fun i j => Cmod (F i j * S i j)%C) /\
  (X u v = 0 -> Y u v = 0 -> I u v = (RtoC (pixel_size s ^ 2 / (wavelength s * focal_length s)) * csum2 (s_Ny s) (s_Nx s) (fun i j => F i j * S i j))%C).
Proof. exact axis_value. Qed.
Print Assumptions C63_axis_and_bound.
(** The axis is sampled: at pixel (NY/2, NX/2), whatever the sizes. *)
Theorem C63_axis_sampled : forall s m X Y, pixel_size s <> 0 -> (0 < s_Nx s)%nat -> (0 < s_Ny s)%nat -> (0 <= pad_x m)%Z -> (0 <= pad_y m)%Z ->
  grid_is (image_plane_padded_grid s m) (NY s m) (NX s m) X Y ->
  exists u v, (u < NY s m)%nat /\ (v < NX s m)%nat /\ X u v = 0 /\ Y u v = 0.
Proof. exact axis_sampled. Qed.
Print Assumptions C63_axis_sampled.
Example C63_case : exists m' X Y, let s := d_slm ex_dmd in
  full_input ex_heap s ex_input ex_field /\ propagate_to_image ex_heap (DevDmd ex_dmd) ex_sim ex_input = (m', Ok tt) /\
  grid_is (image_plane_padded_grid s ex_sim) 6 5 X Y /\ X 3%nat 2%nat = 0 /\ Y 3%nat 2%nat = 0.
Proof.
  assert (HS := state_bool ex_dmd _ eq_refl). destruct (ex_runs (DevDmd ex_dmd) _ HS eq_refl) as (H1 & (m' & H2) & _).
  assert (Hps : pixel_size (d_slm ex_dmd) <> 0) by (cbn; lra).
  exists m'. do 2 eexists. cbv zeta. split; [exact H1|]. split; [exact H2|]. split; [exact (image_grid_of_is 5 6 _ _ Hps)|].
  cbv beta. unfold scaling_factor. cbn. split; lra.
Qed.
