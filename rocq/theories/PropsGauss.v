(** Properties C91, C92: a Gaussian beam on a uniformly set device. *)
From Coq Require Import Reals Lra ZArith Arith List Bool Lia.
From Coquelicot Require Import Complex.
From Verif Require Import Cx Sums PyBase ProfileModel SlmModel LibModel DmdModel SimModel SimSpec GaussSpec GaussFacts.
Open Scope R_scope.

(** ** C91 *)
(** A HermiteGaussian(x0, y0, a, w) beam on a device of uniform transmission c (1: all mirrors on) is simulated, at every pixel of the image plane and for any padding,
    as the Gaussian of waist lambda f / (PI w) and amplitude a w / waist, times the phase ramp of the displacement of the beam, up to an explicit error. *)
Theorem C91_gaussian_image : forall h dev m x0 y0 a w c S X Y,
  let s := dev_slm dev in
  0 < w -> 0 < pixel_size s -> (0 < s_Nx s)%nat -> (0 < s_Ny s)%nat -> scaling_factor s <> 0 -> (0 <= pad_x m)%Z -> (0 <= pad_y m)%Z ->
  Rabs x0 <= INR (s_Nx s) / 2 * pixel_size s -> Rabs y0 <= INR (s_Ny s) / 2 * pixel_size s ->
  full_state dev S -> (forall i j, (i < s_Ny s)%nat -> (j < s_Nx s)%nat -> S i j = c) ->
  grid_is (image_plane_padded_grid s m) (NY s m) (NX s m) X Y ->
  exists h1 p m' I, hg_new h x0 y0 a w 0 0 = Ok (h1, p) /\ propagate_to_image h1 dev m (AProf p) = (m', Ok tt) /\ field_is (f_image m') (NY s m) (NX s m) I /\
  let waist := wavelength s * focal_length s / (PI * w) in
  forall u v, (u < NY s m)%nat -> (v < NX s m)%nat ->
  Cmod (I u v - c * odd_phase (NY s m) (NX s m) u v * cis (2 * PI * (x0 * X u v + y0 * Y u v) / scaling_factor s)
                * RtoC (a * (w / waist) * exp (- (X u v ^ 2 + Y u v ^ 2) / waist ^ 2)))%C
  <= Cmod c * Rabs a / Rabs (scaling_factor s) *
     plane_error w (axis_error (pixel_size s) (INR (s_Ny s) / 2 * pixel_size s) y0 w (2 * PI * Y u v / scaling_factor s))
                   (axis_error (pixel_size s) (INR (s_Nx s) / 2 * pixel_size s) x0 w (2 * PI * X u v / scaling_factor s)).
Proof. exact gauss_image. Qed.
Print Assumptions C91_gaussian_image.
(** The bound is a small one: a beam of waist 1 mm on a DLP9500 with all mirrors on peaks within 3 % of a w / waist. *)
Theorem C91_peak_on_a_DLP9500 : forall h wl fl per th neg m a X Y, wl * fl <> 0 -> (0 <= pad_x m)%Z -> (0 <= pad_y m)%Z ->
  let d := set_dmd_state_on (DLP9500 wl fl per th neg) in let s := d_slm d in let w := 1 / 1000 in
  grid_is (image_plane_padded_grid s m) (NY s m) (NX s m) X Y ->
  exists h1 p m' I, hg_new h 0 0 a w 0 0 = Ok (h1, p) /\ propagate_to_image h1 (DevDmd d) m (AProf p) = (m', Ok tt) /\ field_is (f_image m') (NY s m) (NX s m) I /\
  forall u v, (u < NY s m)%nat -> (v < NX s m)%nat -> X u v = 0 -> Y u v = 0 ->
  let peak := Rabs (a * (w / (wl * fl / (PI * w)))) in Rabs (Cmod (I u v) - peak) <= 0.03 * peak.
Proof. exact axis_case. Qed.
Print Assumptions C91_peak_on_a_DLP9500.
(** Non-trivial: the axis is a pixel of the image plane of an unpadded DLP9500. *)
Example C91_case : exists X Y, let s := d_slm (set_dmd_state_on (DLP9500 1 1 4 0 false)) in let m := {| pad_x := 0; pad_y := 0; f_input := None; f_output := None; f_image := None |} in
  grid_is (image_plane_padded_grid s m) (NY s m) (NX s m) X Y /\ exists u v, (u < NY s m)%nat /\ (v < NX s m)%nat /\ X u v = 0 /\ Y u v = 0.
Proof. exact axis_pixel. Qed.

(** ** C92 *)
(** The power reported for that beam is PI a^2 w^2 / 2 up to an explicit error of second order in the pixel pitch; output and image power are |c|^2 times it. *)
Theorem C92_gaussian_power : forall h dev m x0 y0 a w c S,
  let s := dev_slm dev in
  0 < w -> 0 < pixel_size s -> scaling_factor s <> 0 -> (0 <= pad_x m)%Z -> (0 <= pad_y m)%Z ->
  Rabs x0 < INR (s_Nx s) / 2 * pixel_size s -> Rabs y0 < INR (s_Ny s) / 2 * pixel_size s ->
  full_state dev S -> (forall i j, (i < s_Ny s)%nat -> (j < s_Nx s)%nat -> S i j = c) ->
  let w' := w / sqrt 2 in let e := plane_error w' (span_error (pixel_size s) (INR (s_Ny s) / 2 * pixel_size s) y0 w') (span_error (pixel_size s) (INR (s_Nx s) / 2 * pixel_size s) x0 w') in
  exists h1 p m' P, hg_new h x0 y0 a w 0 0 = Ok (h1, p) /\ propagate_to_image h1 dev m (AProf p) = (m', Ok tt) /\
  get_input_power s m' = Ok P /\ get_output_power s m' = Ok (Cmod c ^ 2 * P) /\ get_image_plane_power s m' = Ok (Cmod c ^ 2 * P) /\
  Rabs (P - PI * a ^ 2 * w ^ 2 / 2) <= a ^ 2 * e.
Proof. exact gauss_power. Qed.
Print Assumptions C92_gaussian_power.
(** test_get_input_power of the repository, for every amplitude, wavelength, focal length, grating and padding (the test uses one of each). *)
Theorem C92_unit_test : forall h wl fl per th neg m a, wl * fl <> 0 -> (0 <= pad_x m)%Z -> (0 <= pad_y m)%Z ->
  let d := DLP9500 wl fl per th neg in let w := 3 / 1000 in
  exists h1 p m' P, hg_new h 0 0 a w 0 0 = Ok (h1, p) /\ propagate_to_image h1 (DevDmd d) m (AProf p) = (m', Ok tt) /\ get_input_power (d_slm d) m' = Ok P /\
  Rabs (P - 0.5 * PI * a ^ 2 * w ^ 2) <= 0.001 * (0.5 * PI * a ^ 2 * w ^ 2).
Proof. exact test_input_power. Qed.
Print Assumptions C92_unit_test.
(** The hypotheses of C91 and C92 hold for a DMD switched on by set_dmd_state_on. *)
Example C92_case : let s := d_slm (DLP9500 1 1 4 0 false) in
  full_state (DevDmd (set_dmd_state_on (DLP9500 1 1 4 0 false))) (fun _ _ => RtoC 1) /\ Rabs (1 / 1000) < INR (s_Nx s) / 2 * pixel_size s /\ Rabs 0 < INR (s_Ny s) / 2 * pixel_size s /\ scaling_factor s <> 0.
Proof.
  assert (EX : INR 1920 = 1920) by (rewrite INR_IZR_INZ; reflexivity). assert (EY : INR 1080 = 1080) by (rewrite INR_IZR_INZ; reflexivity).
  cbv zeta. split; [exact (on_state _)|]. change (s_Nx _) with 1920%nat. change (s_Ny _) with 1080%nat. rewrite EX, EY, Rabs_R0, Rabs_pos_eq by lra. unfold scaling_factor. cbn. unfold micro. lra.
Qed.
