(** C113: a Hermite-Gauss beam has a Hermite-Gauss image. *)
From Coq Require Import Reals Lra ZArith Arith List Bool Lia.
From Coquelicot Require Import Complex.
From Verif Require Import Cx Sums PyBase ProfileModel ProfSpec SlmModel LibModel DmdModel SimModel SimSpec ModeSpec HermSpec HermFacts HermCase.
Import ListNotations.
Open Scope R_scope.

(** ** C113 *)
Theorem C113_hermite_gaussian_image : forall h dev m x0 y0 a w n n' c S X Y, let s := dev_slm dev in
  0 < w -> 0 < pixel_size s -> (0 < s_Nx s)%nat -> (0 < s_Ny s)%nat -> scaling_factor s <> 0 -> (0 <= pad_x m)%Z -> (0 <= pad_y m)%Z ->
  Rabs x0 <= INR (s_Nx s) / 2 * pixel_size s -> Rabs y0 <= INR (s_Ny s) / 2 * pixel_size s ->
  full_state dev S -> (forall i j, (i < s_Ny s)%nat -> (j < s_Nx s)%nat -> S i j = c) ->
  grid_is (image_plane_padded_grid s m) (NY s m) (NX s m) X Y ->
  exists h1 p m' I, hg_new h x0 y0 a w (Z.of_nat n) (Z.of_nat n') = Ok (h1, p) /\ propagate_to_image h1 dev m (AProf p) = (m', Ok tt) /\ field_is (f_image m') (NY s m) (NX s m) I /\
  let waist := wavelength s * focal_length s / (PI * w) in
  forall u v, (u < NY s m)%nat -> (v < NX s m)%nat ->
  Cmod (I u v - c * odd_phase (NY s m) (NX s m) u v * cis (2 * PI * (x0 * X u v + y0 * Y u v) / scaling_factor s + INR (n + n') * (PI / 2))
                * RtoC (hg_mode 0 0 (a * (w / waist)) waist n n' (X u v) (Y u v)))%C
  <= Cmod c * Rabs a / Rabs (scaling_factor s) *
     product_error (sqrt PI * w * sup0 n') (sqrt PI * w * sup0 n)
       (hg_axis_error n' (pixel_size s) (INR (s_Ny s) / 2 * pixel_size s) y0 w (2 * PI * Y u v / scaling_factor s))
       (hg_axis_error n (pixel_size s) (INR (s_Nx s) / 2 * pixel_size s) x0 w (2 * PI * X u v / scaling_factor s)).
Proof. exact hg_image. Qed.
Print Assumptions C113_hermite_gaussian_image.
Theorem C113_bounded : forall h x0 y0 a w n m, w <> 0 -> exists h1 p, hg_new h x0 y0 a w (Z.of_nat n) (Z.of_nat m) = Ok (h1, p) /\
  forall x y, exists z, gives h1 p x y z false /\ Cmod z <= Rabs a * (sup0 n * sup0 m).
Proof. exact hg_bounded. Qed.
Print Assumptions C113_bounded.
Theorem C113_two_lobes_on_a_DLP9500 : forall h wl fl per th neg m a X Y, wl * fl <> 0 -> (0 <= pad_x m)%Z -> (0 <= pad_y m)%Z ->
  let d := set_dmd_state_on (DLP9500 wl fl per th neg) in let s := d_slm d in let w := 1 / 1000 in let waist := wl * fl / (PI * w) in
  grid_is (image_plane_padded_grid s m) (NY s m) (NX s m) X Y ->
  exists h1 p m' I, hg_new h 0 0 a w 1 0 = Ok (h1, p) /\ propagate_to_image h1 (DevDmd d) m (AProf p) = (m', Ok tt) /\ field_is (f_image m') (NY s m) (NX s m) I /\
  forall u v, (u < NY s m)%nat -> (v < NX s m)%nat -> Rabs (X u v) <= Rabs waist -> Rabs (Y u v) <= Rabs waist ->
  let b := a * (w / waist) in
  Cmod (I u v - Ci * odd_phase (NY s m) (NX s m) u v * RtoC (b * (2 * sqrt 2 * X u v / waist) * exp (- (X u v ^ 2 + Y u v ^ 2) / waist ^ 2)))%C <= 0.01 * Rabs b.
Proof. exact two_lobes. Qed.
Print Assumptions C113_two_lobes_on_a_DLP9500.
(** The hypotheses hold on a DLP9500 with the sampling grid of the simulator, and a pixel off the axis is within one waist. *)
Example C113_case : exists X Y, let s := d_slm (set_dmd_state_on (DLP9500 1 1 4 0 false)) in let m := {| pad_x := 0; pad_y := 0; f_input := None; f_output := None; f_image := None |} in
  grid_is (image_plane_padded_grid s m) (NY s m) (NX s m) X Y /\ let waist := 1 * 1 / (PI * (1 / 1000)) in
  exists u v, (u < NY s m)%nat /\ (v < NX s m)%nat /\ 0 < Rabs (X u v) <= Rabs waist /\ Rabs (Y u v) <= Rabs waist.
Proof. exact herm_case. Qed.
