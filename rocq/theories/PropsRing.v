(** C115: a Laguerre-Gauss beam has a Laguerre-Gauss image. *)
From Coq Require Import Reals Lra ZArith Arith List Bool Lia.
From Coquelicot Require Import Complex.
From Verif Require Import Cx Sums PyBase ProfileModel ProfSpec SlmModel LibModel DmdModel SimModel SimSpec ModeSpec HermSpec HermCase RingSpec RingAlg RingFacts RingCase.
Import ListNotations.
Open Scope R_scope.

(** ** C115 *)
Theorem C115_made_of_hermite_gauss : forall x0 y0 a w l p r phi, w <> 0 -> let q := Z.abs_nat l in
  lg_mode a w l p r phi = (RtoC (a / ring_norm p q) * rings (helix l) p q (fun n m => RtoC (hg_mode x0 y0 1 w n m (x0 + r * cos phi) (y0 + r * sin phi))))%C.
Proof. exact lg_rings. Qed.
Print Assumptions C115_made_of_hermite_gauss.
Theorem C115_laguerre_gaussian_image : forall h dev m x0 y0 a w l p c S X Y, let s := dev_slm dev in let q := Z.abs_nat l in
  0 < w -> 0 < pixel_size s -> (0 < s_Nx s)%nat -> (0 < s_Ny s)%nat -> scaling_factor s <> 0 -> (0 <= pad_x m)%Z -> (0 <= pad_y m)%Z ->
  Rabs x0 <= INR (s_Nx s) / 2 * pixel_size s -> Rabs y0 <= INR (s_Ny s) / 2 * pixel_size s ->
  full_state dev S -> (forall i j, (i < s_Ny s)%nat -> (j < s_Nx s)%nat -> S i j = c) ->
  grid_is (image_plane_padded_grid s m) (NY s m) (NX s m) X Y ->
  exists h1 b m' I, lg_new h x0 y0 a w l (Z.of_nat p) = Ok (h1, b) /\ propagate_to_image h1 dev m (AProf b) = (m', Ok tt) /\ field_is (f_image m') (NY s m) (NX s m) I /\
  let waist := wavelength s * focal_length s / (PI * w) in
  forall u v r phi, (u < NY s m)%nat -> (v < NX s m)%nat -> X u v = r * cos phi -> Y u v = r * sin phi ->
  Cmod (I u v - c * odd_phase (NY s m) (NX s m) u v * cis (2 * PI * (x0 * X u v + y0 * Y u v) / scaling_factor s + INR (2 * p + q) * (PI / 2))
                * lg_mode (a * (w / waist)) waist l p r phi)%C
  <= Cmod c * Rabs a / Rabs (scaling_factor s) / (4 ^ p * INR (fact p) * 2 ^ q) *
     rings_abs p q (fun n m => product_error (sqrt PI * w * sup0 m) (sqrt PI * w * sup0 n)
       (hg_axis_error m (pixel_size s) (INR (s_Ny s) / 2 * pixel_size s) y0 w (2 * PI * Y u v / scaling_factor s))
       (hg_axis_error n (pixel_size s) (INR (s_Nx s) / 2 * pixel_size s) x0 w (2 * PI * X u v / scaling_factor s))).
Proof. exact lg_image. Qed.
Print Assumptions C115_laguerre_gaussian_image.
Theorem C115_bounded : forall h x0 y0 a w l p, w <> 0 -> let q := Z.abs_nat l in exists h1 b, lg_new h x0 y0 a w l (Z.of_nat p) = Ok (h1, b) /\
  forall x y, exists z, gives h1 b x y z true /\ Cmod z <= Rabs a / (4 ^ p * INR (fact p) * 2 ^ q) * rings_abs p q (fun n m => sup0 n * sup0 m).
Proof. exact lg_bounded. Qed.
Print Assumptions C115_bounded.
Theorem C115_vortex_on_a_DLP9500 : forall h wl fl per th neg m a (left : bool) X Y, wl * fl <> 0 -> (0 <= pad_x m)%Z -> (0 <= pad_y m)%Z ->
  let d := set_dmd_state_on (DLP9500 wl fl per th neg) in let s := d_slm d in let w := 1 / 1000 in let waist := wl * fl / (PI * w) in
  let l := if left then (-1)%Z else 1%Z in
  grid_is (image_plane_padded_grid s m) (NY s m) (NX s m) X Y ->
  exists h1 p m' I, lg_new h 0 0 a w l 0 = Ok (h1, p) /\ propagate_to_image h1 (DevDmd d) m (AProf p) = (m', Ok tt) /\ field_is (f_image m') (NY s m) (NX s m) I /\
  forall u v, (u < NY s m)%nat -> (v < NX s m)%nat -> Rabs (X u v) <= Rabs waist -> Rabs (Y u v) <= Rabs waist ->
  let b := a * (w / waist) in
  Cmod (I u v - Ci * odd_phase (NY s m) (NX s m) u v * RtoC (b * exp (- (X u v ^ 2 + Y u v ^ 2) / waist ^ 2)) *
        (RtoC (sqrt 2 * X u v / waist) + (if left then Ci else - Ci) * RtoC (sqrt 2 * Y u v / waist)))%C <= 0.01 * Rabs b.
Proof. exact vortex_on_panel. Qed.
Print Assumptions C115_vortex_on_a_DLP9500.
(** The grid of the panel has pixels within one waist (as in C113); and two expansions written out. *)
Example C115_case : exists X Y, let s := d_slm (set_dmd_state_on (DLP9500 1 1 4 0 false)) in let m := {| pad_x := 0; pad_y := 0; f_input := None; f_output := None; f_image := None |} in
  grid_is (image_plane_padded_grid s m) (NY s m) (NX s m) X Y /\ let waist := 1 * 1 / (PI * (1 / 1000)) in
  exists u v, (u < NY s m)%nat /\ (v < NX s m)%nat /\ 0 < Rabs (X u v) <= Rabs waist /\ Rabs (Y u v) <= Rabs waist.
Proof. exact herm_case. Qed.
Example C115_expansions : forall e : nat -> nat -> C,
  rings (helix 2) 0 2 e = (e 2%nat 0%nat - RtoC 2 * Ci * e 1%nat 1%nat - e 0%nat 2%nat)%C /\ ring_norm 0 2 = 4 /\
  rings (helix 0) 1 0 e = (e 2%nat 0%nat + e 0%nat 2%nat)%C /\ ring_norm 1 0 = -4.
Proof.
  intros e. unfold ring_norm, helix. cbn [rings vortex pow fact INR Nat.mul Nat.add Z.ltb Z.compare]. assert (J : (Ci * Ci = - RtoC 1)%C) by (apply injective_projections; cbn; ring).
  split; [|repeat split; lra]. transitivity (e 2%nat 0%nat - (RtoC 1 + RtoC 1) * Ci * e 1%nat 1%nat + (Ci * Ci) * e 0%nat 2%nat)%C; [ring|]. rewrite J, <- RtoC_plus. replace (1 + 1) with 2 by lra. ring.
Qed.
