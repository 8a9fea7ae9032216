(** C116, C117: power of beams made of Hermite-Gauss and Laguerre-Gauss modes. *)
From Coq Require Import Reals Lra ZArith Arith List Bool Lia.
From Coquelicot Require Import Complex.
From Verif Require Import Cx Sums PyBase ProfileModel ProfSpec SlmModel LibModel DmdModel SimModel SimSpec ModeSpec HermSpec RingSpec GaussFacts OverlapSpec OverThms OverCase.
Import ListNotations.
Open Scope R_scope.

(** ** C116 *)
(** The power of a HermiteGaussian(x0, y0, a, w, n, k) beam, and of any beam that is a finite sum of such modes: the powers of the modes add. *)
Theorem C116_hermite_gaussian_power : forall h dev m x0 y0 a w n k c S, let s := dev_slm dev in
  0 < w -> 0 < pixel_size s -> (0 < s_Nx s)%nat -> (0 < s_Ny s)%nat -> scaling_factor s <> 0 -> (0 <= pad_x m)%Z -> (0 <= pad_y m)%Z ->
  Rabs x0 <= INR (s_Nx s) / 2 * pixel_size s -> Rabs y0 <= INR (s_Ny s) / 2 * pixel_size s ->
  full_state dev S -> (forall i j, (i < s_Ny s)%nat -> (j < s_Nx s)%nat -> S i j = c) ->
  exists h1 p m' P, hg_new h x0 y0 a w (Z.of_nat n) (Z.of_nat k) = Ok (h1, p) /\ propagate_to_image h1 dev m (AProf p) = (m', Ok tt) /\
  get_input_power s m' = Ok P /\ get_output_power s m' = Ok (Cmod c ^ 2 * P) /\ get_image_plane_power s m' = Ok (Cmod c ^ 2 * P) /\
  Rabs (P - PI * a ^ 2 * w ^ 2 / 2 * (2 ^ (n + k) * INR (fact n * fact k))) <= a ^ 2 * panel_error (pixel_size s) (s_Ny s) (s_Nx s) x0 y0 w n k n k.
Proof. exact hermite_power. Qed.
Print Assumptions C116_hermite_gaussian_power.
Theorem C116_powers_of_modes_add : forall h dev m b F N M (a : nat -> nat -> C) x0 y0 w c S, let s := dev_slm dev in
  full_input h s b F -> (forall i j, (i < s_Ny s)%nat -> (j < s_Nx s)%nat -> F i j = csum2 N M (fun n k => a n k * RtoC (hg_mode x0 y0 1 w n k ((INR j - INR (s_Nx s) / 2) * pixel_size s) ((INR (s_Ny s) / 2 - INR i) * pixel_size s)))%C) ->
  0 < w -> 0 < pixel_size s -> (0 < s_Nx s)%nat -> (0 < s_Ny s)%nat -> scaling_factor s <> 0 -> (0 <= pad_x m)%Z -> (0 <= pad_y m)%Z ->
  Rabs x0 <= INR (s_Nx s) / 2 * pixel_size s -> Rabs y0 <= INR (s_Ny s) / 2 * pixel_size s ->
  full_state dev S -> (forall i j, (i < s_Ny s)%nat -> (j < s_Nx s)%nat -> S i j = c) ->
  exists m' P, propagate_to_image h dev m b = (m', Ok tt) /\ get_input_power s m' = Ok P /\ get_output_power s m' = Ok (Cmod c ^ 2 * P) /\ get_image_plane_power s m' = Ok (Cmod c ^ 2 * P) /\
  Rabs (P - PI * w ^ 2 / 2 * rsum2 N M (fun n k => 2 ^ (n + k) * INR (fact n * fact k) * Cmod (a n k) ^ 2)) <=
  rsum2 N M (fun n k => rsum2 N M (fun n' k' => Cmod (a n k) * Cmod (a n' k') * panel_error (pixel_size s) (s_Ny s) (s_Nx s) x0 y0 w n k n' k')).
Proof. exact superposition_power. Qed.
Print Assumptions C116_powers_of_modes_add.
(** ** C117 *)
(** The power of a LaguerreGaussian beam; the sum of two different ones of the same waist and centre has the sum of their powers. *)
Theorem C117_laguerre_gaussian_power : forall h dev m x0 y0 a w l p c S, let s := dev_slm dev in
  0 < w -> 0 < pixel_size s -> (0 < s_Nx s)%nat -> (0 < s_Ny s)%nat -> scaling_factor s <> 0 -> (0 <= pad_x m)%Z -> (0 <= pad_y m)%Z ->
  Rabs x0 <= INR (s_Nx s) / 2 * pixel_size s -> Rabs y0 <= INR (s_Ny s) / 2 * pixel_size s ->
  full_state dev S -> (forall i j, (i < s_Ny s)%nat -> (j < s_Nx s)%nat -> S i j = c) ->
  exists h1 b m' P, lg_new h x0 y0 a w l (Z.of_nat p) = Ok (h1, b) /\ propagate_to_image h1 dev m (AProf b) = (m', Ok tt) /\
  get_input_power s m' = Ok P /\ get_output_power s m' = Ok (Cmod c ^ 2 * P) /\ get_image_plane_power s m' = Ok (Cmod c ^ 2 * P) /\
  Rabs (P - lg_power a w l p) <= lg_error (panel_error (pixel_size s) (s_Ny s) (s_Nx s) x0 y0 w) a l p a l p.
Proof. exact laguerre_power. Qed.
Print Assumptions C117_laguerre_gaussian_power.
Theorem C117_different_beams_add : forall h dev m x0 y0 w a l p a' l' p' c S, let s := dev_slm dev in
  (l <> l' \/ p <> p') -> 0 < w -> 0 < pixel_size s -> (0 < s_Nx s)%nat -> (0 < s_Ny s)%nat -> scaling_factor s <> 0 -> (0 <= pad_x m)%Z -> (0 <= pad_y m)%Z ->
  Rabs x0 <= INR (s_Nx s) / 2 * pixel_size s -> Rabs y0 <= INR (s_Ny s) / 2 * pixel_size s ->
  full_state dev S -> (forall i j, (i < s_Ny s)%nat -> (j < s_Nx s)%nat -> S i j = c) ->
  exists h1 b1 h2 b2 r m' P, lg_new h x0 y0 a w l (Z.of_nat p) = Ok (h1, b1) /\ lg_new h1 x0 y0 a' w l' (Z.of_nat p') = Ok (h2, b2) /\ p_binop Oadd h2 b1 (OProf b2) = (h2, Ok r) /\
  propagate_to_image h2 dev m (AProf r) = (m', Ok tt) /\
  get_input_power s m' = Ok P /\ get_output_power s m' = Ok (Cmod c ^ 2 * P) /\ get_image_plane_power s m' = Ok (Cmod c ^ 2 * P) /\
  let E := lg_error (panel_error (pixel_size s) (s_Ny s) (s_Nx s) x0 y0 w) in
  Rabs (P - (lg_power a w l p + lg_power a' w l' p')) <= E a l p a l p + E a' l' p' a' l' p' + 2 * E a l p a' l' p'.
Proof. exact laguerre_sum. Qed.
Print Assumptions C117_different_beams_add.
Theorem C117_vortex_on_a_DLP9500 : forall h wl fl per th neg m a (left : bool), wl * fl <> 0 -> (0 <= pad_x m)%Z -> (0 <= pad_y m)%Z ->
  let d := set_dmd_state_on (DLP9500 wl fl per th neg) in let w := 1 / 1000 in let l := if left then (-1)%Z else 1%Z in
  exists h1 p m' P, lg_new h 0 0 a w l 0 = Ok (h1, p) /\ propagate_to_image h1 (DevDmd d) m (AProf p) = (m', Ok tt) /\ get_input_power (d_slm d) m' = Ok P /\ get_image_plane_power (d_slm d) m' = Ok P /\
  Rabs (P - 0.5 * PI * a ^ 2 * w ^ 2) <= 0.02 * (0.5 * PI * a ^ 2 * w ^ 2).
Proof. exact vortex_power. Qed.
Print Assumptions C117_vortex_on_a_DLP9500.
(** The hypotheses hold for a DMD switched on by set_dmd_state_on; the values for the mode (2, 1), and for l = -2, p = 1. *)
Example C116_case : let s := d_slm (DLP9500 1 1 4 0 false) in
  full_state (DevDmd (set_dmd_state_on (DLP9500 1 1 4 0 false))) (fun _ _ => RtoC 1) /\ Rabs (1 / 1000) <= INR (s_Nx s) / 2 * pixel_size s /\ Rabs 0 <= INR (s_Ny s) / 2 * pixel_size s /\ 0 < pixel_size s /\ scaling_factor s <> 0 /\
  mode_overlap 2 1 2 1 1 = 8 * PI /\ mode_overlap 2 1 1 2 1 = 0.
Proof.
  assert (EX : INR 1920 = 1920) by (rewrite INR_IZR_INZ; reflexivity). assert (EY : INR 1080 = 1080) by (rewrite INR_IZR_INZ; reflexivity).
  cbv zeta. split; [exact (on_state _)|]. change (s_Nx _) with 1920%nat. change (s_Ny _) with 1080%nat. rewrite EX, EY, Rabs_R0, Rabs_pos_eq by lra. unfold scaling_factor, mode_overlap. cbn. unfold micro. repeat apply conj; lra.
Qed.
Example C117_case : lg_power 1 1 (-2) 1 = 3 * PI /\ ring_scale 1 2 = 16 /\ ((-2)%Z <> 2%Z \/ 1%nat <> 1%nat) /\
  rings_abs 0 1 (fun n m => rings_abs 0 1 (fun n' m' => mode_overlap n m n' m' 1)) = 2 * PI.
Proof. unfold lg_power, ring_scale, mode_overlap. change (Z.abs_nat (-2)) with 2%nat. cbn. repeat apply conj; try lra. left. discriminate. Qed.
