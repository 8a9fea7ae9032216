(** C77, C80: diffraction orders of a uniform grating, thresholding of a fringe. *)
From Coq Require Import Reals Lra ZArith Arith List Bool Lia.
From Coquelicot Require Import Hierarchy RInt Complex.
From Verif Require Import Cx Sums DFT PyBase ProfileModel SlmModel LibModel DmdModel SimModel SimSpec GridFacts SimFacts SimFacts2 SimExamples DmdSpec DmdFacts DmdFacts2 DmdThms DmdExamples RandomFacts OrderFacts FringeFacts.
Import ListNotations.
Open Scope R_scope.

(** ** C77 *)
Theorem C77_only_diffraction_orders : forall h d amp pin pout A0 pi0 po0 me kw u0 input f0 m m' I X Y a b ox oy,
  let s := d_slm d in
  reads h s amp (fun _ _ => A0) -> reads h s pin (fun _ _ => pi0) -> reads h s pout (fun _ _ => po0) -> pixel_size s <> 0 ->
  me = MIdeal \/ me = MSimple -> full_input h s input (fun _ _ => f0) -> pad_x m = 0%Z -> pad_y m = 0%Z ->
  first_order_origin d = (Fin ox, Fin oy) -> ox = IZR a * image_pitch_x s -> oy = IZR b * image_pitch_y s ->
  propagate_to_image h (DevDmd (fst (set_dmd_grating_state h d amp pin pout me kw u0))) m input = (m', Ok tt) ->
  grid_is (image_plane_padded_grid s m) (s_Ny s) (s_Nx s) X Y -> field_is (f_image m') (s_Ny s) (s_Nx s) I ->
  forall u v, (u < s_Ny s)%nat -> (v < s_Nx s)%nat -> I u v <> RtoC 0 ->
  exists n k l : Z, X u v = IZR n * ox + IZR k * (scaling_factor s / pixel_size s) /\
    Y u v = IZR n * oy + IZR l * (scaling_factor s / pixel_size s) /\ (me = MIdeal -> (-1 <= n <= 1)%Z).
Proof. exact uniform_grating_orders. Qed.
Print Assumptions C77_only_diffraction_orders.
(** If the first order is inside the image, blocking with the default radius removes the axis and nothing else. *)
Theorem C77_blocking_removes_only_the_axis : forall h d amp pin pout A0 pi0 po0 kw u0 input f0 m m' I X Y a b ox oy,
  let s := d_slm d in
  reads h s amp (fun _ _ => A0) -> reads h s pin (fun _ _ => pi0) -> reads h s pout (fun _ _ => po0) -> pixel_size s <> 0 ->
  full_input h s input (fun _ _ => f0) -> pad_x m = 0%Z -> pad_y m = 0%Z ->
  first_order_origin d = (Fin ox, Fin oy) -> ox = IZR a * image_pitch_x s -> oy = IZR b * image_pitch_y s ->
  (2 * Z.abs a < Z.of_nat (s_Nx s))%Z -> (2 * Z.abs b < Z.of_nat (s_Ny s))%Z ->
  let d' := fst (set_dmd_grating_state h d amp pin pout MIdeal kw u0) in
  propagate_to_image h (DevDmd d') m input = (m', Ok tt) ->
  grid_is (image_plane_padded_grid s m) (s_Ny s) (s_Nx s) X Y -> field_is (f_image m') (s_Ny s) (s_Nx s) I ->
  exists m'', block_zeroth_order d' m' None = (m'', Ok tt) /\
  exists I', field_is (f_image m'') (s_Ny s) (s_Nx s) I' /\
  forall u v, (u < s_Ny s)%nat -> (v < s_Nx s)%nat -> (X u v = 0 /\ Y u v = 0 -> I' u v = RtoC 0) /\ (X u v <> 0 \/ Y u v <> 0 -> I' u v = I u v).
Proof. exact blocked_uniform_grating. Qed.
Print Assumptions C77_blocking_removes_only_the_axis.
(** An 8 x 2 DMD, grating period 4 pixels: first order two image pixels from the axis; uniform light. *)
Definition ex8 : dmd := dmd_new 2 3 4 0 8 2 (/ 2) false.
Definition flat8 : parg := AConstC (T2 2 8 (fun _ _ => RtoC 1)).
Definition sim8 : sim := {| pad_x := 0; pad_y := 0; f_input := None; f_output := None; f_image := None |}.
Example C77_case : let s := d_slm ex8 in let half := AConstR (T0 (3 / 4)) in let zero := AConstR (T0 0) in
  reads ex_heap s half (fun _ _ => 3 / 4) /\ reads ex_heap s zero (fun _ _ => 0) /\ pixel_size s <> 0 /\
  full_input ex_heap s flat8 (fun _ _ => RtoC 1) /\ (exists a, (0 < 2 * a < Z.of_nat (s_Nx s))%Z /\
    first_order_origin ex8 = (Fin (IZR a * image_pitch_x s), Fin (IZR 0 * image_pitch_y s))) /\
  exists m', propagate_to_image ex_heap (DevDmd (fst (set_dmd_grating_state ex_heap ex8 half zero zero MIdeal no_kwargs (fun _ _ => 0)))) sim8 flat8 = (m', Ok tt).
Proof.
  cbv zeta. assert (Hsf : scaling_factor (d_slm ex8) <> 0) by (unfold scaling_factor; cbn; lra).
  split; [apply reads_const|]. split; [apply reads_const|]. split; [cbn; lra|]. split; [reflexivity|]. split.
  - exists 2%Z. split; [cbn; lia|].
    rewrite OriginFacts.origin_fin by (cbn; lra). unfold OriginFacts.origin_of, fst, snd, image_pitch_x, image_pitch_y, scaling_factor. cbn [ex8 dmd_new d_slm d_p d_theta wavelength focal_length s_Nx s_Ny pixel_size].
    rewrite cos_0, sin_0. replace (INR 8) with 8 by (cbn; lra). replace (INR 2) with 2 by (cbn; lra). f_equal; f_equal; field; lra.
  - destruct (set_ideal ex_heap ex8 (AConstR (T0 (3 / 4))) (AConstR (T0 0)) (AConstR (T0 0)) _ _ _ (reads_const _ _ _) (reads_const _ _ _) (reads_const _ _ _) ltac:(cbn; lra) no_kwargs (fun _ _ => 0)) as (d' & f & E & Ed & V).
    rewrite E. cbn [fst]. subst d'.
    apply (propagate_succeeds ex_heap (DevDmd (with_state ex8 (DFloat (s_Ny (d_slm ex8)) (s_Nx (d_slm ex8)) f))) sim8 flat8 (fun _ _ => RtoC 1) (fun i j => RtoC (xr_val (f i j))));
      [reflexivity|exact (AmpFacts4.state_float_in (with_state ex8 (DFloat (s_Ny (d_slm ex8)) (s_Nx (d_slm ex8)) f)) _ _ f _ eq_refl eq_refl eq_refl V)|cbn; lia|cbn; lia|exact Hsf].
Qed.

(** ** C80 *)
(** The mirrors of a 'simple' grating are a function [on] of the carrier phase alone; its first harmonic over one fringe. *)
Theorem C80_thresholded_first_harmonic : forall A, 0 <= A -> exists on : R -> bool,
  (forall h d amp pin pout B Pi Po kw u i j, reads h (d_slm d) amp B -> reads h (d_slm d) pin Pi -> reads h (d_slm d) pout Po -> d_p d <> 0 ->
     in_array d i j -> B i j = A ->
     cell_at (d_state (fst (set_dmd_grating_state h d amp pin pout MSimple kw u))) i j = CBool (on (carrier d i j - signed (d_neg d) (Po i j - Pi i j)))) /\
  is_RInt (fun t => (if on t then 1 else 0) * cos t) (- PI) PI (if Rle_dec A (1 / 2) then 0 else 2 * sqrt (2 * A - 1) / A).
Proof. exact threshold_mirrors. Qed.
Print Assumptions C80_thresholded_first_harmonic.
Theorem C80_not_proportional : ~ exists k, k <> 0 /\ forall A, 0 <= A <= 1 ->
  is_RInt (fun t => (if Rlt_dec (1 / 2) (A * (cos t / 2 + 1 / 2)) then 1 else 0) * cos t) (- PI) PI (k * A).
Proof. exact threshold_not_proportional. Qed.
Print Assumptions C80_not_proportional.
Example C80_case : 0 <= 5 / 8 <= 1 /\ 2 * sqrt (2 * (5 / 8) - 1) / (5 / 8) = 8 / 5 /\
  reads ex_heap (d_slm ex_dmd) (AConstR (T0 (5 / 8))) (fun _ _ => 5 / 8) /\ d_p ex_dmd <> 0 /\ in_array ex_dmd 1 2.
Proof.
  split; [lra|]. split; [|split; [exact (reads_const _ _ _)|split; [cbn; lra|split; cbn; lia]]]. replace (2 * (5 / 8) - 1) with ((1 / 2) ^ 2) by field. rewrite sqrt_pow2 by lra. field.
Qed.
