(** C103: the powers of a simulation, with rounding. *)
From Coq Require Import Reals Lra ZArith Arith List Lia.
From Coquelicot Require Import Complex.
From Verif Require Import Cx Sums DFT PyBase ProfileModel SlmModel LibModel DmdModel SimModel SimSpec FloatModel FloatSpec FloatFacts FloatFacts4 FlSimModel FlSimSpec FlSimFacts FlSimLink.
Open Scope R_scope.

(** The reported output power and the reported image power both agree with the power of the field behind the device, up to explicit errors:
    whatever the device, the padding, the order of summation, and whatever library evaluates the transform with relative error e. *)
Theorem C103_power_conserved_after_rounding : forall a u eta u' eta' B B' w w' F e d Ny Nx py px ps sf input state t t',
  arithmetic u eta B (rnd a) -> (2 ^ 22 <= B)%Z -> arithmetic u' eta' B' (dbl a) -> (2 ^ 40 <= B')%Z -> 0 <= u <= 1 / 8 -> 0 <= eta -> u' <= u -> eta' <= eta ->
  let ny := (py + Ny + py)%nat in let nx := (px + Nx + px)%nat in
  (0 < Ny)%nat -> (0 < Nx)%nat -> (Z.of_nat (ny * nx) <= 2 ^ 40)%Z -> 0 < ps -> 0 < sf -> far_from_underflow u eta ny nx ps sf ->
  each_once ny nx t -> each_once ny nx t' -> 0 <= e -> 0 <= d -> accurate a e d ny nx (F ny nx) ->
  let out := fl_output a py px Ny Nx input state in
  let P := field_power Ny Nx (ps ^ 2) (fun i j => fl_cmul a (input i j) (state i j)) in
  near ((1 + 4 * u) ^ (depth t + 5) - 1) ((1 + 4 * u) ^ (depth t + 5) * (sqrt eta * (3 * (ps * sqrt (INR (ny * nx))) + 1))) (sqrt P) (sqrt (fl_output_power a w ps out t)) /\
  near ((1 + e) * (1 + 4 * u) ^ (depth t' + 13) - 1) ((1 + 4 * u) ^ (depth t' + 13) * (ps * sqrt (INR (ny * nx)) * d + 2 * (sf / ps) * eta + sqrt eta * (3 * (sf / ps) + 1)))
    (sqrt P) (sqrt (fl_image_power a w' ny nx ps sf (fl_to_image a F ny nx ps sf out) t')).
Proof. exact rounded_powers. Qed.
Print Assumptions C103_power_conserved_after_rounding.
(** Single precision, panels of up to 2^24 pixels including the padding, up to 64 additions per pixel, a transform with relative error 2^-18. *)
Theorem C103_single_precision : forall w w' F d Ny Nx py px ps sf input state t t',
  let ny := (py + Ny + py)%nat in let nx := (px + Nx + px)%nat in
  (0 < Ny)%nat -> (0 < Nx)%nat -> (Z.of_nat (ny * nx) <= 2 ^ 24)%Z -> / 2 ^ 30 <= ps <= 1 -> / 2 ^ 40 <= sf <= 1 ->
  each_once ny nx t -> each_once ny nx t' -> (depth t <= 64)%nat -> (depth t' <= 64)%nat -> 0 <= d -> accurate single (/ 2 ^ 18) d ny nx (F ny nx) ->
  let out := fl_output single py px Ny Nx input state in
  let P := field_power Ny Nx (ps ^ 2) (fun i j => fl_cmul single (input i j) (state i j)) in
  near (/ 2 ^ 15) (/ 2 ^ 40) (sqrt P) (sqrt (fl_output_power single w ps out t)) /\
  near (/ 2 ^ 15) (2 ^ 13 * d + / 2 ^ 40) (sqrt P) (sqrt (fl_image_power single w' ny nx ps sf (fl_to_image single F ny nx ps sf out) t')).
Proof. exact single_powers. Qed.
Print Assumptions C103_single_precision.
(** What is assumed of the transform holds of one that rounds the exact result. *)
Theorem C103_accurate_transform : forall a u eta B ny nx, arithmetic u eta B (rnd a) -> 0 <= u <= 1 / 8 -> 0 <= eta ->
  accurate a u (2 * sqrt (INR (ny * nx)) * eta) ny nx (rounded_transform a ny nx).
Proof. exact rounded_accurate. Qed.
Print Assumptions C103_accurate_transform.
(** Without rounding the formulas are those of the exact model. *)
Theorem C103_no_rounding : forall h dev m arg F St m' w t, let s := dev_slm dev in
  full_input h s arg F -> full_state dev St -> propagate_to_image h dev m arg = (m', Ok tt) -> (0 < s_Nx s)%nat -> (0 < s_Ny s)%nat -> pixel_size s <> 0 -> each_once (NY s m) (NX s m) t ->
  let out := fl_output exact (Z.to_nat (pad_y m)) (Z.to_nat (pad_x m)) (s_Ny s) (s_Nx s) F St in
  let image := fl_to_image exact ifft2 (NY s m) (NX s m) (pixel_size s) (scaling_factor s) out in
  field_is (f_output m') (NY s m) (NX s m) out /\ field_is (f_image m') (NY s m) (NX s m) image /\
  get_output_power s m' = Ok (fl_output_power exact w (pixel_size s) out t) /\
  get_image_plane_power s m' = Ok (fl_image_power exact w (NY s m) (NX s m) (pixel_size s) (scaling_factor s) image t).
Proof. exact link_propagation. Qed.
Print Assumptions C103_no_rounding.
(** A DLP9500 padded by 100 pixels, any input and any mirrors, pairwise summation. *)
Example C103_case : forall w input (s : nat -> nat -> bool), exists t F, each_once 1280 2120 t /\ (depth t <= 22)%nat /\ accurate single (/ 2 ^ 18) (2 * sqrt (INR (1280 * 2120)) * / 2 ^ 150) 1280 2120 (F 1280%nat 2120%nat) /\
  near (/ 2 ^ 15) (2 ^ 13 * (2 * sqrt (INR (1280 * 2120)) * / 2 ^ 150) + / 2 ^ 40) (sqrt (field_power 1080 1920 ((/ 2 ^ 16) ^ 2) (fun i j => fl_cmul single (input i j) (bool_factor (s i j)))))
    (sqrt (fl_image_power single w 1280 2120 (/ 2 ^ 16) (/ 2 ^ 24) (fl_to_image single F 1280 2120 (/ 2 ^ 16) (/ 2 ^ 24) (fl_output single 100 100 1080 1920 input (fun i j => bool_factor (s i j)))) t)).
Proof.
  intros w input s. destruct (pairwise 1280 2120 22) as (t & T & D); [lia|lia|rewrite Nat2Z.inj_mul; vm_compute; discriminate|]. exists t, (rounded_transform single).
  assert (U : / 2 ^ 24 <= / 2 ^ 18) by (apply inv2; lia). assert (Z : 0 < / 2 ^ 24) by (apply Rinv_0_lt_compat, pow_lt; lra). assert (Z2 : 0 < / 2 ^ 150) by (apply Rinv_0_lt_compat, pow_lt; lra).
  assert (A := accurate_weaken single _ _ _ _ _ _ U (C103_accurate_transform single _ _ _ 1280 2120 binary32_arithmetic ltac:(split; [lra|apply Rle_trans with (/ 2 ^ 3); [apply inv2; lia|cbn [pow]; lra]]) ltac:(lra))).
  split; [exact T|]. split; [exact D|]. split; [exact A|].
  assert (L1 : / 2 ^ 30 <= / 2 ^ 16 <= 1) by (split; [apply inv2; lia|apply Rle_trans with (/ 2 ^ 0); [apply inv2; lia|cbn [pow]; lra]]).
  assert (L2 : / 2 ^ 40 <= / 2 ^ 24 <= 1) by (split; [apply inv2; lia|apply Rle_trans with (/ 2 ^ 0); [apply inv2; lia|cbn [pow]; lra]]).
  exact (proj2 (C103_single_precision w w (rounded_transform single) (2 * sqrt (INR (1280 * 2120)) * / 2 ^ 150) 1080 1920 100 100 (/ 2 ^ 16) (/ 2 ^ 24) input (fun i j => bool_factor (s i j)) t t ltac:(lia) ltac:(lia) ltac:(cbv zeta; rewrite Nat2Z.inj_mul; vm_compute; discriminate) L1 L2 T T
    ltac:(lia) ltac:(lia) ltac:(apply Rmult_le_pos; [apply Rmult_le_pos; [lra|apply sqrt_pos]|lra]) A)).
Qed.
