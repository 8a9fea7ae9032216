(** C127: an LCOS loses no power, with rounding. *)
From Coq Require Import Reals Lra ZArith Arith List Lia.
From Coquelicot Require Import Complex.
From Verif Require Import Cx Sums DFT PyBase ProfileModel SlmModel LibModel DmdModel DmdSpec HoloSpec SimModel SimSpec FloatModel FloatSpec FloatFacts FloatFacts4 FringeSpec FlSimModel FlSimSpec FlSimFacts FlSimLink FlLcosModel FlLcosFacts.
Open Scope R_scope.

(** The reported input, output and image powers all agree with the power of the input field up to explicit errors. The phases are bounded,
    the library's cosine and sine are off by at most v, and the transform has relative error e. *)
Theorem C127_lossless_after_rounding : forall a u eta u' eta' v B B' w0 w w' F e d Ny Nx py px ps sf input phi t0 t t',
  arithmetic u eta B (rnd a) -> (2 ^ 22 <= B)%Z -> arithmetic u' eta' B' (dbl a) -> (2 ^ 40 <= B')%Z -> 0 <= u <= 1 / 8 -> 0 <= eta -> u' <= u -> eta' <= eta ->
  FringeSpec.accurate a v -> u <= v -> eta <= v -> v <= / 128 -> (forall i j, (i < Ny)%nat -> (j < Nx)%nat -> Rabs (phi i j) <= 7) ->
  let ny := (py + Ny + py)%nat in let nx := (px + Nx + px)%nat in
  (0 < Ny)%nat -> (0 < Nx)%nat -> (Z.of_nat (ny * nx) <= 2 ^ 40)%Z -> 0 < ps -> 0 < sf -> far_from_underflow u eta ny nx ps sf ->
  each_once ny nx t0 -> each_once ny nx t -> each_once ny nx t' -> 0 <= e -> 0 <= d -> FlSimSpec.accurate a e d ny nx (F ny nx) ->
  let out := fl_output a py px Ny Nx input (fun i j => fl_phase_factor a (phi i j)) in
  let P := field_power Ny Nx (ps ^ 2) input in
  let lost := 5 * eta * sqrt (INR (Ny * Nx)) * ps in
  near ((1 + 4 * u) ^ (depth t0 + 5) - 1) ((1 + 4 * u) ^ (depth t0 + 5) * (sqrt eta * (3 * (ps * sqrt (INR (ny * nx))) + 1))) (sqrt P) (sqrt (fl_input_power a w0 py px Ny Nx ps input t0)) /\
  near ((1 + 18 * v) * (1 + 4 * u) ^ (depth t + 5) - 1) ((1 + 4 * u) ^ (depth t + 5) * (lost + sqrt eta * (3 * (ps * sqrt (INR (ny * nx))) + 1))) (sqrt P) (sqrt (fl_output_power a w ps out t)) /\
  near ((1 + 18 * v) * ((1 + e) * (1 + 4 * u) ^ (depth t' + 13)) - 1) ((1 + 4 * u) ^ (depth t' + 13) * ((1 + e) * lost + ps * sqrt (INR (ny * nx)) * d + 2 * (sf / ps) * eta + sqrt eta * (3 * (sf / ps) + 1)))
    (sqrt P) (sqrt (fl_image_power a w' ny nx ps sf (fl_to_image a F ny nx ps sf out) t')).
Proof. exact lcos_powers. Qed.
Print Assumptions C127_lossless_after_rounding.
(** Single precision, as in C103: up to 2^24 pixels including the padding, up to 64 additions per pixel, a transform with relative error 2^-18. *)
Theorem C127_single_precision : forall w0 w w' F d Ny Nx py px ps sf input phi t0 t t',
  let ny := (py + Ny + py)%nat in let nx := (px + Nx + px)%nat in
  (0 < Ny)%nat -> (0 < Nx)%nat -> (Z.of_nat (ny * nx) <= 2 ^ 24)%Z -> / 2 ^ 30 <= ps <= 1 -> / 2 ^ 40 <= sf <= 1 -> (forall i j, (i < Ny)%nat -> (j < Nx)%nat -> Rabs (phi i j) <= 7) ->
  each_once ny nx t0 -> each_once ny nx t -> each_once ny nx t' -> (depth t0 <= 64)%nat -> (depth t <= 64)%nat -> (depth t' <= 64)%nat -> 0 <= d -> FlSimSpec.accurate single (/ 2 ^ 18) d ny nx (F ny nx) ->
  let out := fl_output single py px Ny Nx input (fun i j => fl_phase_factor single (phi i j)) in
  let P := field_power Ny Nx (ps ^ 2) input in
  near (/ 2 ^ 15) (/ 2 ^ 40) (sqrt P) (sqrt (fl_input_power single w0 py px Ny Nx ps input t0)) /\
  near (/ 2 ^ 14) (/ 2 ^ 39) (sqrt P) (sqrt (fl_output_power single w ps out t)) /\
  near (/ 2 ^ 14) (2 ^ 13 * d + / 2 ^ 39) (sqrt P) (sqrt (fl_image_power single w' ny nx ps sf (fl_to_image single F ny nx ps sf out) t')).
Proof. exact single_lcos_powers. Qed.
Print Assumptions C127_single_precision.
(** Whatever phases calculate_hologram stores are within the bound. *)
Theorem C127_stored_phases : forall h l input target F T kw u, full_input h (l_slm l) input F -> real_target h (l_slm l) target T -> (forall i j, in_slm (l_slm l) i j -> 0 <= u i j < 1) ->
  (exists p, stores (l_slm l) (calculate_hologram h l input target MGs kw u) p /\ forall i j, (i < s_Ny (l_slm l))%nat -> (j < s_Nx (l_slm l))%nat -> Rabs (p i j) <= 7) /\
  (forall w W, lk_window kw = Some w -> full_target h (l_slm l) w W ->
   exists p, stores (l_slm l) (calculate_hologram h l input target MMraf kw u) p /\ forall i j, (i < s_Ny (l_slm l))%nat -> (j < s_Nx (l_slm l))%nat -> Rabs (p i j) <= 7).
Proof. exact stored_phases. Qed.
Print Assumptions C127_stored_phases.
(** Without rounding the formulas are those of the exact model (for the output and the image, C103_no_rounding with this state). *)
Theorem C127_no_rounding : forall h l m arg F phi m' w t, let s := l_slm l in
  full_input h s arg F -> l_state l = LReal (s_Ny s) (s_Nx s) phi -> propagate_to_image h (DevLcos l) m arg = (m', Ok tt) -> each_once (NY s m) (NX s m) t ->
  full_state (DevLcos l) (fun i j => fl_phase_factor exact (phi i j)) /\
  get_input_power s m' = Ok (fl_input_power exact w (Z.to_nat (pad_y m)) (Z.to_nat (pad_x m)) (s_Ny s) (s_Nx s) (pixel_size s) F t).
Proof. exact link_lcos. Qed.
Print Assumptions C127_no_rounding.
(** A PLUTO-2 padded by 100 pixels (the 8 micrometre pitch rounded to 2^-17), any input, a linear phase ramp wrapped to a revolution, pairwise summation. *)
Example C127_case : forall w input, let phi := fun i j : nat => INR (j mod 7) in exists t F, each_once 1280 2120 t /\ (depth t <= 22)%nat /\ FlSimSpec.accurate single (/ 2 ^ 18) (2 * sqrt (INR (1280 * 2120)) * / 2 ^ 150) 1280 2120 (F 1280%nat 2120%nat) /\
  near (/ 2 ^ 14) (/ 2 ^ 39) (sqrt (field_power 1080 1920 ((/ 2 ^ 17) ^ 2) input))
    (sqrt (fl_output_power single w (/ 2 ^ 17) (fl_output single 100 100 1080 1920 input (fun i j => fl_phase_factor single (phi i j))) t)).
Proof.
  intros w input phi. destruct (pairwise 1280 2120 22) as (t & T & D); [lia|lia|rewrite Nat2Z.inj_mul; vm_compute; discriminate|]. exists t, (rounded_transform single).
  assert (U : / 2 ^ 24 <= / 2 ^ 18) by (apply inv2; lia). assert (Z : 0 < / 2 ^ 24) by (apply Rinv_0_lt_compat, pow_lt; lra). assert (Z2 : 0 < / 2 ^ 150) by (apply Rinv_0_lt_compat, pow_lt; lra).
  assert (A := accurate_weaken single _ _ _ _ _ _ U (rounded_accurate single _ _ _ 1280 2120 binary32_arithmetic ltac:(split; [lra|apply Rle_trans with (/ 2 ^ 3); [apply inv2; lia|cbn [pow]; lra]]) ltac:(lra))).
  split; [exact T|]. split; [exact D|]. split; [exact A|].
  assert (L1 : / 2 ^ 30 <= / 2 ^ 17 <= 1) by (split; [apply inv2; lia|apply Rle_trans with (/ 2 ^ 0); [apply inv2; lia|cbn [pow]; lra]]).
  assert (L2 : / 2 ^ 40 <= / 2 ^ 24 <= 1) by (split; [apply inv2; lia|apply Rle_trans with (/ 2 ^ 0); [apply inv2; lia|cbn [pow]; lra]]).
  assert (B : forall i j, (i < 1080)%nat -> (j < 1920)%nat -> Rabs (phi i j) <= 7).
  { intros i j _ _. unfold phi. assert (M := Nat.mod_upper_bound j 7 ltac:(lia)). assert (P := pos_INR (j mod 7)). rewrite Rabs_pos_eq by exact P. apply Rle_trans with (INR 7); [apply le_INR; lia|]. rewrite INR_IZR_INZ. cbn. lra. }
  exact (proj1 (proj2 (C127_single_precision w w w (rounded_transform single) (2 * sqrt (INR (1280 * 2120)) * / 2 ^ 150) 1080 1920 100 100 (/ 2 ^ 17) (/ 2 ^ 24) input phi t t t ltac:(lia) ltac:(lia) ltac:(cbv zeta; rewrite Nat2Z.inj_mul; vm_compute; discriminate) L1 L2 B T T T
    ltac:(lia) ltac:(lia) ltac:(lia) ltac:(apply Rmult_le_pos; [apply Rmult_le_pos; [lra|apply sqrt_pos]|lra]) A))).
Qed.
