(** Overflow (C146, C147). *)
From Coq Require Import Reals Lra Lia ZArith Arith List.
From Coquelicot Require Import Complex.
From Verif Require Import Cx DFT PyBase ProfileModel SlmModel LibModel DmdModel SimModel SimSpec SimExamples DmdSpec FloatModel FloatSpec FloatFacts FlGridModel FlModeModel FlSimSpec FftModel FftSpec FftFacts3 FwdModel FwdSpec FwdFacts2 FlHoloModel FlHoloSpec FlHoloFacts5 NarrowSpec OverflowModel OverflowSpec OverflowFacts OverflowFacts2 OverflowFacts3.
Import ListNotations.
Open Scope R_scope.

(** Single and double precision, and single precision that flushes subnormal numbers to zero, have the room the theorems below ask for. *)
Theorem C146_machines : roomy single_limits single /\ roomy double_limits double /\ roomy single_limits (machine (flushed (/ 2 ^ 126) binary32)).
Proof. exact (conj single_roomy (conj double_roomy flushed_roomy)). Qed.
Print Assumptions C146_machines.
(** Grids: up to 2^20 pixels a side. *)
Theorem C146_grids : forall L a Ny Nx ps, roomy L a -> (Z.of_nat Ny <= 2 ^ 20)%Z -> (Z.of_nat Nx <= 2 ^ 20)%Z -> below2 20 ps ->
  (forall i j, (Z.of_nat i <= 2 ^ 20)%Z -> (Z.of_nat j <= 2 ^ 20)%Z -> ck_grid L a Ny Nx ps i j = Some (fl_grid a Ny Nx ps i j) /\
    forall py px, (Z.abs py <= 2 ^ 20)%Z -> (Z.abs px <= 2 ^ 20)%Z -> ck_padded_grid L a Ny Nx ps py px i j = Some (fl_padded_grid a Ny Nx ps py px i j)) /\
  (forall x y, above2 60 ps -> below2 60 x -> below2 60 y -> ck_to_index L a Ny Nx ps x y = Some (fl_to_index a Ny Nx ps x y)) /\
  (forall i j d ii jj, below2 50 i -> below2 50 j -> below2 50 d -> (Z.of_nat ii <= 2 ^ 20)%Z -> (Z.of_nat jj <= 2 ^ 20)%Z -> ck_circular_mask L a i j d ii jj = Some (fl_circular_mask a i j d ii jj)).
Proof.
  intros L a Ny Nx ps RO Hy Hx Hp. split; [|split].
  - intros i j Hi Hj. split; [exact (proj1 (grid_finite L a RO Ny Nx ps i j Hy Hx Hp Hi Hj))|]. intros. apply padded_grid_finite; assumption.
  - intros. apply index_finite; assumption.
  - intros. apply mask_finite; assumption.
Qed.
Print Assumptions C146_grids.
Theorem C146_image_grid : forall L a s, roomy L a -> (0 < s_Nx s)%nat -> (0 < s_Ny s)%nat -> (Z.of_nat (s_Nx s) <= 2 ^ 20)%Z -> (Z.of_nat (s_Ny s) <= 2 ^ 20)%Z -> above2 40 (pixel_size s) -> below2 20 (pixel_size s) -> below2 19 (wavelength s) -> below2 19 (focal_length s) ->
  ck_image_plane_grid L a s = Some (fl_image_plane_grid a s).
Proof. intros L a s RO. exact (device_grid_finite L a RO s). Qed.
Print Assumptions C146_image_grid.
(** Gratings: the three formulas of _lib.py. *)
Theorem C146_gratings : forall L a neg amp pin pout x y p theta r u, roomy L a -> below2 50 x -> below2 50 y -> above2 30 p -> below2 100 pin -> below2 100 pout ->
  (below2 100 amp -> ck_ideal L a neg amp pin pout x y p theta = Some (fl_ideal a neg amp pin pout x y p theta) /\ ck_simple L a neg amp pin pout x y p theta = Some (fl_simple a neg amp pin pout x y p theta)) /\
  (below2 100 r -> ck_random L a neg amp pin pout x y p theta r u = Some (fl_random a neg amp pin pout x y p theta r u)).
Proof. intros. split; intros; [split; [apply ideal_finite|apply simple_finite]|apply random_finite]; assumption. Qed.
Print Assumptions C146_gratings.
(** Profiles and windows. *)
Theorem C146_profiles : forall L a, roomy L a ->
  (forall f_exp Ny Nx ps x0 y0 A w i j, (forall t, t <= 0 -> Rabs (f_exp t) <= 2) -> (Z.of_nat Ny <= 2 ^ 20)%Z -> (Z.of_nat Nx <= 2 ^ 20)%Z -> below2 0 ps -> (Z.of_nat i <= 2 ^ 20)%Z -> (Z.of_nat j <= 2 ^ 20)%Z ->
    below2 30 x0 -> below2 30 y0 -> below2 100 A -> above2 25 w -> below2 30 w -> ck_gaussian_beam L a f_exp Ny Nx ps x0 y0 A w i j = Some (fl_gaussian_beam a f_exp Ny Nx ps x0 y0 A w i j)) /\
  (forall x0 y0 wx wy x y, below2 100 x0 -> below2 100 y0 -> below2 100 wx -> below2 100 wy -> below2 100 x -> below2 100 y -> ck_rect_value L a x0 y0 wx wy x y = Some (fl_rect_value a x0 y0 wx wy x y)) /\
  (forall x0 y0 r x y, below2 50 x0 -> below2 50 y0 -> below2 50 r -> below2 50 x -> below2 50 y -> ck_circ_value L a x0 y0 r x y = Some (fl_circ_value a x0 y0 r x y)).
Proof. intros L a RO. split; [|split]; intros; [apply beam_finite|apply rect_finite|apply circ_finite]; assumption. Qed.
Print Assumptions C146_profiles.
(** The field behind the device and the powers: at most 2^22 pixels in any order of summation. *)
Theorem C146_simulation : forall L a, roomy L a ->
  (forall z w, below2 60 (fst z) -> below2 60 (snd z) -> below2 60 (fst w) -> below2 60 (snd w) -> ck_cmul L a z w = Some (fl_cmul a z w)) /\
  (forall w area field t, over t (fun i j => below2 40 (fst (field i j)) /\ below2 40 (snd (field i j))) -> (Z.of_nat (terms t) <= 2 ^ 22)%Z -> below2 15 area -> ck_power L a w area field t = Some (fl_power a w area field t)).
Proof. intros L a RO. split; intros; [apply cmul_finite|apply power_finite]; assumption. Qed.
Print Assumptions C146_simulation.
(** Holograms: amplitudes of the spectrum up to 2^60, of the beam down to 2^-60. No infinity occurs. *)
Theorem C146_hologram : forall L a q ny nx ps p th S E, roomy L a -> (0 < ny)%nat -> (0 < nx)%nat -> (Z.of_nat ny <= 2 ^ 20)%Z -> (Z.of_nat nx <= 2 ^ 20)%Z -> below2 20 ps -> above2 20 p -> below2 100 p -> below2 100 th ->
  (forall z, Rabs (f_angle q z) <= 4) -> (forall i j, (i < ny)%nat -> (j < nx)%nat -> 0 <= f_abs q (S i j) <= 2 ^ 60) -> (forall i j, (i < ny)%nat -> (j < nx)%nat -> / 2 ^ 60 <= f_abs q (E i j)) ->
  (forall neg i j, (i < ny)%nat -> (j < nx)%nat ->
    ck_holo_level L a q neg ny nx ps p th S E i j = Some (match fl_holo_level a q neg ny nx ps p th S E i j with Some g => Fin g | None => NaN end) /\
    ck_holo_mirror L a q neg ny nx ps p th S E i j = Some (match fl_holo_mirror a q neg ny nx ps p th S E i j with Some b => b | None => false end)) /\
  ie_max L a ny nx (fun i j => f_abs q (S i j)) (fun i j => f_abs q (E i j)) = fl_holo_max a q ny nx S E /\
  (forall sf m, below2 0 ps -> above2 40 sf -> above2 30 m -> ck_holo_eta L a ny nx ps sf (Fin m) = fl_holo_eta a ny nx ps sf (Fin m)).
Proof.
  intros L a q ny nx ps p th S E RO Hy Hx Ny Nx Hps Hp Hp' Hth HA HS HE. split; [|split].
  - intros neg i j Hi Hj. exact (level_finite L a RO q ny nx ps p th S E Hy Hx Ny Nx Hps Hp Hp' Hth HA HS HE neg i j Hi Hj).
  - exact (holo_max_finite L a RO q ny nx S E Hy Hx HS HE).
  - intros sf m H1 H2 H3. exact (eta_finite L a RO ny nx ps Ny Nx sf m H1 H2 H3).
Qed.
Print Assumptions C146_hologram.
(** A DLP9500 and a waist of at least 6 mm (the beams of C137). *)
Theorem C146_dlp9500 : forall wl fl per th neg A w S i j, let d := DLP9500 wl fl per th neg in let s := d_slm d in let q := rounded_polar binary32 in
  let E := fun i j => RtoC (fl_gaussian_beam single exp32 1080 1920 (pixel_size s) 0 0 A w i j) in
  1 <= per <= 2 ^ 100 -> Rabs th <= 2 ^ 100 -> / 2 ^ 30 <= A -> 6 / 1000 <= w -> (forall i j, in_array d i j -> f_abs q (S i j) <= 2 ^ 60) -> in_array d i j ->
  ck_holo_level single_limits single q neg 1080 1920 (pixel_size s) (d_p d) th S E i j = Some (match fl_holo_level single q neg 1080 1920 (pixel_size s) (d_p d) th S E i j with Some g => Fin g | None => NaN end) /\
  ck_holo_mirror single_limits single q neg 1080 1920 (pixel_size s) (d_p d) th S E i j = Some (match fl_holo_mirror single q neg 1080 1920 (pixel_size s) (d_p d) th S E i j with Some b => b | None => false end) /\
  ie_max single_limits single 1080 1920 (fun i j => f_abs q (S i j)) (fun i j => f_abs q (E i j)) = fl_holo_max single q 1080 1920 S E.
Proof. exact wide_finite. Qed.
Print Assumptions C146_dlp9500.
(** A 6 mm beam and a spot meet the hypotheses; so does the image grid of that device. *)
Example C146_case : let d := DLP9500 (369 / 1000000000) (200 / 1000) 4 (PI / 4) false in let s := d_slm d in let q := rounded_polar binary32 in let tab := rounded_forward_table binary64 in
  let S := fl_spectrum single (fun _ _ : nat => numpy_fft2 single double tab (direct double tab) [30; 36]%nat [40; 48]%nat) 1080 1920 (spot 500 900) None in
  (1 <= 4 <= 2 ^ 100 /\ Rabs (PI / 4) <= 2 ^ 100 /\ / 2 ^ 30 <= 1 /\ 6 / 1000 <= 6 / 1000 /\ forall i j, in_array d i j -> f_abs q (S i j) <= 2 ^ 60) /\
  ck_image_plane_grid single_limits single s = Some (fl_image_plane_grid single s).
Proof.
  intros d s q tab S. assert (P4 := PI_4). assert (P0 := PI_RGT_0). assert (G : 4 <= 2 ^ 60) by (replace 4 with (2 ^ 2) by ring; apply Rle_pow; [lra|lia]). assert (G' : 4 <= 2 ^ 100) by (replace 4 with (2 ^ 2) by ring; apply Rle_pow; [lra|lia]). split.
  - split; [lra|]. split; [rewrite Rabs_pos_eq by lra; lra|]. split; [rewrite <- Rinv_1; apply Rinv_le_contravar; [lra|apply pow2_ge1]|]. split; [lra|]. intros i j [Hi Hj].
    assert (B := spot_bright tab [30; 36]%nat [40; 48]%nat 500 900 i j rounded_forward_good ltac:(repeat constructor; lia) eq_refl eq_refl ltac:(apply Nat.ltb_lt; reflexivity) ltac:(apply Nat.ltb_lt; reflexivity) Hi Hj). cbv zeta in B. fold S q in B. lra.
  - assert (PP : / 2 ^ 20 <= pixel_size s <= 1) by (change (pixel_size s) with (10.8 * micro); unfold micro; lra). assert (E20 : / 2 ^ 40 <= / 2 ^ 20) by (apply inv_pow_le; lia). assert (E0 : 0 < / 2 ^ 20) by (apply Rinv_0_lt_compat, pow2_pos). assert (G2 := pow2_ge1 20). assert (G3 := pow2_ge1 19).
    apply C146_image_grid; [exact single_roomy|apply Nat.ltb_lt; reflexivity|apply Nat.ltb_lt; reflexivity|change (Z.of_nat (s_Nx s)) with 1920%Z; lia|change (Z.of_nat (s_Ny s)) with 1080%Z; lia|..].
    + unfold above2. rewrite Rabs_pos_eq by lra. lra.
    + unfold below2. rewrite Rabs_pos_eq by lra. lra.
    + unfold below2. change (wavelength s) with (369 / 1000000000). rewrite Rabs_pos_eq by lra. lra.
    + unfold below2. change (focal_length s) with (200 / 1000). rewrite Rabs_pos_eq by lra. lra.
Qed.

(** A spot, a DLP9500 and a beam of 1.21 mm to 1.25 mm: no sample of the beam underflows to zero, the exact beam gives a positive efficiency, yet in single precision the efficiency is 0 and no mirror is on. *)
Theorem C147_refuted : forall wl fl per th neg h w k l kw ru m tab ly lx, let d := DLP9500 wl fl per th neg in let s := d_slm d in let q := rounded_polar binary32 in
  let E := fun i j => RtoC (fl_gaussian_beam single exp32 1080 1920 (pixel_size s) 0 0 1 w i j) in
  let S := fl_spectrum single (fun _ _ : nat => numpy_fft2 single double tab (direct double tab) ly lx) 1080 1920 (spot k l) None in
  let M := ie_max single_limits single 1080 1920 (fun i j => f_abs q (S i j)) (fun i j => f_abs q (E i j)) in
  good_forward_table (2 * / 2 ^ 53) tab -> Forall (fun r => 2 <= r)%nat (ly ++ lx) -> size ly = 1080%nat -> size lx = 1920%nat ->
  0 < wl -> 0 < fl -> / 2 ^ 40 <= scaling_factor s -> 1 <= per <= 2 ^ 100 -> Rabs th <= 2 ^ 100 -> 121 / 100000 <= w <= 125 / 100000 -> (k < 1080)%nat -> (l < 1920)%nat -> m = MSimple \/ m = MRandom ->
  (forall i j, in_array d i j -> 0 < fl_gaussian_beam single exp32 1080 1920 (pixel_size s) 0 0 1 w i j) /\
  (exists eta, 0 < eta /\ snd (calculate_dmd_state h d (exact_beam s 1 w) (AConstC (T2 1080 1920 (spot k l))) m None kw ru) = Ok (Fin eta)) /\
  ck_holo_eta single_limits single 1080 1920 (pixel_size s) (scaling_factor s) M = Some 0 /\
  forall i j, in_array d i j -> ck_holo_mirror single_limits single q neg 1080 1920 (pixel_size s) (d_p d) th S E i j = Some false.
Proof.
  intros wl fl per th neg h w k l kw ru m tab ly lx d s q E S M TB FA Sy Sx Hwl Hfl Hsf Hp Ht Hw Hk Hl Hm.
  assert (B := spot_bright tab ly lx k l 0 0 TB FA Sy Sx Hk Hl ltac:(apply Nat.ltb_lt; reflexivity) ltac:(apply Nat.ltb_lt; reflexivity)). cbv zeta in B. fold S q in B.
  destruct (blown_hologram wl fl per th neg 1 w S (scaling_factor s) Hp Ht Hsf (Rle_refl _) Hw (proj1 B)) as (P & _ & Ee & V). split; [exact P|]. split; [|split; [exact Ee|]].
  - apply (exact_efficiency wl fl per th neg h 1 w _ (spot k l)); try assumption; try lra; [reflexivity|]. intros N. assert (X := spot_spectrum 1080 1920 k l 0 0 Hk Hl). rewrite N, Cmod_0 in X. lra.
  - intros i j Hij. exact (proj2 (V i j Hij)).
Qed.
Print Assumptions C147_refuted.
(** Any spectrum that is at least half as bright at the corner as the beam is at its centre. *)
Theorem C147_overflow : forall wl fl per th neg A w S sf, let d := DLP9500 wl fl per th neg in let s := d_slm d in let q := rounded_polar binary32 in
  let E := fun i j => RtoC (fl_gaussian_beam single exp32 1080 1920 (pixel_size s) 0 0 A w i j) in
  1 <= per <= 2 ^ 100 -> Rabs th <= 2 ^ 100 -> / 2 ^ 40 <= sf -> 1 <= A -> 121 / 100000 <= w <= 125 / 100000 -> A / 2 <= f_abs q (S 0%nat 0%nat) ->
  let M := ie_max single_limits single 1080 1920 (fun i j => f_abs q (S i j)) (fun i j => f_abs q (E i j)) in
  (forall i j, in_array d i j -> 0 < fl_gaussian_beam single exp32 1080 1920 (pixel_size s) 0 0 A w i j) /\ M = PInf /\ ck_holo_eta single_limits single 1080 1920 (pixel_size s) sf M = Some 0 /\
  forall i j, in_array d i j ->
    (ck_holo_level single_limits single q neg 1080 1920 (pixel_size s) (d_p d) th S E i j = Some (Fin 0) \/ ck_holo_level single_limits single q neg 1080 1920 (pixel_size s) (d_p d) th S E i j = Some NaN) /\
    ck_holo_mirror single_limits single q neg 1080 1920 (pixel_size s) (d_p d) th S E i j = Some false.
Proof. exact blown_hologram. Qed.
Print Assumptions C147_overflow.
(** The hypotheses of C147_refuted are met. *)
Example C147_case : let s := d_slm (DLP9500 (369 / 1000000000) (200 / 1000) 4 (PI / 4) false) in
  good_forward_table (2 * / 2 ^ 53) (rounded_forward_table binary64) /\ Forall (fun r => 2 <= r)%nat ([30; 36] ++ [40; 48])%nat /\ size [30; 36]%nat = 1080%nat /\ size [40; 48]%nat = 1920%nat /\
  / 2 ^ 40 <= scaling_factor s /\ 1 <= 4 <= 2 ^ 100 /\ Rabs (PI / 4) <= 2 ^ 100 /\ 121 / 100000 <= 123 / 100000 <= 125 / 100000.
Proof.
  intros s. assert (P4 := PI_4). assert (P0 := PI_RGT_0). assert (G' : 4 <= 2 ^ 100) by (replace 4 with (2 ^ 2) by ring; apply Rle_pow; [lra|lia]).
  split; [exact rounded_forward_good|]. split; [repeat constructor; lia|]. split; [reflexivity|]. split; [reflexivity|]. split; [|split; [lra|split; [rewrite Rabs_pos_eq by lra; lra|lra]]].
  unfold s, DLP9500, dmd_new, scaling_factor. cbn [d_slm wavelength focal_length]. lra.
Qed.
