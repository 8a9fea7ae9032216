(** Gaussian beams sampled in floating point (C137). *)
From Coq Require Import Reals Lra Lia ZArith Arith List.
From Coquelicot Require Import Complex.
From Verif Require Import Cx Sums DFT PyBase ProfileModel SlmModel LibModel DmdModel SimModel SimSpec SimExamples DmdSpec ModeSpec FloatModel FloatSpec FlSimSpec NormFacts FlSimFacts FftModel FftSpec FftFacts3 FwdModel FwdSpec FwdFacts2 FlHoloModel FlHoloSpec FlHoloFacts5 FlModeModel NarrowSpec WideSpec WideFacts2 WideFacts3.
Import ListNotations.
Open Scope R_scope.

(** Any device, arithmetic and exponential: a sample is the mode's value at the mirror up to a relative error that grows with the square of the distance in waists. *)
Theorem C137_sample : forall a u eta u' eta' B B' f_exp v o s x0 y0 A w i j, arithmetic u eta B (rnd a) -> arithmetic u' eta' B' (dbl a) -> (2 ^ 22 <= B)%Z -> (2 ^ 22 <= B')%Z -> 0 <= u <= / 2 ^ 24 -> 0 <= eta <= u / 100 ->
  accurate_exp f_exp v o -> 0 <= v <= 1 / 8 -> 0 <= o ->
  (Z.of_nat (s_Ny s) <= 2 ^ 20)%Z -> (Z.of_nat (s_Nx s) <= 2 ^ 20)%Z -> 0 < pixel_size s -> eta <= u * pixel_size s / 2 -> 0 < w -> 2 ^ 23 * eta <= u * w -> eta <= u * Rabs A ->
  (i < s_Ny s)%nat -> (j < s_Nx s)%nat -> let x := mirror_x s j in let y := mirror_y s i in 19 * u * reach x0 y0 w x y <= 1 / 8 ->
  Rabs (fl_gaussian_beam a f_exp (s_Ny s) (s_Nx s) (pixel_size s) x0 y0 A w i j - hg_mode x0 y0 A w 0 0 x y) <=
  (24 * u * reach x0 y0 w x y + 2 * v) * Rabs (hg_mode x0 y0 A w 0 0 x y) + 2 * (Rabs A * o + eta).
Proof. exact beam_accurate. Qed.
Print Assumptions C137_sample.
(** Two beams of the same phase whose amplitudes differ by at most delta give holograms whose levels differ by at most 4 delta, and mirrors that differ only at levels next to the threshold. *)
Theorem C137_stability : forall h d in1 in2 target w E E' T W kw ru delta, let s := d_slm d in let ny := s_Ny s in let nx := s_Nx s in
  full_input h s in1 E -> full_input h s in2 E' -> full_target h s target T -> window_reads h s w W -> d_p d <> 0 -> (0 < ny)%nat -> (0 < nx)%nat -> scaling_factor s <> 0 ->
  0 <= delta <= 1 / 2 -> (forall i j, in_array d i j -> E i j <> RtoC 0 /\ exists r, Rabs (r - 1) <= delta /\ E' i j = (RtoC r * E i j)%C) ->
  (exists i j, in_array d i j /\ windowed d T W i j <> RtoC 0) ->
  exists g f ef g' f' ef',
    calculate_dmd_state h d in1 target MIdeal w kw ru = (with_state d (DFloat ny nx g), Ok (Fin ef)) /\ calculate_dmd_state h d in1 target MSimple w kw ru = (with_state d (DBool ny nx f), Ok (Fin ef)) /\
    calculate_dmd_state h d in2 target MIdeal w kw ru = (with_state d (DFloat ny nx g'), Ok (Fin ef')) /\ calculate_dmd_state h d in2 target MSimple w kw ru = (with_state d (DBool ny nx f'), Ok (Fin ef')) /\
    Rabs (ef' - ef) <= delta * Rabs ef /\ forall i j, in_array d i j -> exists r r', g i j = Fin r /\ g' i j = Fin r' /\ Rabs (r' - r) <= 4 * delta /\ (f' i j <> f i j -> Rabs (r - 1 / 2) <= 4 * delta).
Proof. exact hologram_stable. Qed.
Print Assumptions C137_stability.
(** A waist of at least 6 mm on a DLP9500: the hologram computed in single precision from the sampled beam is that of the exact Gaussian up to a stated error. *)
Theorem C137_dlp9500 : forall wl fl per th neg h A w target T wa W kw ru tab ly lx, let d := DLP9500 wl fl per th neg in let s := d_slm d in
  let E' := fun i j => RtoC (fl_gaussian_beam single exp32 1080 1920 (pixel_size s) 0 0 A w i j) in
  let S1 := windowed d T W in let K := corner_contrast w * (norm 1080 1920 (spectrum_of 1080 1920 T) / norm 1080 1920 S1) in
  let F := fun _ _ : nat => numpy_fft2 single double tab (direct double tab) ly lx in let q := rounded_polar binary32 in
  good_forward_table (2 * / 2 ^ 53) tab -> Forall (fun r => 2 <= r)%nat (ly ++ lx) -> size ly = 1080%nat -> size lx = 1920%nat ->
  4 <= per <= 2 ^ 20 -> Rabs th <= 4 -> 0 < scaling_factor s <= 2 ^ 100 -> / 2 ^ 30 <= A -> 6 / 1000 <= w ->
  full_target h s target T -> window_reads h s wa W -> (forall i j, in_array d i j -> Cmod (W i j) <= 1) ->
  (exists i j, in_array d i j /\ S1 i j <> RtoC 0) -> (forall i j, in_array d i j -> representable binary32 (T i j)) ->
  K <= 90 -> A / 2 ^ 38 <= norm 1080 1920 S1 -> norm 1080 1920 S1 <= 2 ^ 100 ->
  let S' := fl_spectrum single F 1080 1920 T (window_of wa W) in let bound := 1 / 40 + K / 650 in
  exists g f ef y,
    calculate_dmd_state h d (exact_beam s A w) target MIdeal wa kw ru = (with_state d (DFloat 1080 1920 g), Ok (Fin ef)) /\
    calculate_dmd_state h d (exact_beam s A w) target MSimple wa kw ru = (with_state d (DBool 1080 1920 f), Ok (Fin ef)) /\
    fl_holo_eta single 1080 1920 (pixel_size s) (scaling_factor s) (fl_holo_max single q 1080 1920 S' E') = Some y /\ Rabs (y - ef) <= (1 / 25000 + K / 1400) * ef /\
    forall i j, in_array d i j -> exists r x t, g i j = Fin r /\
      fl_holo_level single q neg 1080 1920 (pixel_size s) (d_p d) th S' E' i j = Some x /\ Rabs (x - r) <= bound /\
      fl_holo_mirror single q neg 1080 1920 (pixel_size s) (d_p d) th S' E' i j = Some t /\ (t <> f i j -> Rabs (r - 1 / 2) <= bound).
Proof. exact wide_hologram. Qed.
Print Assumptions C137_dlp9500.
(** The factor in it. *)
Theorem C137_corner : forall w, 6 / 1000 <= w -> 1 <= corner_contrast w <= 68.
Proof. intros w H. split; [apply corner_ge; lra|exact (corner_6mm w H)]. Qed.
Print Assumptions C137_corner.
(** A waist of 6 mm, a spot as the target: every level is within 0.13, also after all roundings. *)
Example C137_case : forall kw ru, let d := DLP9500 (369 / 1000000000) (200 / 1000) 4 (PI / 4) false in let s := d_slm d in let T := spot 500 900 in let w := 6 / 1000 in
  let tab := rounded_forward_table binary64 in let F := fun _ _ : nat => numpy_fft2 single double tab (direct double tab) [30; 36]%nat [40; 48]%nat in let q := rounded_polar binary32 in
  let E' := fun i j => RtoC (fl_gaussian_beam single exp32 1080 1920 (pixel_size s) 0 0 1 w i j) in let S' := fl_spectrum single F 1080 1920 T None in
  exists g ef, calculate_dmd_state ex_heap d (exact_beam s 1 w) (AConstC (T2 1080 1920 T)) MIdeal None kw ru = (with_state d (DFloat 1080 1920 g), Ok (Fin ef)) /\
    forall i j, in_array d i j -> exists r x, g i j = Fin r /\ fl_holo_level single q false 1080 1920 (pixel_size s) (d_p d) (PI / 4) S' E' i j = Some x /\ Rabs (x - r) <= 0.13.
Proof.
  intros kw ru d s T w tab F q E' S'. set (W := fun _ _ : nat => RtoC 1).
  assert (NT : norm 1080 1920 (spectrum_of 1080 1920 T) = sqrt (INR 1080 * INR 1920)) by (apply norm_unit; intros; apply spot_spectrum; apply Nat.ltb_lt; reflexivity).
  assert (NS : norm 1080 1920 (windowed d T W) = sqrt (INR 1080 * INR 1920)).
  { apply norm_unit. intros i j _ _. unfold windowed, W. rewrite Cmult_1_r. apply spot_spectrum; apply Nat.ltb_lt; reflexivity. }
  assert (Q : sqrt (INR 1080 * INR 1920) = 1440).
  { rewrite !INR_IZR_INZ. change (Z.of_nat 1920) with 1920%Z. change (Z.of_nat 1080) with 1080%Z. replace (1080 * 1920) with (1440 ^ 2) by ring. apply sqrt_pow2. lra. }
  rewrite Q in NT, NS. assert (WR : window_reads ex_heap s None W) by (intros i j; reflexivity).
  assert (TB : good_forward_table (2 * / 2 ^ 53) tab) by exact rounded_forward_good.
  assert (FA : Forall (fun r => 2 <= r)%nat ([30; 36] ++ [40; 48])%nat) by (repeat constructor; lia).
  assert (P4 := PI_4). assert (P0 := PI_RGT_0).
  assert (B1 : / 2 ^ 30 <= 1) by lra. assert (B2 : 4 <= 4 <= 2 ^ 20) by lra. assert (B3 : Rabs (PI / 4) <= 4) by (apply Rabs_le; lra).
  assert (B4 : 0 < scaling_factor s <= 2 ^ 100) by (cbn [scaling_factor s d d_slm DLP9500]; unfold scaling_factor; cbn; lra).
  assert (W1 : forall i j, in_array d i j -> Cmod (W i j) <= 1) by (intros; unfold W; rewrite Cmod_1; lra).
  assert (NZ : exists i j, in_array d i j /\ windowed d T W i j <> RtoC 0).
  { exists 0%nat, 0%nat. split; [split; apply Nat.ltb_lt; reflexivity|]. apply Cmod_gt_0. unfold windowed, W. rewrite Cmult_1_r. change (s_Ny (d_slm d)) with 1080%nat. change (s_Nx (d_slm d)) with 1920%nat. unfold T. rewrite spot_spectrum by (apply Nat.ltb_lt; reflexivity). lra. }
  assert (TR : forall i j, in_array d i j -> representable binary32 (T i j)).
  { intros i j _. assert (Z0 := FloatFacts.fl_0 _ _ _ _ FloatFacts.binary32_arithmetic ltac:(lia)). assert (Z1 := ar_exact _ _ _ _ FloatFacts.binary32_arithmetic 1 0 ltac:(lia) ltac:(lia)). replace (IZR 1 / 2 ^ 0) with 1 in Z1 by (cbn [pow]; field).
    unfold T, spot. destruct (andb _ _); split; cbn [fst snd RtoC]; assumption. }
  destruct (C137_corner w (Rle_refl _)) as [C1 C2]. assert (N1 : 1440 / 1440 = 1) by lra.
  destruct (C137_dlp9500 (369 / 1000000000) (200 / 1000) 4 (PI / 4) false ex_heap 1 w (AConstC (T2 1080 1920 T)) T None W kw ru tab [30; 36]%nat [40; 48]%nat
    TB FA eq_refl eq_refl B2 B3 B4 B1 (Rle_refl _) eq_refl WR W1 NZ TR) as (g & f & ef & y & G & _ & _ & _ & V).
  - fold d. rewrite NS, NT, N1. lra.
  - fold d. rewrite NS. lra.
  - fold d. rewrite NS. lra.
  - exists g, ef. split; [exact G|]. intros i j Hij. destruct (V i j Hij) as (r & x & t & V1 & V2 & V3 & _). exists r, x. split; [exact V1|]. split; [exact V2|]. fold d in V3. rewrite NS, NT, N1 in V3. lra.
Qed.
