(** Holograms in floating point (C134). *)
From Coq Require Import Reals Lra Lia ZArith Arith List.
From Coquelicot Require Import Complex.
From Verif Require Import Cx Sums DFT PyBase ProfileModel SlmModel LibModel DmdModel SimModel SimSpec SimExamples DmdSpec FloatModel FloatSpec FloatFacts FloatFacts2 FloatFacts3 FlSimSpec NormFacts FftModel FftSpec FftFacts3 FwdModel FwdSpec FwdFacts FwdFacts2 FlHoloModel FlHoloSpec FlHoloFacts3 FlHoloFacts4 FlHoloFacts5.
From Verif Require Import FringeSpec FringeErr2.
Import ListNotations.
Open Scope R_scope.

(** Any device, arithmetic, transform and window: the rounded levels, mirrors and efficiency stay near the exact ones. *)
Theorem C134_rounded_hologram : forall a u eta u' eta' v B B' q o F e dd h d input target w E T W kw ru b,
  arithmetic u eta B (rnd a) -> arithmetic u' eta' B' (dbl a) -> (2 ^ 22 <= B)%Z -> (2 ^ 22 <= B')%Z -> library a -> FringeSpec.accurate a v -> accurate_polar q v o ->
  0 <= u <= / 2 ^ 24 -> u <= v -> 0 <= u' <= v -> v <= / 2 ^ 16 -> 0 <= eta <= v -> eta' <= v -> 0 <= o ->
  let s := d_slm d in let ny := s_Ny s in let nx := s_Nx s in let S := spectrum_of ny nx T in let S1 := windowed d T W in
  let K := contrast ny nx E S S1 b in
  full_input h s input E -> full_target h s target T -> window_reads h s w W ->
  (forall i j, in_array d i j -> b <= Cmod (E i j)) -> 0 < b -> (forall i j, in_array d i j -> Cmod (W i j) <= 1) ->
  (exists i j, in_array d i j /\ S1 i j <> RtoC 0) ->
  (forall i j, in_array d i j -> representable (rnd a) (T i j)) -> accurate_forward a e dd ny nx (F ny nx) -> 0 <= e ->
  e * K <= 1 / 17 -> holo_no_underflow v b eta o dd ny nx E S1 -> no_underflow eta v (pixel_size s) (d_p d) ->
  eta_no_underflow v eta' (pixel_size s) (scaling_factor s) (INR nx * INR ny) b ny nx S1 ->
  (Z.of_nat ny <= 2 ^ 20)%Z -> (Z.of_nat nx <= 2 ^ 20)%Z -> 0 < pixel_size s -> 0 < scaling_factor s -> 0 < d_p d -> Rabs (d_theta d) <= 4 ->
  let S' := fl_spectrum a F ny nx T (window_of w W) in
  let bound := fun i j => 16 * v * (phase_size (d_p d) (pixel_size s) (mirror_x s j) (mirror_y s i) + 12) + 4 * (e * K) in
  exists g f ef y,
    calculate_dmd_state h d input target MIdeal w kw ru = (with_state d (DFloat ny nx g), Ok (Fin ef)) /\
    calculate_dmd_state h d input target MSimple w kw ru = (with_state d (DBool ny nx f), Ok (Fin ef)) /\
    fl_holo_eta a ny nx (pixel_size s) (scaling_factor s) (fl_holo_max a q ny nx S' E) = Some y /\ Rabs (y - ef) <= (2 * (e * K) + 40 * v) * ef /\
    forall i j, in_array d i j -> exists r x t, g i j = Fin r /\
      fl_holo_level a q (d_neg d) ny nx (pixel_size s) (d_p d) (d_theta d) S' E i j = Some x /\ Rabs (x - r) <= bound i j /\
      fl_holo_mirror a q (d_neg d) ny nx (pixel_size s) (d_p d) (d_theta d) S' E i j = Some t /\ (t <> f i j -> Rabs (r - 1 / 2) <= bound i j).
Proof. exact hologram_rounded. Qed.
Print Assumptions C134_rounded_hologram.
(** A DLP9500 in single precision with the NumPy transform. *)
Theorem C134_dlp9500 : forall wl fl per th neg h input target w E T W kw ru b tab ly lx,
  let d := DLP9500 wl fl per th neg in let s := d_slm d in let S1 := windowed d T W in let K := contrast 1080 1920 E (spectrum_of 1080 1920 T) S1 b in
  let F := fun _ _ : nat => numpy_fft2 single double tab (direct double tab) ly lx in let q := rounded_polar binary32 in
  good_forward_table (2 * / 2 ^ 53) tab -> Forall (fun r => 2 <= r)%nat (ly ++ lx) -> size ly = 1080%nat -> size lx = 1920%nat ->
  4 <= per <= 2 ^ 20 -> Rabs th <= 4 -> 0 < scaling_factor s <= 2 ^ 100 ->
  full_input h s input E -> full_target h s target T -> window_reads h s w W ->
  (forall i j, in_array d i j -> b <= Cmod (E i j)) -> / 2 ^ 40 <= b -> (forall i j, in_array d i j -> Cmod (W i j) <= 1) ->
  (exists i j, in_array d i j /\ S1 i j <> RtoC 0) -> (forall i j, in_array d i j -> representable binary32 (T i j)) ->
  K <= 2 ^ 17 -> / 2 ^ 50 <= norm 1080 1920 S1 / norm 1080 1920 E -> norm 1080 1920 S1 <= 2 ^ 100 ->
  let S' := fl_spectrum single F 1080 1920 T (window_of w W) in let bound := 1 / 40 + K / 2 ^ 20 in
  exists g f ef y,
    calculate_dmd_state h d input target MIdeal w kw ru = (with_state d (DFloat 1080 1920 g), Ok (Fin ef)) /\
    calculate_dmd_state h d input target MSimple w kw ru = (with_state d (DBool 1080 1920 f), Ok (Fin ef)) /\
    fl_holo_eta single 1080 1920 (pixel_size s) (scaling_factor s) (fl_holo_max single q 1080 1920 S' E) = Some y /\ Rabs (y - ef) <= (/ 50000 + K / 2 ^ 21) * ef /\
    forall i j, in_array d i j -> exists r x t, g i j = Fin r /\
      fl_holo_level single q neg 1080 1920 (pixel_size s) (d_p d) th S' E i j = Some x /\ Rabs (x - r) <= bound /\
      fl_holo_mirror single q neg 1080 1920 (pixel_size s) (d_p d) th S' E i j = Some t /\ (t <> f i j -> Rabs (r - 1 / 2) <= bound).
Proof. exact hologram_9500. Qed.
Print Assumptions C134_dlp9500.
(** The forward transform of the NumPy backend: computed in double precision, returned in single. *)
Theorem C134_numpy_transform : forall w ly lx,
 good_forward_table (2 * / 2 ^ 53) w -> Forall (fun r => 2 <= r)%nat (ly ++ lx) -> (size ly <= 4096)%nat -> (size lx <= 4096)%nat ->
  accurate_forward single (/ 2 ^ 22) (/ 2 ^ 120) (size ly) (size lx) (numpy_fft2 single double w (direct double w) ly lx).
Proof. exact numpy_forward. Qed.
Print Assumptions C134_numpy_transform.
(** Without rounding the formulas are the exact model, so the theorems above speak about its state and efficiency. *)
Theorem C134_no_rounding : forall h d input target w E T W kw ru b,
  let s := d_slm d in let ny := s_Ny s in let nx := s_Nx s in
  full_input h s input E -> full_target h s target T -> window_reads h s w W ->
  (forall i j, in_array d i j -> b <= Cmod (E i j)) -> 0 < b -> (forall i j, in_array d i j -> Cmod (W i j) <= 1) ->
  (exists i j, in_array d i j /\ windowed d T W i j <> RtoC 0) ->
  (Z.of_nat ny <= 2 ^ 20)%Z -> (Z.of_nat nx <= 2 ^ 20)%Z -> 0 < pixel_size s -> 0 < scaling_factor s -> 0 < d_p d -> Rabs (d_theta d) <= 4 ->
  let S' := fl_spectrum exact fft2 ny nx T (window_of w W) in
  exists g f ef,
    calculate_dmd_state h d input target MIdeal w kw ru = (with_state d (DFloat ny nx g), Ok (Fin ef)) /\
    calculate_dmd_state h d input target MSimple w kw ru = (with_state d (DBool ny nx f), Ok (Fin ef)) /\
    fl_holo_eta exact ny nx (pixel_size s) (scaling_factor s) (fl_holo_max exact exact_polar ny nx S' E) = Some ef /\
    forall i j, in_array d i j -> exists r, g i j = Fin r /\
      fl_holo_level exact exact_polar (d_neg d) ny nx (pixel_size s) (d_p d) (d_theta d) S' E i j = Some r /\
      (r <> 1 / 2 -> fl_holo_mirror exact exact_polar (d_neg d) ny nx (pixel_size s) (d_p d) (d_theta d) S' E i j = Some (f i j)).
Proof. exact hologram_exact. Qed.
Print Assumptions C134_no_rounding.
(** Correctly rounded modulus and angle are accurate. *)
Theorem C134_polar : accurate_polar (rounded_polar binary32) (/ 2 ^ 21) (/ 2 ^ 150) /\ accurate_polar (rounded_polar binary64) (/ 2 ^ 50) (/ 2 ^ 1075).
Proof. exact machine_polar. Qed.
Print Assumptions C134_polar.
(** A flat beam and one bright pixel on a DLP9500: every level is within 1/37 of the exact one. *)
Example C134_case : forall kw ru, let d := DLP9500 (369 / 1000000000) (200 / 1000) 4 (PI / 4) false in let s := d_slm d in
  let E := fun _ _ : nat => RtoC 1 in let T := spot 540 960 in let tab := rounded_forward_table binary64 in
  let F := fun _ _ : nat => numpy_fft2 single double tab (direct double tab) [30; 36]%nat [40; 48]%nat in
  let S' := fl_spectrum single F 1080 1920 T None in
  exists g ef, calculate_dmd_state ex_heap d (AConstC (T2 1080 1920 E)) (AConstC (T2 1080 1920 T)) MIdeal None kw ru = (with_state d (DFloat 1080 1920 g), Ok (Fin ef)) /\
    forall i j, in_array d i j -> exists r x, g i j = Fin r /\ fl_holo_level single (rounded_polar binary32) false 1080 1920 (pixel_size s) (d_p d) (PI / 4) S' E i j = Some x /\ Rabs (x - r) <= 1 / 37.
Proof.
  intros kw ru d s E T tab F S'. set (W := fun _ _ : nat => RtoC 1).
  assert (NE : norm 1080 1920 E = sqrt (INR 1080 * INR 1920)) by (apply norm_unit; intros; apply Cmod_1).
  assert (NT : norm 1080 1920 (spectrum_of 1080 1920 T) = sqrt (INR 1080 * INR 1920)) by (apply norm_unit; intros; apply spot_spectrum; apply Nat.ltb_lt; reflexivity).
  assert (NS : norm 1080 1920 (windowed d T W) = sqrt (INR 1080 * INR 1920)).
  { apply norm_unit. intros i j _ _. unfold windowed, W. rewrite Cmult_1_r. apply spot_spectrum; apply Nat.ltb_lt; reflexivity. }
  assert (Q : sqrt (INR 1080 * INR 1920) = 1440).
  { rewrite !INR_IZR_INZ. change (Z.of_nat 1920) with 1920%Z. change (Z.of_nat 1080) with 1080%Z. replace (1080 * 1920) with (1440 ^ 2) by ring. apply sqrt_pow2. lra. }
  rewrite Q in NE, NT, NS.
  assert (KE : contrast 1080 1920 E (spectrum_of 1080 1920 T) (windowed d T W) 1 = 1440) by (unfold contrast; rewrite NE, NT, NS; field).
  assert (WR : window_reads ex_heap s None W) by (intros i j; reflexivity).
  assert (TB : good_forward_table (2 * / 2 ^ 53) tab) by exact rounded_forward_good.
  assert (FA : Forall (fun r => 2 <= r)%nat ([30; 36] ++ [40; 48])%nat) by (repeat constructor; lia).
  assert (P4 := PI_4). assert (P0 := PI_RGT_0).
  assert (B1 : / 2 ^ 40 <= 1) by lra. assert (B2 : 4 <= 4 <= 2 ^ 20) by lra. assert (B3 : Rabs (PI / 4) <= 4) by (apply Rabs_le; lra).
  assert (B4 : 0 < scaling_factor s <= 2 ^ 100) by (cbn [scaling_factor s d d_slm DLP9500]; unfold scaling_factor; cbn; lra).
  assert (Eb : forall i j, in_array d i j -> 1 <= Cmod (E i j)) by (intros; unfold E; rewrite Cmod_1; lra).
  assert (W1 : forall i j, in_array d i j -> Cmod (W i j) <= 1) by (intros; unfold W; rewrite Cmod_1; lra).
  assert (NZ : exists i j, in_array d i j /\ windowed d T W i j <> RtoC 0).
  { exists 0%nat, 0%nat. split; [split; apply Nat.ltb_lt; reflexivity|]. apply Cmod_gt_0. unfold windowed, W. rewrite Cmult_1_r. change (s_Ny (d_slm d)) with 1080%nat. change (s_Nx (d_slm d)) with 1920%nat. unfold T. rewrite spot_spectrum by (apply Nat.ltb_lt; reflexivity). lra. }
  assert (TR : forall i j, in_array d i j -> representable binary32 (T i j)).
  { intros i j _. assert (Z0 := FloatFacts.fl_0 _ _ _ _ binary32_arithmetic ltac:(lia)). assert (Z1 := ar_exact _ _ _ _ binary32_arithmetic 1 0 ltac:(lia) ltac:(lia)). replace (IZR 1 / 2 ^ 0) with 1 in Z1 by (cbn [pow]; field).
    unfold T, spot. destruct (andb _ _); split; cbn [fst snd RtoC]; assumption. }
  destruct (C134_dlp9500 (369 / 1000000000) (200 / 1000) 4 (PI / 4) false ex_heap (AConstC (T2 1080 1920 E)) (AConstC (T2 1080 1920 T)) None E T W kw ru 1 tab [30; 36]%nat [40; 48]%nat
    TB FA eq_refl eq_refl B2 B3 B4 eq_refl eq_refl WR Eb B1 W1 NZ TR) as (g & f & ef & y & G & _ & _ & _ & V).
  - fold d. rewrite KE. lra.
  - fold d. rewrite NE, NS. lra.
  - fold d. rewrite NS. lra.
  - exists g, ef. split; [exact G|]. intros i j Hij. destruct (V i j Hij) as (r & x & t & V1 & V2 & V3 & _). exists r, x. split; [exact V1|]. split; [exact V2|]. fold d in V3. rewrite KE in V3. lra.
Qed.
