(** The image computed in floating point (C135). *)
From Coq Require Import Reals Lra Lia ZArith Arith List.
From Coquelicot Require Import Complex.
From Verif Require Import Cx Sums DFT PyBase ProfileModel SlmModel LibModel DmdModel SimModel SimSpec SimFacts SimExamples DmdSpec FloatModel FloatSpec FloatFacts FloatFacts2 FloatFacts3 FringeSpec FlSimModel FlSimSpec NormFacts FlLcosModel FftModel FftSpec FftFacts3 FwdModel FwdSpec FwdFacts FwdFacts2 FlHoloModel FlHoloSpec FlHoloFacts3 FlHoloFacts4 FlHoloFacts5 FlImgFacts3 FlImgFacts4 FlImgFacts5 FlImgFacts6.
From Verif Require AmpFacts4 HoloFacts2.
Import ListNotations.
Open Scope R_scope.

(** Any device and arithmetic, an accurate transform: the computed image is near the exact one, as fields. St' is the state the computation sees. *)
Theorem C135_simulation : forall a u eta u' eta' B B' F e d h dev m arg E St St' m' I,
  arithmetic u eta B (rnd a) -> (2 ^ 22 <= B)%Z -> arithmetic u' eta' B' (dbl a) -> (2 ^ 40 <= B')%Z -> 0 <= u <= 1 / 8 -> 0 <= eta -> u' <= u -> eta' <= eta ->
  let s := dev_slm dev in let ny := NY s m in let nx := NX s m in let ps := pixel_size s in let sf := scaling_factor s in let N := INR (ny * nx) in
  full_input h s arg E -> full_state dev St -> propagate_to_image h dev m arg = (m', Ok tt) -> field_is (f_image m') ny nx I ->
  (0 < s_Ny s)%nat -> (0 < s_Nx s)%nat -> (Z.of_nat (ny * nx) <= 2 ^ 40)%Z -> 0 < ps -> 0 < sf -> far_from_underflow u eta ny nx ps sf ->
  0 <= e -> 0 <= d -> accurate a e d ny nx (F ny nx) ->
  let image := fl_to_image a F ny nx ps sf (fl_output a (Z.to_nat (pad_y m)) (Z.to_nat (pad_x m)) (s_Ny s) (s_Nx s) E St') in
  sqrt (field_power ny nx (sf ^ 2 / N / ps ^ 2) (fun i j => image i j - I i j)%C) <=
  ((1 + e) * (1 + 4 * u) ^ 6 - 1) * sqrt (field_power (s_Ny s) (s_Nx s) (ps ^ 2) (fun i j => E i j * St' i j)%C)
  + sqrt (field_power (s_Ny s) (s_Nx s) (ps ^ 2) (fun i j => E i j * (St' i j - St i j))%C)
  + (1 + e) * (1 + 4 * u) ^ 5 * (ps * sqrt N * (d + 5 * eta) + 2 * (sf / ps) * eta).
Proof. exact image_error. Qed.
Print Assumptions C135_simulation.
(** A DMD whose grey levels are off by at most b. *)
Theorem C135_grey_levels : forall a u eta u' eta' B B' F e d h dm m arg E g X r b m' I,
  arithmetic u eta B (rnd a) -> (2 ^ 22 <= B)%Z -> arithmetic u' eta' B' (dbl a) -> (2 ^ 40 <= B')%Z -> 0 <= u <= 1 / 8 -> 0 <= eta -> u' <= u -> eta' <= eta ->
  let s := d_slm dm in let ny := NY s m in let nx := NX s m in let ps := pixel_size s in let sf := scaling_factor s in let N := INR (ny * nx) in
  d_state dm = DFloat (s_Ny s) (s_Nx s) g -> (forall i j, in_array dm i j -> g i j = Fin (r i j) /\ Rabs (r i j) <= 1 /\ Rabs (X i j - r i j) <= b) -> 0 <= b ->
  full_input h s arg E -> propagate_to_image h (DevDmd dm) m arg = (m', Ok tt) -> field_is (f_image m') ny nx I ->
  (0 < s_Ny s)%nat -> (0 < s_Nx s)%nat -> (Z.of_nat (ny * nx) <= 2 ^ 40)%Z -> 0 < ps -> 0 < sf -> far_from_underflow u eta ny nx ps sf ->
  0 <= e -> 0 <= d -> accurate a e d ny nx (F ny nx) ->
  let image := fl_to_image a F ny nx ps sf (fl_output a (Z.to_nat (pad_y m)) (Z.to_nat (pad_x m)) (s_Ny s) (s_Nx s) E (fun i j => RtoC (X i j))) in
  sqrt (field_power ny nx (sf ^ 2 / N / ps ^ 2) (fun i j => image i j - I i j)%C) <=
  (((1 + e) * (1 + 4 * u) ^ 6 - 1) * (1 + b) + b) * sqrt (field_power (s_Ny s) (s_Nx s) (ps ^ 2) E)
  + (1 + e) * (1 + 4 * u) ^ 5 * (ps * sqrt N * (d + 5 * eta) + 2 * (sf / ps) * eta).
Proof. exact levels_image. Qed.
Print Assumptions C135_grey_levels.
(** An LCOS: the phase factors are computed from the stored phases. *)
Theorem C135_lcos : forall a u eta u' eta' v B B' F e d h l m arg E phi m' I,
  arithmetic u eta B (rnd a) -> (2 ^ 22 <= B)%Z -> arithmetic u' eta' B' (dbl a) -> (2 ^ 40 <= B')%Z -> 0 <= u <= 1 / 8 -> 0 <= eta -> u' <= u -> eta' <= eta ->
  FringeSpec.accurate a v -> u <= v -> eta <= v ->
  let s := l_slm l in let ny := NY s m in let nx := NX s m in let ps := pixel_size s in let sf := scaling_factor s in let N := INR (ny * nx) in
  l_state l = LReal (s_Ny s) (s_Nx s) phi -> (forall i j, (i < s_Ny s)%nat -> (j < s_Nx s)%nat -> Rabs (phi i j) <= 7) ->
  full_input h s arg E -> propagate_to_image h (DevLcos l) m arg = (m', Ok tt) -> field_is (f_image m') ny nx I ->
  (0 < s_Ny s)%nat -> (0 < s_Nx s)%nat -> (Z.of_nat (ny * nx) <= 2 ^ 40)%Z -> 0 < ps -> 0 < sf -> far_from_underflow u eta ny nx ps sf ->
  0 <= e -> 0 <= d -> FlSimSpec.accurate a e d ny nx (F ny nx) ->
  let image := fl_to_image a F ny nx ps sf (fl_output a (Z.to_nat (pad_y m)) (Z.to_nat (pad_x m)) (s_Ny s) (s_Nx s) E (fun i j => fl_phase_factor a (phi i j))) in
  sqrt (field_power ny nx (sf ^ 2 / N / ps ^ 2) (fun i j => image i j - I i j)%C) <=
  (((1 + e) * (1 + 4 * u) ^ 6 - 1) * (1 + 27 / 2 * v) + 27 / 2 * v) * sqrt (field_power (s_Ny s) (s_Nx s) (ps ^ 2) E)
  + (1 + e) * (1 + 4 * u) ^ 5 * (ps * sqrt N * (d + 5 * eta) + 2 * (sf / ps) * eta).
Proof. exact lcos_image. Qed.
Print Assumptions C135_lcos.
(** An LCOS in single precision with NumPy's transform: the error is below 2^-17 of the input. *)
Theorem C135_lcos_single : forall h l m arg E phi m' I tab ly lx,
  let s := l_slm l in let F := fun _ _ : nat => numpy_ifft2 single double tab (direct double tab) ly lx in
  good_table (2 * / 2 ^ 53) tab -> Forall (fun r => 2 <= r)%nat (ly ++ lx) -> size ly = NY s m -> size lx = NX s m -> (NY s m <= 4096)%nat -> (NX s m <= 4096)%nat ->
  l_state l = LReal (s_Ny s) (s_Nx s) phi -> (forall i j, (i < s_Ny s)%nat -> (j < s_Nx s)%nat -> Rabs (phi i j) <= 7) ->
  full_input h s arg E -> propagate_to_image h (DevLcos l) m arg = (m', Ok tt) -> field_is (f_image m') (NY s m) (NX s m) I ->
  (0 < s_Ny s)%nat -> (0 < s_Nx s)%nat -> / 2 ^ 20 <= pixel_size s <= 1 -> / 2 ^ 40 <= scaling_factor s <= 1 ->
  let image := fl_to_image single F (NY s m) (NX s m) (pixel_size s) (scaling_factor s) (fl_output single (Z.to_nat (pad_y m)) (Z.to_nat (pad_x m)) (s_Ny s) (s_Nx s) E (fun i j => fl_phase_factor single (phi i j))) in
  sqrt (field_power (NY s m) (NX s m) (scaling_factor s ^ 2 / INR (NY s m * NX s m) / pixel_size s ^ 2) (fun i j => image i j - I i j)%C) <=
  / 2 ^ 17 * sqrt (field_power (s_Ny s) (s_Nx s) (pixel_size s ^ 2) E) + / 2 ^ 100.
Proof. exact single_lcos_image. Qed.
Print Assumptions C135_lcos_single.
(** Hologram and simulation, both in single precision with NumPy's transforms: a DLP9500 showing the grey levels. *)
Theorem C135_dlp9500 : forall wl fl per th neg h input target w E T W kw ru b tab ly lx,
  let d := DLP9500 wl fl per th neg in let s := d_slm d in let S1 := windowed d T W in let K := contrast 1080 1920 E (spectrum_of 1080 1920 T) S1 b in
  let F := fun _ _ : nat => numpy_fft2 single double tab (direct double tab) ly lx in let q := rounded_polar binary32 in
  good_forward_table (2 * / 2 ^ 53) tab -> Forall (fun r => 2 <= r)%nat (ly ++ lx) -> size ly = 1080%nat -> size lx = 1920%nat ->
  4 <= per <= 2 ^ 20 -> Rabs th <= 4 -> / 2 ^ 40 <= scaling_factor s <= 1 ->
  full_input h s input E -> full_target h s target T -> window_reads h s w W ->
  (forall i j, in_array d i j -> b <= Cmod (E i j)) -> / 2 ^ 40 <= b -> (forall i j, in_array d i j -> Cmod (W i j) <= 1) ->
  (exists i j, in_array d i j /\ S1 i j <> RtoC 0) -> (forall i j, in_array d i j -> representable binary32 (T i j)) ->
  K <= 2 ^ 17 -> / 2 ^ 50 <= norm 1080 1920 S1 / norm 1080 1920 E -> norm 1080 1920 S1 <= 2 ^ 100 ->
  let S' := fl_spectrum single F 1080 1920 T (window_of w W) in
  exists g ef X,
    calculate_dmd_state h d input target MIdeal w kw ru = (with_state d (DFloat 1080 1920 g), Ok (Fin ef)) /\
    (forall i j, in_array d i j -> fl_holo_level single q neg 1080 1920 (pixel_size s) (d_p d) th S' E i j = Some (X i j)) /\
    forall m arg E2 m' I tab' ly' lx', good_table (2 * / 2 ^ 53) tab' -> Forall (fun r => 2 <= r)%nat (ly' ++ lx') -> size ly' = NY s m -> size lx' = NX s m -> (NY s m <= 4096)%nat -> (NX s m <= 4096)%nat ->
      full_input h s arg E2 -> propagate_to_image h (DevDmd (with_state d (DFloat 1080 1920 g))) m arg = (m', Ok tt) -> field_is (f_image m') (NY s m) (NX s m) I ->
      let F' := fun _ _ : nat => numpy_ifft2 single double tab' (direct double tab') ly' lx' in
      let image := fl_to_image single F' (NY s m) (NX s m) (pixel_size s) (scaling_factor s) (fl_output single (Z.to_nat (pad_y m)) (Z.to_nat (pad_x m)) 1080 1920 E2 (fun i j => RtoC (X i j))) in
      sqrt (field_power (NY s m) (NX s m) (scaling_factor s ^ 2 / INR (NY s m * NX s m) / pixel_size s ^ 2) (fun i j => image i j - I i j)%C) <=
      (1 / 39 + K / 2 ^ 20) * sqrt (field_power 1080 1920 (pixel_size s ^ 2) E2) + / 2 ^ 100.
Proof. exact image_9500. Qed.
Print Assumptions C135_dlp9500.
(** The same with mirrors that are on or off. Q is the input on the mirrors whose exact level is near the threshold: only that light can be switched wrongly. *)
Theorem C135_switched_mirrors : forall wl fl per th neg h input target w E T W kw ru b tab ly lx,
  let d := DLP9500 wl fl per th neg in let s := d_slm d in let S1 := windowed d T W in let K := contrast 1080 1920 E (spectrum_of 1080 1920 T) S1 b in
  let F := fun _ _ : nat => numpy_fft2 single double tab (direct double tab) ly lx in let q := rounded_polar binary32 in
  good_forward_table (2 * / 2 ^ 53) tab -> Forall (fun r => 2 <= r)%nat (ly ++ lx) -> size ly = 1080%nat -> size lx = 1920%nat ->
  4 <= per <= 2 ^ 20 -> Rabs th <= 4 -> / 2 ^ 40 <= scaling_factor s <= 1 ->
  full_input h s input E -> full_target h s target T -> window_reads h s w W ->
  (forall i j, in_array d i j -> b <= Cmod (E i j)) -> / 2 ^ 40 <= b -> (forall i j, in_array d i j -> Cmod (W i j) <= 1) ->
  (exists i j, in_array d i j /\ S1 i j <> RtoC 0) -> (forall i j, in_array d i j -> representable binary32 (T i j)) ->
  K <= 2 ^ 17 -> / 2 ^ 50 <= norm 1080 1920 S1 / norm 1080 1920 E -> norm 1080 1920 S1 <= 2 ^ 100 ->
  let S' := fl_spectrum single F 1080 1920 T (window_of w W) in
  exists g f ef t,
    calculate_dmd_state h d input target MIdeal w kw ru = (with_state d (DFloat 1080 1920 g), Ok (Fin ef)) /\
    calculate_dmd_state h d input target MSimple w kw ru = (with_state d (DBool 1080 1920 f), Ok (Fin ef)) /\
    (forall i j, in_array d i j -> fl_holo_mirror single q neg 1080 1920 (pixel_size s) (d_p d) th S' E i j = Some (t i j)) /\
    forall m arg E2 m' I tab' ly' lx' Q, good_table (2 * / 2 ^ 53) tab' -> Forall (fun r => 2 <= r)%nat (ly' ++ lx') -> size ly' = NY s m -> size lx' = NX s m -> (NY s m <= 4096)%nat -> (NX s m <= 4096)%nat ->
      full_input h s arg E2 -> propagate_to_image h (DevDmd (with_state d (DBool 1080 1920 f))) m arg = (m', Ok tt) -> field_is (f_image m') (NY s m) (NX s m) I ->
      (forall i j r, in_array d i j -> g i j = Fin r -> Rabs (r - 1 / 2) <= 1 / 40 + K / 2 ^ 20 -> Q i j = E2 i j) ->
      let F' := fun _ _ : nat => numpy_ifft2 single double tab' (direct double tab') ly' lx' in
      let image := fl_to_image single F' (NY s m) (NX s m) (pixel_size s) (scaling_factor s) (fl_output single (Z.to_nat (pad_y m)) (Z.to_nat (pad_x m)) 1080 1920 E2 (fun i j => RtoC (if t i j then 1 else 0))) in
      sqrt (field_power (NY s m) (NX s m) (scaling_factor s ^ 2 / INR (NY s m * NX s m) / pixel_size s ^ 2) (fun i j => image i j - I i j)%C) <=
      / 2 ^ 18 * sqrt (field_power 1080 1920 (pixel_size s ^ 2) E2) + sqrt (field_power 1080 1920 (pixel_size s ^ 2) Q) + / 2 ^ 100.
Proof. exact mirrors_9500. Qed.
Print Assumptions C135_switched_mirrors.
(** A flat beam and one bright pixel on a DLP9500, simulated with 100 pixels of padding: the image is off by at most 1/37 of the input. *)
Example C135_case : forall kw ru, let d := DLP9500 (369 / 1000000000) (200 / 1000) 4 (PI / 4) false in let s := d_slm d in
  let E := fun _ _ : nat => RtoC 1 in let T := spot 540 960 in let tab := rounded_forward_table binary64 in
  let F := fun _ _ : nat => numpy_fft2 single double tab (direct double tab) [30; 36]%nat [40; 48]%nat in
  let S' := fl_spectrum single F 1080 1920 T None in let m := {| pad_x := 100; pad_y := 100; f_input := None; f_output := None; f_image := None |} in
  let tab' := rounded_table binary64 in let F' := fun _ _ : nat => numpy_ifft2 single double tab' (direct double tab') [32; 40]%nat [40; 53]%nat in
  exists g ef X m' I, calculate_dmd_state ex_heap d (AConstC (T2 1080 1920 E)) (AConstC (T2 1080 1920 T)) MIdeal None kw ru = (with_state d (DFloat 1080 1920 g), Ok (Fin ef)) /\
    (forall i j, in_array d i j -> fl_holo_level single (rounded_polar binary32) false 1080 1920 (pixel_size s) (d_p d) (PI / 4) S' E i j = Some (X i j)) /\
    propagate_to_image ex_heap (DevDmd (with_state d (DFloat 1080 1920 g))) m (AConstC (T2 1080 1920 E)) = (m', Ok tt) /\ field_is (f_image m') 1280 2120 I /\
    let image := fl_to_image single F' 1280 2120 (pixel_size s) (scaling_factor s) (fl_output single 100 100 1080 1920 E (fun i j => RtoC (X i j))) in
    sqrt (field_power 1280 2120 (scaling_factor s ^ 2 / INR (1280 * 2120) / pixel_size s ^ 2) (fun i j => image i j - I i j)%C) <= 1 / 37 * sqrt (field_power 1080 1920 (pixel_size s ^ 2) E) + / 2 ^ 100.
Proof.
  intros kw ru d s E T tab F S' m tab' F'. set (W := fun _ _ : nat => RtoC 1).
  assert (NE : norm 1080 1920 E = sqrt (INR 1080 * INR 1920)) by (apply norm_unit; intros; apply Cmod_1).
  assert (NT : norm 1080 1920 (spectrum_of 1080 1920 T) = sqrt (INR 1080 * INR 1920)) by (apply norm_unit; intros; apply spot_spectrum; apply Nat.ltb_lt; reflexivity).
  assert (NS : norm 1080 1920 (windowed d T W) = sqrt (INR 1080 * INR 1920)).
  { apply norm_unit. intros i j _ _. unfold windowed, W. rewrite Cmult_1_r. apply spot_spectrum; apply Nat.ltb_lt; reflexivity. }
  assert (Q : sqrt (INR 1080 * INR 1920) = 1440).
  { rewrite !INR_IZR_INZ. change (Z.of_nat 1920) with 1920%Z. change (Z.of_nat 1080) with 1080%Z. replace (1080 * 1920) with (1440 ^ 2) by ring. apply sqrt_pow2. lra. }
  rewrite Q in NE, NT, NS.
  assert (KE : contrast 1080 1920 E (spectrum_of 1080 1920 T) (windowed d T W) 1 = 1440) by (unfold contrast; rewrite NE, NT, NS; field).
  assert (WR : window_reads ex_heap s None W) by (intros i j; reflexivity).
  assert (TB : good_forward_table (2 * / 2 ^ 53) tab) by exact rounded_forward_good.
  assert (FA : Forall (fun r => 2 <= r)%nat ([30; 36] ++ [40; 48])%nat) by (repeat constructor; lia).
  assert (P4 := PI_4). assert (P0 := PI_RGT_0).
  assert (B1 : / 2 ^ 40 <= 1) by lra. assert (B2 : 4 <= 4 <= 2 ^ 20) by lra. assert (B3 : Rabs (PI / 4) <= 4) by (apply Rabs_le; lra).
  assert (B4 : / 2 ^ 40 <= scaling_factor s <= 1) by (cbn [scaling_factor s d d_slm DLP9500]; unfold scaling_factor; cbn; lra).
  assert (Eb : forall i j, in_array d i j -> 1 <= Cmod (E i j)) by (intros; unfold E; rewrite Cmod_1; lra).
  assert (W1 : forall i j, in_array d i j -> Cmod (W i j) <= 1) by (intros; unfold W; rewrite Cmod_1; lra).
  assert (NZ : exists i j, in_array d i j /\ windowed d T W i j <> RtoC 0).
  { exists 0%nat, 0%nat. split; [split; apply Nat.ltb_lt; reflexivity|]. apply Cmod_gt_0. unfold windowed, W. rewrite Cmult_1_r. change (s_Ny (d_slm d)) with 1080%nat. change (s_Nx (d_slm d)) with 1920%nat. unfold T. rewrite spot_spectrum by (apply Nat.ltb_lt; reflexivity). lra. }
  assert (TR : forall i j, in_array d i j -> representable binary32 (T i j)).
  { intros i j _. assert (Z0 := FloatFacts.fl_0 _ _ _ _ binary32_arithmetic ltac:(lia)). assert (Z1 := ar_exact _ _ _ _ binary32_arithmetic 1 0 ltac:(lia) ltac:(lia)). replace (IZR 1 / 2 ^ 0) with 1 in Z1 by (cbn [pow]; field).
    unfold T, spot. destruct (andb _ _); split; cbn [fst snd RtoC]; assumption. }
  assert (K1 : 1440 <= 2 ^ 17) by lra. assert (K2 : / 2 ^ 50 <= 1440 / 1440) by lra. assert (K3 : 1440 <= 2 ^ 100) by lra. rewrite <- KE in K1. rewrite <- NS in K2 at 1. rewrite <- NE in K2. rewrite <- NS in K3.
  assert (B5 : 0 < scaling_factor s <= 2 ^ 100) by lra.
  destruct (hologram_9500 (369 / 1000000000) (200 / 1000) 4 (PI / 4) false ex_heap (AConstC (T2 1080 1920 E)) (AConstC (T2 1080 1920 T)) None E T W kw ru 1 tab [30; 36]%nat [40; 48]%nat
    TB FA eq_refl eq_refl B2 B3 B5 eq_refl eq_refl WR Eb B1 W1 NZ TR K1 K2 K3) as (g' & f' & ef' & y' & G' & _ & _ & _ & V').
  destruct (C135_dlp9500 (369 / 1000000000) (200 / 1000) 4 (PI / 4) false ex_heap (AConstC (T2 1080 1920 E)) (AConstC (T2 1080 1920 T)) None E T W kw ru 1 tab [30; 36]%nat [40; 48]%nat
    TB FA eq_refl eq_refl B2 B3 B4 eq_refl eq_refl WR Eb B1 W1 NZ TR K1 K2 K3) as (g & ef & X & G & L & V).
  assert (EG : g' = g) by (rewrite G in G'; apply (f_equal fst) in G'; cbn [fst] in G'; apply (f_equal d_state) in G'; cbn [d_state with_state] in G'; injection G' as G'; symmetry; exact G').
  subst g'. fold d in V. fold s in V. rewrite KE in V.
  set (dm := with_state d (DFloat 1080 1920 g)) in *.
  assert (FS : full_state (DevDmd dm) (fun i j => RtoC (xr_val (g i j)))).
  { apply (AmpFacts4.state_float_in dm 1080 1920 g (fun i j => xr_val (g i j)) eq_refl eq_refl eq_refl). intros i j Hi Hj. destruct (V' i j (conj Hi Hj)) as (r & _ & _ & -> & _). reflexivity. }
  destruct (propagate_succeeds ex_heap (DevDmd dm) m (AConstC (T2 1080 1920 E)) E _ eq_refl FS ltac:(cbn; lia) ltac:(cbn; lia) ltac:(change (dev_slm (DevDmd dm)) with s; lra)) as (m' & HP).
  destruct (propagate_inv ex_heap (DevDmd dm) m (AConstC (T2 1080 1920 E)) E _ m' eq_refl FS HP) as (_ & _ & _ & _ & _ & _ & _ & Hi).
  eexists g, ef, X, m', _. split; [exact G|]. split; [exact L|]. split; [exact HP|]. split; [exact Hi|]. intros image.
  assert (FA' : Forall (fun r => 2 <= r)%nat ([32; 40] ++ [40; 53])%nat) by (repeat constructor; lia).
  assert (L1 : (1280 <= 4096)%nat) by (apply Nat.leb_le; reflexivity). assert (L2 : (2120 <= 4096)%nat) by (apply Nat.leb_le; reflexivity).
  assert (R := V m (AConstC (T2 1080 1920 E)) E m' _ tab' [32; 40]%nat [40; 53]%nat rounded_table_good FA' eq_refl eq_refl L1 L2 eq_refl HP Hi).
  eapply Rle_trans; [exact R|]. apply Rplus_le_compat_r. apply Rmult_le_compat_r; [apply sqrt_pos|lra].
Qed.
(** A PLUTO-2 showing a phase ramp, simulated with 100 pixels of padding. *)
Example C135_lcos_case : let s := l_slm (PLUTO_2 (369 / 1000000000) (200 / 1000)) in let phi := fun i j : nat => INR (j mod 7) in let l := {| l_slm := s; l_state := LReal 1080 1920 phi |} in
  let E := fun _ _ : nat => RtoC 1 in let m := {| pad_x := 100; pad_y := 100; f_input := None; f_output := None; f_image := None |} in
  let tab := rounded_table binary64 in let F := fun _ _ : nat => numpy_ifft2 single double tab (direct double tab) [32; 40]%nat [40; 53]%nat in
  exists m' I, propagate_to_image ex_heap (DevLcos l) m (AConstC (T2 1080 1920 E)) = (m', Ok tt) /\ field_is (f_image m') 1280 2120 I /\
    let image := fl_to_image single F 1280 2120 (pixel_size s) (scaling_factor s) (fl_output single 100 100 1080 1920 E (fun i j => fl_phase_factor single (phi i j))) in
    sqrt (field_power 1280 2120 (scaling_factor s ^ 2 / INR (1280 * 2120) / pixel_size s ^ 2) (fun i j => image i j - I i j)%C) <= / 2 ^ 17 * sqrt (field_power 1080 1920 (pixel_size s ^ 2) E) + / 2 ^ 100.
Proof.
  intros s phi l E m tab F.
  assert (Sf : / 2 ^ 40 <= scaling_factor s <= 1) by (unfold scaling_factor; cbn; lra). assert (Ps : / 2 ^ 20 <= pixel_size s <= 1) by (cbn; unfold micro; lra).
  assert (FS := HoloFacts2.lcos_full_state l phi eq_refl).
  destruct (propagate_succeeds ex_heap (DevLcos l) m (AConstC (T2 1080 1920 E)) E _ eq_refl FS ltac:(cbn; lia) ltac:(cbn; lia) ltac:(change (dev_slm (DevLcos l)) with s; lra)) as (m' & HP).
  destruct (propagate_inv ex_heap (DevLcos l) m (AConstC (T2 1080 1920 E)) E _ m' eq_refl FS HP) as (_ & _ & _ & _ & _ & _ & _ & Hi).
  eexists m', _. split; [exact HP|]. split; [exact Hi|]. intros image.
  assert (FA' : Forall (fun r => 2 <= r)%nat ([32; 40] ++ [40; 53])%nat) by (repeat constructor; lia).
  assert (L1 : (1280 <= 4096)%nat) by (apply Nat.leb_le; reflexivity). assert (L2 : (2120 <= 4096)%nat) by (apply Nat.leb_le; reflexivity).
  assert (B : forall i j, (i < s_Ny s)%nat -> (j < s_Nx s)%nat -> Rabs (phi i j) <= 7).
  { intros i j _ _. unfold phi. assert (M := Nat.mod_upper_bound j 7 ltac:(lia)). rewrite Rabs_pos_eq by apply pos_INR. apply Rle_trans with (INR 7); [apply le_INR; lia|]. rewrite INR_IZR_INZ. cbn. lra. }
  exact (C135_lcos_single ex_heap l m (AConstC (T2 1080 1920 E)) E phi m' _ tab [32; 40]%nat [40; 53]%nat rounded_table_good FA' eq_refl eq_refl L1 L2 eq_refl B eq_refl HP Hi ltac:(apply Nat.ltb_lt; reflexivity) ltac:(apply Nat.ltb_lt; reflexivity) Ps Sf).
Qed.
