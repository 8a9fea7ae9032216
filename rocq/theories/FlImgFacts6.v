(** Single precision: images of an LCOS and of switched mirrors (C135). *)
From Coq Require Import Reals Lra Psatz ZArith Arith List Bool Lia.
From Coquelicot Require Import Complex.
From Verif Require HoloFacts2 FringeErr2.
From Verif Require Import Cx Sums DFT PyBase ProfileModel SlmModel LibModel DmdModel SimModel SimSpec SimFacts SimFacts2 DmdSpec DmdThms FloatModel FloatSpec FloatFacts FringeSpec FlSimModel FlSimSpec NormFacts FlSimFacts FlSimLink FlLcosModel FftModel FftSpec FftFacts3 FwdModel FwdSpec FlHoloModel FlHoloSpec FlHoloFacts4 FlImgFacts2 FlImgFacts3 FlImgFacts4 FlImgFacts5.
Open Scope R_scope.

Lemma single_lcos_image h l m arg E phi m' I tab ly lx :
  let s := l_slm l in let F := fun _ _ : nat => numpy_ifft2 single double tab (direct double tab) ly lx in
  good_table (2 * / 2 ^ 53) tab -> Forall (fun r => 2 <= r)%nat (ly ++ lx) -> size ly = NY s m -> size lx = NX s m -> (NY s m <= 4096)%nat -> (NX s m <= 4096)%nat ->
  l_state l = LReal (s_Ny s) (s_Nx s) phi -> (forall i j, (i < s_Ny s)%nat -> (j < s_Nx s)%nat -> Rabs (phi i j) <= 7) ->
  full_input h s arg E -> propagate_to_image h (DevLcos l) m arg = (m', Ok tt) -> field_is (f_image m') (NY s m) (NX s m) I ->
  (0 < s_Ny s)%nat -> (0 < s_Nx s)%nat -> / 2 ^ 20 <= pixel_size s <= 1 -> / 2 ^ 40 <= scaling_factor s <= 1 ->
  let image := fl_to_image single F (NY s m) (NX s m) (pixel_size s) (scaling_factor s) (fl_output single (Z.to_nat (pad_y m)) (Z.to_nat (pad_x m)) (s_Ny s) (s_Nx s) E (fun i j => fl_phase_factor single (phi i j))) in
  sqrt (field_power (NY s m) (NX s m) (scaling_factor s ^ 2 / INR (NY s m * NX s m) / pixel_size s ^ 2) (fun i j => image i j - I i j)%C) <=
  / 2 ^ 17 * sqrt (field_power (s_Ny s) (s_Nx s) (pixel_size s ^ 2) E) + / 2 ^ 100.
Proof.
  intros s F TB FL Sy Sx Ly Lx LS V FI HP HI Hy Hx Ps Sf image.
  assert (NF := numpy_single tab ly lx TB FL ltac:(lia) ltac:(lia)). rewrite Sy, Sx in NF.
  assert (N24 : (Z.of_nat (NY s m * NX s m) <= 2 ^ 24)%Z) by (rewrite Nat2Z.inj_mul; nia).
  assert (FS := HoloFacts2.lcos_full_state l phi LS).
  assert (Pos : (0 < NY s m)%nat /\ (0 < NX s m)%nat).
  { destruct (propagate_inv h (DevLcos l) m arg E _ m' FI FS HP) as (Py & Px & _). unfold NY, NX. lia. }
  assert (FU := single_far (NY s m) (NX s m) (pixel_size s) (scaling_factor s) (proj1 Pos) (proj2 Pos) N24 ltac:(lra) Sf).
  assert (T2' := inv_le 150 1075 ltac:(lia)). assert (P150 := inv_le 130 150 ltac:(lia)).
  assert (A1 : 0 <= / 2 ^ 24 <= 1 / 8) by lra. assert (A2 : 0 <= / 2 ^ 150) by lra. assert (A3 : / 2 ^ 53 <= / 2 ^ 24) by lra. assert (A4 : / 2 ^ 1075 <= / 2 ^ 150) by (exact (proj2 T2')).
  assert (A6 : (Z.of_nat (NY s m * NX s m) <= 2 ^ 40)%Z) by lia. assert (A7 : 0 < pixel_size s) by lra. assert (A8 : 0 < scaling_factor s) by lra. assert (A9 : 0 <= / 2 ^ 20) by lra. assert (A10 : 0 <= / 2 ^ 120) by lra. assert (A11 : / 2 ^ 24 <= / 2 ^ 23) by lra.
  assert (A12 : / 2 ^ 150 <= / 2 ^ 23). { set (e5 := / 2 ^ 150) in *. clearbody e5. lra. }
  eapply Rle_trans; [exact (lcos_image single (/ 2 ^ 24) (/ 2 ^ 150) (/ 2 ^ 53) (/ 2 ^ 1075) (/ 2 ^ 23) (2 ^ 24) (2 ^ 53) F (/ 2 ^ 20) (/ 2 ^ 120) h l m arg E phi m' I
    binary32_arithmetic ltac:(lia) binary64_arithmetic ltac:(lia) A1 A2 A3 A4 FringeErr2.single_accurate A11 A12 LS V FI HP HI Hy Hx A6 A7 A8 FU A9 A10 NF)|].
  fold s. apply Rplus_le_compat; [apply Rmult_le_compat_r; [apply sqrt_pos|lra]|]. apply single_image_abs; try lra. split; [apply pos_INR|]. rewrite INR_IZR_INZ, (pow_IZR 2 24). apply IZR_le. exact N24.
Qed.
(** Mirrors that are switched on or off: only the light on mirrors near the threshold is at stake. *)
Lemma mirrors_9500 wl fl per th neg h input target w E T W kw ru b tab ly lx :
  let d := DLP9500 wl fl per th neg in let s := d_slm d in let S1 := windowed d T W in let K := contrast 1080 1920 E (spectrum_of 1080 1920 T) S1 b in
  let F := fun _ _ : nat => numpy_fft2 single double tab (direct double tab) ly lx in let q := rounded_polar binary32 in
  good_forward_table (2 * / 2 ^ 53) tab -> Forall (fun r => 2 <= r)%nat (ly ++ lx) -> size ly = 1080%nat -> size lx = 1920%nat ->
  4 <= per <= 2 ^ 20 -> Rabs th <= 4 -> / 2 ^ 40 <= scaling_factor s <= 1 ->
  full_input h s input E -> full_target h s target T -> window_reads h s w W ->
  (forall i j, in_array d i j -> b <= Cmod (E i j)) -> / 2 ^ 40 <= b -> (forall i j, in_array d i j -> Cmod (W i j) <= 1) ->
  (exists i j, in_array d i j /\ S1 i j <> RtoC 0) -> (forall i j, in_array d i j -> representable binary32 (T i j)) ->
  K <= 2 ^ 17 -> / 2 ^ 50 <= norm 1080 1920 S1 / norm 1080 1920 E -> norm 1080 1920 S1 <= 2 ^ 100 ->
  let S' := fl_spectrum single F 1080 1920 T (window_of w W) in
  exists g f ef t,
    calculate_dmd_state h d input target MIdeal w kw ru = (with_state d (DFloat 1080 1920 g), Ok (Fin ef)) /\
    calculate_dmd_state h d input target MSimple w kw ru = (with_state d (DBool 1080 1920 f), Ok (Fin ef)) /\
    (forall i j, in_array d i j -> fl_holo_mirror single q neg 1080 1920 (pixel_size s) (d_p d) th S' E i j = Some (t i j)) /\
    forall m arg E2 m' I tab' ly' lx' Q, good_table (2 * / 2 ^ 53) tab' -> Forall (fun r => 2 <= r)%nat (ly' ++ lx') -> size ly' = NY s m -> size lx' = NX s m -> (NY s m <= 4096)%nat -> (NX s m <= 4096)%nat ->
      full_input h s arg E2 -> propagate_to_image h (DevDmd (with_state d (DBool 1080 1920 f))) m arg = (m', Ok tt) -> field_is (f_image m') (NY s m) (NX s m) I ->
      (forall i j r, in_array d i j -> g i j = Fin r -> Rabs (r - 1 / 2) <= 1 / 40 + K / 2 ^ 20 -> Q i j = E2 i j) ->
      let F' := fun _ _ : nat => numpy_ifft2 single double tab' (direct double tab') ly' lx' in
      let image := fl_to_image single F' (NY s m) (NX s m) (pixel_size s) (scaling_factor s) (fl_output single (Z.to_nat (pad_y m)) (Z.to_nat (pad_x m)) 1080 1920 E2 (fun i j => RtoC (if t i j then 1 else 0))) in
      sqrt (field_power (NY s m) (NX s m) (scaling_factor s ^ 2 / INR (NY s m * NX s m) / pixel_size s ^ 2) (fun i j => image i j - I i j)%C) <=
      / 2 ^ 18 * sqrt (field_power 1080 1920 (pixel_size s ^ 2) E2) + sqrt (field_power 1080 1920 (pixel_size s ^ 2) Q) + / 2 ^ 100.
Proof.
  intros d s S1 K F q TB FL Sy Sx Hp Ht Hsf FI FT WR Eb Hb W1 NZ TR HK Hm HS S'.
  assert (Hsf' : 0 < scaling_factor s <= 2 ^ 100) by lra.
  destruct (hologram_9500 wl fl per th neg h input target w E T W kw ru b tab ly lx TB FL Sy Sx Hp Ht Hsf' FI FT WR Eb Hb W1 NZ TR HK Hm HS) as (g & f & ef & y & G & G2 & _ & _ & V). fold d s in V. fold F in V. fold S' in V. fold S1 in V. fold K in V. fold q in V.
  set (t := fun i j => match fl_holo_mirror single q neg 1080 1920 (pixel_size s) (d_p d) th S' E i j with Some x => x | None => false end).
  exists g, f, ef, t. split; [exact G|]. split; [exact G2|]. split. { intros i j Hij. destruct (V i j Hij) as (r & x & t' & _ & _ & _ & V4 & _). unfold t. rewrite V4. reflexivity. }
  intros m arg E2 m' I tab' ly' lx' Q TB' FL' Sy' Sx' Ly Lx FI2 HP HI HQ F' image.
  assert (Ps : / 2 ^ 20 <= pixel_size s <= 1) by (cbn; unfold micro; lra).
  assert (NF := numpy_single tab' ly' lx' TB' FL' ltac:(lia) ltac:(lia)). rewrite Sy', Sx' in NF.
  assert (N24 : (Z.of_nat (NY s m * NX s m) <= 2 ^ 24)%Z) by (rewrite Nat2Z.inj_mul; nia).
  set (dm := with_state d (DBool 1080 1920 f)) in *.
  assert (FS := state_bool dm f eq_refl).
  assert (Pos : (0 < NY s m)%nat /\ (0 < NX s m)%nat).
  { destruct (propagate_inv h (DevDmd dm) m arg E2 _ m' FI2 FS HP) as (Py & Px & _). unfold NY, NX. change (s_Ny s) with 1080%nat. change (s_Nx s) with 1920%nat. change (Z.of_nat 1920) with 1920%Z. change (Z.of_nat 1080) with 1080%Z. lia. }
  assert (FU := single_far (NY s m) (NX s m) (pixel_size s) (scaling_factor s) (proj1 Pos) (proj2 Pos) N24 ltac:(lra) Hsf).
  assert (P150 := inv_le 150 150 ltac:(lia)). assert (T2' := inv_le 150 1075 ltac:(lia)).
  assert (A1 : 0 <= / 2 ^ 24 <= 1 / 8) by lra. assert (A2 : 0 <= / 2 ^ 150) by lra. assert (A3 : / 2 ^ 53 <= / 2 ^ 24) by lra. assert (A4 : / 2 ^ 1075 <= / 2 ^ 150) by (exact (proj2 T2')).
  assert (A6 : (Z.of_nat (NY s m * NX s m) <= 2 ^ 40)%Z) by lia. assert (A7 : 0 < pixel_size s) by lra. assert (A8 : 0 < scaling_factor s) by lra. assert (A9 : 0 <= / 2 ^ 20) by lra. assert (A10 : 0 <= / 2 ^ 120) by lra.
  assert (R := image_error single (/ 2 ^ 24) (/ 2 ^ 150) (/ 2 ^ 53) (/ 2 ^ 1075) (2 ^ 24) (2 ^ 53) F' (/ 2 ^ 20) (/ 2 ^ 120) h (DevDmd dm) m arg E2 _ (fun i j => RtoC (if t i j then 1 else 0)) m' I
    binary32_arithmetic ltac:(lia) binary64_arithmetic ltac:(lia) A1 A2 A3 A4 FI2 FS HP HI ltac:(apply Nat.ltb_lt; reflexivity) ltac:(apply Nat.ltb_lt; reflexivity) A6 A7 A8 FU A9 A10 NF).
  cbv zeta in R. change (dev_slm (DevDmd dm)) with s in R. change (s_Ny s) with 1080%nat in R. change (s_Nx s) with 1920%nat in R. fold image in R. eapply Rle_trans; [exact R|].
  rewrite !fp_norm by exact A7.
  assert (S1' : norm 1080 1920 (fun i j => E2 i j * RtoC (if t i j then 1 else 0))%C <= norm 1080 1920 E2).
  { unfold norm. apply sqrt_le_1_alt. apply rsum2_le. intros i j Hi Hj. rewrite !Cmod_mult, !Cmod_R. apply pow_incr. split; [apply Rmult_le_pos; [apply Cmod_ge_0|apply Rabs_pos]|]. rewrite <- (Rmult_1_r (Cmod (E2 i j))) at 2. apply Rmult_le_compat_l; [apply Cmod_ge_0|]. destruct (t i j); rewrite Rabs_pos_eq; lra. }
  assert (S2' : norm 1080 1920 (fun i j => E2 i j * (RtoC (if t i j then 1 else 0) - RtoC (if f i j then 1 else 0)))%C <= norm 1080 1920 Q).
  { unfold norm. apply sqrt_le_1_alt. apply rsum2_le. intros i j Hi Hj. apply pow_incr. split; [apply Cmod_ge_0|]. destruct (V i j (conj Hi Hj)) as (r & x & t' & V1 & _ & _ & V4 & V5).
    assert (Et : t i j = t') by (unfold t; rewrite V4; reflexivity). rewrite Et. destruct (bool_dec t' (f i j)) as [->|N].
    - replace (RtoC (if f i j then 1 else 0) - RtoC (if f i j then 1 else 0))%C with (RtoC 0) by ring. rewrite Cmult_0_r, Cmod_0. apply Cmod_ge_0.
    - rewrite (HQ i j r (conj Hi Hj) V1 (V5 N)). rewrite Cmod_mult, <- RtoC_minus, Cmod_R. rewrite <- (Rmult_1_r (Cmod (E2 i j))) at 2. apply Rmult_le_compat_l; [apply Cmod_ge_0|]. destruct t', (f i j); apply Rabs_le; lra. }
  assert (N0 := norm_ge_0 1080 1920 E2).
  apply Rplus_le_compat; [apply Rplus_le_compat|].
  - apply Rmult_le_compat; [lra| |lra|apply Rmult_le_compat_l; lra]. apply Rmult_le_pos; [lra|apply norm_ge_0].
  - apply Rmult_le_compat_l; lra.
  - apply single_image_abs; try lra. split; [apply pos_INR|]. rewrite INR_IZR_INZ, (pow_IZR 2 24). apply IZR_le. exact N24.
Qed.
