(** The image of a hologram, computed and simulated in single precision on a DLP9500 (C135). *)
From Coq Require Import Reals Lra Psatz ZArith Arith List Bool Lia.
From Coquelicot Require Import Complex.
From Verif Require Import Cx Sums DFT PyBase ProfileModel SlmModel LibModel DmdModel SimModel SimSpec SimFacts DmdSpec DmdThms FloatModel FloatSpec FloatFacts FlSimModel FlSimSpec NormFacts FlSimFacts FlSimLink FftModel FftSpec FftFacts3 FwdModel FwdSpec FlHoloModel FlHoloSpec FlHoloFacts4 FlImgFacts3.
Open Scope R_scope.

Lemma single_image_rel K : 0 <= K <= 2 ^ 17 -> ((1 + / 2 ^ 20) * (1 + 4 * / 2 ^ 24) ^ 6 - 1) * (1 + (1 / 40 + K / 2 ^ 20)) + (1 / 40 + K / 2 ^ 20) <= 1 / 39 + K / 2 ^ 20.
Proof.
  intros HK. assert (E : (1 + / 2 ^ 20) * (1 + 4 * / 2 ^ 24) ^ 6 - 1 <= / 2 ^ 18) by lra. set (x := (1 + / 2 ^ 20) * (1 + 4 * / 2 ^ 24) ^ 6 - 1) in *.
  assert (X : 0 <= x) by (unfold x; lra). clearbody x. assert (x * (1 + (1 / 40 + K / 2 ^ 20)) <= / 2 ^ 18 * (1 + (1 / 40 + K / 2 ^ 20))) by (apply Rmult_le_compat_r; lra). lra.
Qed.
Lemma single_image_abs ps sf N : 0 < ps <= 1 -> / 2 ^ 20 <= ps -> 0 < sf <= 1 -> 0 <= N <= 2 ^ 24 ->
  (1 + / 2 ^ 20) * (1 + 4 * / 2 ^ 24) ^ 5 * (ps * sqrt N * (/ 2 ^ 120 + 5 * / 2 ^ 150) + 2 * (sf / ps) * / 2 ^ 150) <= / 2 ^ 100.
Proof.
  intros Hps Hps' Hsf HN. assert (E : 0 <= (1 + / 2 ^ 20) * (1 + 4 * / 2 ^ 24) ^ 5 <= 2) by lra. set (x := (1 + / 2 ^ 20) * (1 + 4 * / 2 ^ 24) ^ 5) in *. clearbody x.
  assert (S : sqrt N <= 2 ^ 12). { replace (2 ^ 12) with (sqrt (2 ^ 24)); [apply sqrt_le_1_alt; lra|]. replace (2 ^ 24) with ((2 ^ 12) ^ 2) by ring. apply sqrt_pow2. lra. }
  assert (S0 := sqrt_pos N). assert (P4 := inv_le 130 150 ltac:(lia)). set (e5 := / 2 ^ 150) in *. clearbody e5.
  assert (I : / ps <= 2 ^ 20). { replace (2 ^ 20) with (/ / 2 ^ 20) by (rewrite Rinv_inv; reflexivity). apply Rinv_le_contravar; lra. }
  assert (I0 : 0 < / ps) by (apply Rinv_0_lt_compat; lra).
  assert (A1 : ps * sqrt N <= 1 * 2 ^ 12) by (apply Rmult_le_compat; lra). assert (A0 : 0 <= ps * sqrt N) by (apply Rmult_le_pos; lra).
  assert (A2 : sf / ps <= 1 * 2 ^ 20) by (apply Rmult_le_compat; lra). assert (A3 : 0 <= sf / ps) by (apply Rmult_le_pos; lra).
  assert (B1 : ps * sqrt N * (/ 2 ^ 120 + 5 * e5) <= 1 * 2 ^ 12 * (/ 2 ^ 120 + 5 * e5)) by (apply Rmult_le_compat_r; lra).
  assert (B2 : 2 * (sf / ps) * e5 <= 2 * (1 * 2 ^ 20) * e5) by (apply Rmult_le_compat_r; lra).
  assert (B3 : 0 <= ps * sqrt N * (/ 2 ^ 120 + 5 * e5)) by (apply Rmult_le_pos; lra). assert (B4 : 0 <= 2 * (sf / ps) * e5) by (apply Rmult_le_pos; lra).
  set (y := ps * sqrt N * (/ 2 ^ 120 + 5 * e5)) in *. set (z := 2 * (sf / ps) * e5) in *. clearbody y z. assert (x * (y + z) <= 2 * (y + z)) by (apply Rmult_le_compat_r; lra). lra.
Qed.
Lemma image_9500 wl fl per th neg h input target w E T W kw ru b tab ly lx :
  let d := DLP9500 wl fl per th neg in let s := d_slm d in let S1 := windowed d T W in let K := contrast 1080 1920 E (spectrum_of 1080 1920 T) S1 b in
  let F := fun _ _ : nat => numpy_fft2 single double tab (direct double tab) ly lx in let q := rounded_polar binary32 in
  good_forward_table (2 * / 2 ^ 53) tab -> Forall (fun r => 2 <= r)%nat (ly ++ lx) -> size ly = 1080%nat -> size lx = 1920%nat ->
  4 <= per <= 2 ^ 20 -> Rabs th <= 4 -> / 2 ^ 40 <= scaling_factor s <= 1 ->
  full_input h s input E -> full_target h s target T -> window_reads h s w W ->
  (forall i j, in_array d i j -> b <= Cmod (E i j)) -> / 2 ^ 40 <= b -> (forall i j, in_array d i j -> Cmod (W i j) <= 1) ->
  (exists i j, in_array d i j /\ S1 i j <> RtoC 0) -> (forall i j, in_array d i j -> representable binary32 (T i j)) ->
  K <= 2 ^ 17 -> / 2 ^ 50 <= norm 1080 1920 S1 / norm 1080 1920 E -> norm 1080 1920 S1 <= 2 ^ 100 ->
  let S' := fl_spectrum single F 1080 1920 T (window_of w W) in
  exists g ef X,
    calculate_dmd_state h d input target MIdeal w kw ru = (with_state d (DFloat 1080 1920 g), Ok (Fin ef)) /\
    (forall i j, in_array d i j -> fl_holo_level single q neg 1080 1920 (pixel_size s) (d_p d) th S' E i j = Some (X i j)) /\
    forall m arg E2 m' I tab' ly' lx', good_table (2 * / 2 ^ 53) tab' -> Forall (fun r => 2 <= r)%nat (ly' ++ lx') -> size ly' = NY s m -> size lx' = NX s m -> (NY s m <= 4096)%nat -> (NX s m <= 4096)%nat ->
      full_input h s arg E2 -> propagate_to_image h (DevDmd (with_state d (DFloat 1080 1920 g))) m arg = (m', Ok tt) -> field_is (f_image m') (NY s m) (NX s m) I ->
      let F' := fun _ _ : nat => numpy_ifft2 single double tab' (direct double tab') ly' lx' in
      let image := fl_to_image single F' (NY s m) (NX s m) (pixel_size s) (scaling_factor s) (fl_output single (Z.to_nat (pad_y m)) (Z.to_nat (pad_x m)) 1080 1920 E2 (fun i j => RtoC (X i j))) in
      sqrt (field_power (NY s m) (NX s m) (scaling_factor s ^ 2 / INR (NY s m * NX s m) / pixel_size s ^ 2) (fun i j => image i j - I i j)%C) <=
      (1 / 39 + K / 2 ^ 20) * sqrt (field_power 1080 1920 (pixel_size s ^ 2) E2) + / 2 ^ 100.
Proof.
  intros d s S1 K F q TB FL Sy Sx Hp Ht Hsf FI FT WR Eb Hb W1 NZ TR HK Hm HS S'.
  assert (Hsf' : 0 < scaling_factor s <= 2 ^ 100) by lra.
  destruct (hologram_9500 wl fl per th neg h input target w E T W kw ru b tab ly lx TB FL Sy Sx Hp Ht Hsf' FI FT WR Eb Hb W1 NZ TR HK Hm HS) as (g & f & ef & y & G & _ & _ & _ & V). fold d s in V. fold F in V. fold S' in V. fold S1 in V. fold K in V. fold q in V.
  assert (Hp0 : d_p d <> 0) by (cbn; unfold micro; lra).
  destruct (hologram_spec h d input target w E T W kw ru FI FT WR Hp0 ltac:(apply Nat.ltb_lt; reflexivity) ltac:(apply Nat.ltb_lt; reflexivity) ltac:(fold s; lra)) as (M & HM & H1 & _ & (g' & G' & V') & _).
  { intros i j Hij Z. exfalso. specialize (Eb i j Hij). rewrite Z, Cmod_0 in Eb. lra. } { exact NZ. }
  assert (EG : g' = g). { cbv zeta in G'. fold d in G. rewrite G in G'. change (s_Ny (d_slm d)) with 1080%nat in G'. change (s_Nx (d_slm d)) with 1920%nat in G'. apply (f_equal fst) in G'. cbn [fst] in G'. apply (f_equal d_state) in G'. cbn [d_state with_state] in G'. injection G' as G'. symmetry. exact G'. }
  subst g'. cbv zeta in V'.
  assert (K0 : 0 <= K). { unfold K, contrast. assert (Q1 := norm_ge_0 1080 1920 E). assert (Q2 := norm_ge_0 1080 1920 S1). assert (Q3 := norm_ge_0 1080 1920 (spectrum_of 1080 1920 T)). assert (I : forall x, 0 <= x -> 0 <= / x) by (intros x [X|<-]; [left; apply Rinv_0_lt_compat, X|rewrite Rinv_0; lra]). assert (I1 := I b ltac:(lra)). assert (I2 := I _ Q2). apply Rmult_le_pos; apply Rmult_le_pos; assumption. }
  assert (VV : forall i j, in_array d i j -> exists r, g i j = Fin r /\ Rabs r <= 1).
  { intros i j Hij. specialize (V' i j Hij). eexists. split; [exact V'|]. specialize (H1 i j Hij). cbv zeta in H1. set (A := Cmod _ / _ / M) in *. assert (CB := COS_bound (carrier d i j - signed (d_neg d) (phase_of (windowed d T W i j) - carg (E i j)))). set (c := cos _) in *. clearbody A c. apply Rabs_le. nra. }
  set (X := fun i j => match fl_holo_level single q neg 1080 1920 (pixel_size s) (d_p d) th S' E i j with Some x => x | None => 0 end).
  exists g, ef, X. split; [exact G|]. split. { intros i j Hij. destruct (V i j Hij) as (r & x & t & V1 & V2 & _). unfold X. rewrite V2. reflexivity. }
  intros m arg E2 m' I tab' ly' lx' TB' FL' Sy' Sx' Ly Lx FI2 HP HI F' image.
  assert (Ps : / 2 ^ 20 <= pixel_size s <= 1) by (cbn; unfold micro; lra).
  assert (NF := numpy_single tab' ly' lx' TB' FL' ltac:(lia) ltac:(lia)). rewrite Sy', Sx' in NF.
  assert (N24 : (Z.of_nat (NY s m * NX s m) <= 2 ^ 24)%Z) by (rewrite Nat2Z.inj_mul; nia).
  set (dm := with_state d (DFloat 1080 1920 g)) in *.
  assert (Pos : (0 < NY s m)%nat /\ (0 < NX s m)%nat).
  { assert (FS : full_state (DevDmd dm) (fun i j => RtoC (xr_val (g i j)))).
    { apply (AmpFacts4.state_float_in dm 1080 1920 g (fun i j => xr_val (g i j)) eq_refl eq_refl eq_refl). intros i j Hi Hj. destruct (VV i j (conj Hi Hj)) as (r & -> & _). reflexivity. }
    destruct (propagate_inv h (DevDmd dm) m arg E2 _ m' FI2 FS HP) as (Py & Px & _). unfold NY, NX. change (s_Ny s) with 1080%nat. change (s_Nx s) with 1920%nat. change (Z.of_nat 1920) with 1920%Z. change (Z.of_nat 1080) with 1080%Z. lia. }
  assert (FU := single_far (NY s m) (NX s m) (pixel_size s) (scaling_factor s) (proj1 Pos) (proj2 Pos) N24 ltac:(lra) Hsf).
  assert (VL : forall i j, in_array dm i j -> g i j = Fin (xr_val (g i j)) /\ Rabs (xr_val (g i j)) <= 1 /\ Rabs (X i j - xr_val (g i j)) <= 1 / 40 + K / 2 ^ 20).
  { intros i j Hij. destruct (VV i j Hij) as (r & Er & Rr). destruct (V i j Hij) as (r' & x & t & V1 & V2 & V3 & _). rewrite Er in V1. injection V1 as <-. rewrite Er. cbn [xr_val]. split; [reflexivity|]. split; [exact Rr|]. unfold X. rewrite V2. exact V3. }
  assert (P150 := inv_le 150 150 ltac:(lia)). assert (T2' := inv_le 150 1075 ltac:(lia)).
  assert (A1 : 0 <= / 2 ^ 24 <= 1 / 8) by lra. assert (A2 : 0 <= / 2 ^ 150) by lra. assert (A3 : / 2 ^ 53 <= / 2 ^ 24) by lra. assert (A4 : / 2 ^ 1075 <= / 2 ^ 150) by (exact (proj2 T2')).
  assert (A5 : 0 <= 1 / 40 + K / 2 ^ 20) by lra. assert (A6 : (Z.of_nat (NY s m * NX s m) <= 2 ^ 40)%Z) by lia. assert (A7 : 0 < pixel_size s) by lra. assert (A8 : 0 < scaling_factor s) by lra. assert (A9 : 0 <= / 2 ^ 20) by lra. assert (A10 : 0 <= / 2 ^ 120) by lra.
  assert (R := levels_image single (/ 2 ^ 24) (/ 2 ^ 150) (/ 2 ^ 53) (/ 2 ^ 1075) (2 ^ 24) (2 ^ 53) F' (/ 2 ^ 20) (/ 2 ^ 120) h dm m arg E2 g X (fun i j => xr_val (g i j)) (1 / 40 + K / 2 ^ 20) m' I
    binary32_arithmetic ltac:(lia) binary64_arithmetic ltac:(lia) A1 A2 A3 A4 eq_refl VL A5 FI2 HP HI ltac:(apply Nat.ltb_lt; reflexivity) ltac:(apply Nat.ltb_lt; reflexivity) A6 A7 A8 FU A9 A10 NF).
  cbv zeta in R. change (d_slm dm) with s in R. change (s_Ny s) with 1080%nat in R. change (s_Nx s) with 1920%nat in R. fold image in R. eapply Rle_trans; [exact R|].
  apply Rplus_le_compat; [apply Rmult_le_compat_r; [apply sqrt_pos|apply single_image_rel; lra]|]. apply single_image_abs; try lra. split; [apply pos_INR|]. rewrite INR_IZR_INZ, (pow_IZR 2 24). apply IZR_le. exact N24.
Qed.
