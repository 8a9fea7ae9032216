(** Holograms after rounding: machines, the DLP9500, no rounding (C134). *)
From Coq Require Import Reals Lra Psatz ZArith Arith List Bool Lia.
From Flocq Require Import Core.
From Coquelicot Require Import Complex.
From Verif Require Import Cx Sums DFT PyBase ProfileModel SlmModel LibModel DmdModel SimModel SimSpec DmdSpec FloatModel FloatSpec FloatFacts FloatFacts2 FloatFacts3 FloatFacts4 FlSimSpec NormFacts FftModel FftSpec FftFacts3 FwdModel FwdSpec FwdFacts FwdFacts2 FlHoloModel FlHoloSpec FlHoloFacts3.
From Verif Require Import FringeSpec FringeErr FringeErr2.
Open Scope R_scope.

Lemma sin_le_abs x : Rabs (sin x) <= Rabs x.
Proof.
  assert (P : forall y, 0 <= y -> Rabs (sin y) <= y).
  { intros y [Y|<-]; [|rewrite sin_0, Rabs_R0; lra]. destruct (Rle_dec y 1) as [L|L]; [|assert (B := SIN_bound y); apply Rabs_le; lra].
    assert (S0 : 0 < sin y) by (apply sin_gt_0; [exact Y|pose proof PI2_1; lra]). rewrite Rabs_pos_eq by lra. left. apply sin_lt_x, Y. }
  destruct (Rle_dec 0 x) as [X|X]; [rewrite (Rabs_pos_eq x) by exact X; apply P, X|].
  rewrite (Rabs_left x) by lra. replace x with (- - x) at 1 by ring. rewrite sin_neg, Rabs_Ropp. apply P. lra.
Qed.
Lemma cis_lipschitz x y : Cmod (cis x - cis y)%C <= Rabs (x - y).
Proof.
  unfold Cmod, cis, Cminus, Cplus, Copp. cbn [fst snd].
  replace ((cos x + - cos y) ^ 2 + (sin x + - sin y) ^ 2) with ((2 * sin ((x - y) / 2)) ^ 2).
  - rewrite <- pow2_abs, sqrt_pow2 by apply Rabs_pos. rewrite Rabs_mult, (Rabs_pos_eq 2) by lra. assert (S := sin_le_abs ((x - y) / 2)). unfold Rdiv in S at 2. rewrite Rabs_mult, (Rabs_pos_eq (/ 2)) in S by lra. lra.
  - assert (E := cos_2a_sin ((x - y) / 2)). replace (2 * ((x - y) / 2)) with (x - y) in E by field. rewrite cos_minus in E.
    assert (Ex := sin2_cos2 x). assert (Ey := sin2_cos2 y). unfold Rsqr in Ex, Ey. nra.
Qed.
Lemma rounded_polar_ok f u eta B v : arithmetic u eta B f -> (2 ^ 22 <= B)%Z -> 0 <= u -> 0 <= eta -> 4 * u + eta <= v -> accurate_polar (rounded_polar f) v eta.
Proof.
  intros H HB Hu He Hv. assert (Z0 : f 0 = 0) by (apply (fl_0 _ _ _ _ H); lia). assert (P4 := PI_4). assert (P0 := PI_RGT_0).
  assert (Z4 : f 4 = 4). { assert (X := ar_exact _ _ _ _ H 4 0 ltac:(lia) ltac:(lia)). cbn [pow] in X. replace (IZR 4 / 1) with 4 in X by field. exact X. }
  assert (CR : forall z, Rabs (carg z) <= 4) by (intros z; assert (C := carg_range z); apply Rabs_le; lra).
  split; intros z; cbn [rounded_polar f_abs f_angle].
  - rewrite <- Z0. apply (ar_monotone _ _ _ _ H), Cmod_ge_0.
  - eapply Rle_trans; [apply (ar_error _ _ _ _ H)|]. assert (C := Cmod_ge_0 z). rewrite Rabs_pos_eq by exact C. assert (u * Cmod z <= v * Cmod z) by (apply Rmult_le_compat_r; lra). lra.
  - intros N. rewrite <- cis_carg by exact N. eapply Rle_trans; [apply cis_lipschitz|]. eapply Rle_trans; [apply (ar_error _ _ _ _ H)|]. specialize (CR z). assert (u * Rabs (carg z) <= u * 4) by (apply Rmult_le_compat_l; assumption). lra.
  - intros _. specialize (CR z). apply Rabs_le_inv in CR. apply Rabs_le.
    assert (L := ar_monotone _ _ _ _ H (carg z) 4 ltac:(lra)). assert (L' := ar_monotone _ _ _ _ H (- 4) (carg z) ltac:(lra)). change (-4) with (Ropp 4) in L'. rewrite (ar_odd _ _ _ _ H), Z4 in L'. rewrite Z4 in L. lra.
Qed.
Lemma machine_polar : accurate_polar (rounded_polar binary32) (/ 2 ^ 21) (/ 2 ^ 150) /\ accurate_polar (rounded_polar binary64) (/ 2 ^ 50) (/ 2 ^ 1075).
Proof.
  assert (T1 := tiny150). assert (T2 := tiny1075). assert (P1 := inv_le 150 150 ltac:(lia)). assert (P2 := inv_le 1075 1075 ltac:(lia)).
  split; [apply (rounded_polar_ok _ _ _ _ _ binary32_arithmetic)|apply (rounded_polar_ok _ _ _ _ _ binary64_arithmetic)]; try lia; try lra.
Qed.
(** ** A DLP9500 in single precision with NumPy's transform *)
Lemma hologram_9500 wl fl per th neg h input target w E T W kw ru b tab ly lx :
  let d := DLP9500 wl fl per th neg in let s := d_slm d in let S1 := windowed d T W in let K := contrast 1080 1920 E (spectrum_of 1080 1920 T) S1 b in
  let F := fun _ _ : nat => numpy_fft2 single double tab (direct double tab) ly lx in let q := rounded_polar binary32 in
  good_forward_table (2 * / 2 ^ 53) tab -> Forall (fun r => 2 <= r)%nat (ly ++ lx) -> size ly = 1080%nat -> size lx = 1920%nat ->
  4 <= per <= 2 ^ 20 -> Rabs th <= 4 -> 0 < scaling_factor s <= 2 ^ 100 ->
  full_input h s input E -> full_target h s target T -> window_reads h s w W ->
  (forall i j, in_array d i j -> b <= Cmod (E i j)) -> / 2 ^ 40 <= b -> (forall i j, in_array d i j -> Cmod (W i j) <= 1) ->
  (exists i j, in_array d i j /\ S1 i j <> RtoC 0) -> (forall i j, in_array d i j -> representable binary32 (T i j)) ->
  K <= 2 ^ 17 -> / 2 ^ 50 <= norm 1080 1920 S1 / norm 1080 1920 E -> norm 1080 1920 S1 <= 2 ^ 100 ->
  let S' := fl_spectrum single F 1080 1920 T (window_of w W) in let bound := 1 / 40 + K / 2 ^ 20 in
  exists g f ef y,
    calculate_dmd_state h d input target MIdeal w kw ru = (with_state d (DFloat 1080 1920 g), Ok (Fin ef)) /\
    calculate_dmd_state h d input target MSimple w kw ru = (with_state d (DBool 1080 1920 f), Ok (Fin ef)) /\
    fl_holo_eta single 1080 1920 (pixel_size s) (scaling_factor s) (fl_holo_max single q 1080 1920 S' E) = Some y /\ Rabs (y - ef) <= (/ 50000 + K / 2 ^ 21) * ef /\
    forall i j, in_array d i j -> exists r x t, g i j = Fin r /\
      fl_holo_level single q neg 1080 1920 (pixel_size s) (d_p d) th S' E i j = Some x /\ Rabs (x - r) <= bound /\
      fl_holo_mirror single q neg 1080 1920 (pixel_size s) (d_p d) th S' E i j = Some t /\ (t <> f i j -> Rabs (r - 1 / 2) <= bound).
Proof.
  intros d s S1 K F q TB FL Sy Sx Hp Ht Hsf FI FT WR Eb Hb W1 NZ TR HK Hm HS S' bound.
  assert (T1 := tiny150). assert (T2 := tiny1075). assert (P1 := inv_le 150 150 ltac:(lia)). assert (P2 := inv_le 1075 1075 ltac:(lia)). assert (P3 := inv_le 310 1075 ltac:(lia)). assert (P4 := inv_le 130 150 ltac:(lia)).
  assert (Ps : 0 < pixel_size s) by (cbn; unfold micro; lra). assert (Pp : 0 < d_p d) by (cbn; unfold micro; lra).
  assert (S9 := fun i j => size_9500 wl fl per th neg i j (proj1 Hp)). cbv zeta in S9. fold d s in S9.
  assert (NF := numpy_forward tab ly lx TB FL ltac:(lia) ltac:(lia)). rewrite Sy, Sx in NF.
  assert (b0 : 0 < b) by lra. set (m := norm 1080 1920 S1 / norm 1080 1920 E) in *.
  assert (bm : / 2 ^ 40 * / 2 ^ 50 <= b * m) by (apply Rmult_le_compat; lra).
  assert (HU : holo_no_underflow (/ 2 ^ 21) b (/ 2 ^ 150) (/ 2 ^ 150) (/ 2 ^ 120) 1080 1920 E S1).
  { unfold holo_no_underflow. fold m. cbv zeta. assert (Hb' := Hb). clear - T1 P1 P4 Hm Hb' bm. clearbody m. set (e5 := / 2 ^ 150) in *. clearbody e5. repeat split; lra. }
  assert (HE : eta_no_underflow (/ 2 ^ 21) (/ 2 ^ 1075) (pixel_size s) (scaling_factor s) (INR 1920 * INR 1080) b 1080 1920 S1).
  { unfold eta_no_underflow.
    assert (PS : / 2 ^ 40 <= pixel_size s ^ 2) by (cbn; unfold micro; lra). set (p2 := pixel_size s ^ 2) in *. set (sf := scaling_factor s) in *. set (n1 := norm 1080 1920 S1) in *.
    set (e6 := / 2 ^ 1075) in *. clearbody e6.
    assert (I1 : / 2 ^ 100 <= / sf) by (apply Rinv_le_contravar; lra).
    assert (n0 : 0 < n1). { assert (N := norm_ge_0 1080 1920 S1). fold n1 in N. destruct N as [N|N]; [exact N|]. exfalso. unfold m in Hm. rewrite <- N in Hm. unfold Rdiv in Hm. rewrite Rmult_0_l in Hm. lra. }
    assert (I2 : / 2 ^ 100 <= / n1) by (apply Rinv_le_contravar; lra).
    assert (A1 : / 2 ^ 40 * / 2 ^ 100 <= p2 / sf) by (apply Rmult_le_compat; lra).
    assert (NN : 1 <= INR 1920 * INR 1080) by (rewrite !INR_IZR_INZ; change (Z.of_nat 1920) with 1920%Z; change (Z.of_nat 1080) with 1080%Z; lra).
    assert (A2 : / 2 ^ 40 * / 2 ^ 100 * 1 <= p2 / sf * (INR 1920 * INR 1080)) by (apply Rmult_le_compat; lra).
    assert (A3 : / 2 ^ 40 * / 2 ^ 100 * 1 * / 2 ^ 40 <= p2 / sf * (INR 1920 * INR 1080) * b) by (apply Rmult_le_compat; lra).
    assert (A4 : / 2 ^ 40 * / 2 ^ 100 * 1 * / 2 ^ 40 * / 2 ^ 100 <= p2 / sf * (INR 1920 * INR 1080) * b / n1) by (apply Rmult_le_compat; lra).
    set (A := p2 / sf * (INR 1920 * INR 1080) * b / n1) in *. set (A' := p2 / sf) in *. clearbody A A' p2. repeat split; lra. }
  assert (HK' : / 2 ^ 22 * K <= 1 / 17) by (clearbody K; lra).
  assert (HN : no_underflow (/ 2 ^ 150) (/ 2 ^ 21) (pixel_size s) (d_p d)) by (apply underflow_9500; [exact Hp|exact T1|lra]).
  assert (A1 : 0 <= / 2 ^ 24 <= / 2 ^ 24) by lra. assert (A2 : / 2 ^ 24 <= / 2 ^ 21) by lra. assert (A3 : 0 <= / 2 ^ 53 <= / 2 ^ 21) by lra. assert (A4 : / 2 ^ 21 <= / 2 ^ 16) by lra.
  assert (A5 : 0 <= / 2 ^ 150 <= / 2 ^ 21) by (set (e5 := / 2 ^ 150) in *; clearbody e5; lra). assert (A6 : / 2 ^ 1075 <= / 2 ^ 21) by (set (e6 := / 2 ^ 1075) in *; clearbody e6; lra).
  assert (A7 : 0 <= / 2 ^ 22) by lra. assert (A8 : 0 < scaling_factor s) by lra.
  assert (BA : (2 ^ 22 <= 2 ^ 24)%Z) by lia. assert (BB : (2 ^ 22 <= 2 ^ 53)%Z) by lia.
  assert (AC : FringeSpec.accurate single (/ 2 ^ 21)) by (apply (accurate_more single (/ 2 ^ 23)); [exact single_accurate|lra]).
  assert (Zy : (Z.of_nat 1080 <= 2 ^ 20)%Z) by (change (Z.of_nat 1080) with 1080%Z; lia). assert (Zx : (Z.of_nat 1920 <= 2 ^ 20)%Z) by (change (Z.of_nat 1920) with 1920%Z; lia).
  destruct (hologram_rounded single (/ 2 ^ 24) (/ 2 ^ 150) (/ 2 ^ 53) (/ 2 ^ 1075) (/ 2 ^ 21) (2 ^ 24) (2 ^ 53) q (/ 2 ^ 150) F (/ 2 ^ 22) (/ 2 ^ 120) h d input target w E T W kw ru b
    binary32_arithmetic binary64_arithmetic BA BB single_library AC (proj1 machine_polar) A1 A2 A3 A4 A5 A6 (proj1 A5) FI FT WR Eb b0 W1 NZ TR NF A7 HK' HU HN HE Zy Zx Ps A8 Pp Ht) as (g & f & ef & y & G & G' & Ey & Dy & V).
  change (s_Ny (d_slm d)) with 1080%nat in Dy, V, Ey, G, G'. change (s_Nx (d_slm d)) with 1920%nat in Dy, V, Ey, G, G'. fold S1 s in Dy, V. fold K in Dy, V. fold S' in Ey, V. exists g, f, ef, y. do 3 (split; [assumption|]).
    assert (Pef : 0 <= ef).
    { destruct (Rle_dec 0 ef) as [L|L]; [exact L|exfalso]. assert (K0 : 0 <= K). { unfold K, contrast. assert (N1 := norm_ge_0 1080 1920 E). assert (N2 := norm_ge_0 1080 1920 S1). assert (N3 := norm_ge_0 1080 1920 (spectrum_of 1080 1920 T)). assert (I : forall x, 0 <= x -> 0 <= / x) by (intros x [X|<-]; [left; apply Rinv_0_lt_compat, X|rewrite Rinv_0; lra]). assert (I1 := I b ltac:(lra)). assert (I2 := I _ N2). apply Rmult_le_pos; apply Rmult_le_pos; assumption. }
      assert (A := Rabs_pos (y - ef)). assert ((2 * (/ 2 ^ 22 * K) + 40 * / 2 ^ 21) * ef < 0); [|lra]. assert (0 < 2 * (/ 2 ^ 22 * K) + 40 * / 2 ^ 21) by lra. nra. }
    split; [eapply Rle_trans; [exact Dy|]; apply Rmult_le_compat_r; [exact Pef|lra]|].
    intros i j Hij. destruct (V i j Hij) as (r & x & t & V1 & V2 & V3 & V4 & V5). exists r, x, t. specialize (S9 i j Hij).
    set (L := phase_size _ _ _ _) in *. clearbody L. assert (LB : 16 * / 2 ^ 21 * (L + 12) + 4 * (/ 2 ^ 22 * K) <= bound) by (unfold bound; lra).
    split; [exact V1|]. split; [exact V2|]. split; [eapply Rle_trans; [exact V3|exact LB]|]. split; [exact V4|]. intros D. eapply Rle_trans; [exact (V5 D)|exact LB].
Qed.
