(** Proofs for C146 (a wide beam on a DLP9500) and C147: a beam that underflows nowhere, yet the quotient of amplitudes overflows. *)
From Coq Require Import Reals Lra Psatz ZArith Arith List Bool Lia.
From Flocq Require Import Core.
From Coquelicot Require Import Complex.
From Verif Require Import Cx Sums DFT PyBase ProfileModel SlmModel LibModel DmdModel SimModel SimSpec SimExamples DmdSpec DmdThms AmpFacts ModeSpec ModeThms FloatModel FloatSpec FloatFacts FloatFacts4 FlGridModel FlModeModel FlSimSpec NormFacts FlSimFacts FftModel FftSpec FftFacts3 FwdModel FwdSpec FwdFacts2 FlHoloModel FlHoloSpec FlHoloFacts2 FlHoloFacts3 FlHoloFacts4 FlHoloFacts5 NarrowSpec NarrowFacts NarrowFacts2 WideSpec WideFacts2 WideFacts3 OverflowModel OverflowSpec OverflowFacts OverflowFacts2.
Import ListNotations.
Open Scope R_scope.

(** ** Exponentials *)
Lemma half_up : exp (1 / 2) <= 1676 / 1000.
Proof.
  assert (U := exp_ineq1_le (- (1 / 16))). rewrite exp_Ropp in U. assert (P := exp_pos (1 / 16)).
  assert (E : exp (1 / 16) <= 16 / 15) by (replace (16 / 15) with (/ (15 / 16)) by lra; rewrite <- (Rinv_inv (exp (1 / 16))); apply Rinv_le_contravar; lra).
  replace (1 / 2) with (INR 8 * (1 / 16)) by (cbn; lra). rewrite WideFacts3.exp_times. apply Rle_trans with ((16 / 15) ^ 8); [apply pow_incr; lra|lra].
Qed.
Lemma half_down : 1642 / 1000 <= exp (1 / 2).
Proof.
  assert (E : 65 / 64 <= exp (1 / 64)) by (assert (U := exp_ineq1_le (1 / 64)); lra).
  replace (1 / 2) with (INR 32 * (1 / 64)) by (cbn; lra). rewrite WideFacts3.exp_times. apply Rle_trans with ((65 / 64) ^ 32); [lra|apply pow_incr; lra].
Qed.
Lemma exp_97 : exp 97 <= 2 ^ 145.
Proof.
  replace 97 with (INR 194 * (1 / 2)) by (rewrite INR_IZR_INZ; cbn; lra). rewrite WideFacts3.exp_times. apply Rle_trans with ((1676 / 1000) ^ 194); [apply pow_incr; split; [left; apply exp_pos|exact half_up]|].
  unfold Rdiv. rewrite Rpow_mult_distr, pow_inv. apply Rmult_le_reg_r with (1000 ^ 194); [apply pow_lt; lra|]. rewrite Rmult_assoc, Rinv_l, Rmult_1_r by (apply pow_nonzero; lra).
  rewrite !pow_IZR, <- mult_IZR. apply IZR_le. apply Z.leb_le. vm_compute. reflexivity.
Qed.
Lemma exp_90 : 14 / 10 * 2 ^ 129 <= exp (181 / 2).
Proof.
  replace (181 / 2) with (INR 181 * (1 / 2)) by (rewrite INR_IZR_INZ; cbn; lra). rewrite WideFacts3.exp_times. apply Rle_trans with ((1642 / 1000) ^ 181); [|apply pow_incr; split; [lra|exact half_down]].
  unfold Rdiv. rewrite Rpow_mult_distr, pow_inv. apply Rmult_le_reg_r with (10 * 1000 ^ 181); [apply Rmult_lt_0_compat; [lra|apply pow_lt; lra]|].
  replace (1642 ^ 181 * / 1000 ^ 181 * (10 * 1000 ^ 181)) with (1642 ^ 181 * 10 * (/ 1000 ^ 181 * 1000 ^ 181)) by (generalize (/ 1000 ^ 181) (1000 ^ 181) (1642 ^ 181); intros; ring). rewrite Rinv_l, Rmult_1_r by (apply pow_nonzero; lra).
  replace (14 * / 10 * 2 ^ 129 * (10 * 1000 ^ 181)) with (14 * 2 ^ 129 * 1000 ^ 181) by (generalize (1000 ^ 181) (2 ^ 129); intros; field).
  rewrite !pow_IZR, <- !mult_IZR. apply IZR_le. apply Z.leb_le. vm_compute. reflexivity.
Qed.

Section Panel.
Variables (wl fl per th : R) (neg : bool).
Let d := DLP9500 wl fl per th neg.
Let s := d_slm d.
Let q := rounded_polar binary32.
Let E' (A w : R) (i j : nat) : C := RtoC (fl_gaussian_beam single exp32 1080 1920 (pixel_size s) 0 0 A w i j).

Lemma abs_sampled A w i j : f_abs q (E' A w i j) = Rabs (fl_gaussian_beam single exp32 1080 1920 (pixel_size s) 0 0 A w i j).
Proof.
  unfold E'. cbn [f_abs q rounded_polar]. rewrite Cmod_R. unfold fl_gaussian_beam. destruct fl_grid as [x y]. unfold fl_gaussian. cbv zeta. cbn [rnd single machine].
  set (t := binary32 _ * _). clearbody t. assert (S2 := ar_stable _ _ _ _ binary32_arithmetic t). assert (O := ar_odd _ _ _ _ binary32_arithmetic (binary32 t)). set (v := binary32 t) in *. clearbody v. unfold Rabs. destruct (Rcase_abs v); [rewrite O, S2; reflexivity|exact S2].
Qed.
Lemma ps_fine : below2 0 (pixel_size s) /\ below2 20 (pixel_size s).
Proof. assert (P : 0 < pixel_size s <= 1) by (change (pixel_size s) with (10.8 * micro); unfold micro; lra). unfold below2. rewrite Rabs_pos_eq by lra. split; [cbn [pow]; lra|]. assert (X := pow2_ge1 20). lra. Qed.

(** ** Narrow *)
Lemma narrow_sample A w i j : 1 <= A -> 121 / 100000 <= w -> in_array d i j -> let z := hg_mode 0 0 A w 0 0 (mirror_x s j) (mirror_y s i) in
  Rabs (fl_gaussian_beam single exp32 1080 1920 (pixel_size s) 0 0 A w i j - z) <= 1 / 4000 * z + A * / 2 ^ 148.
Proof.
  intros HA Hw Hij z. assert (A0 : 0 < A) by lra. assert (w0 : 0 < w) by lra. destruct (gauss_range wl fl per th neg A w i j A0 w0 Hij) as [G1 G2]. fold d s in G1, G2. fold z in G1, G2. destruct (mirrors wl fl per th neg i j Hij) as [X Y]. fold d s in X, Y.
  assert (P := inv_le 130 150 ltac:(lia)). assert (P0 : 0 < / 2 ^ 150) by (apply Rinv_0_lt_compat, pow_lt; lra).
  assert (RQ : reach 0 0 w (mirror_x s j) (mirror_y s i) <= 126).
  { unfold reach. rewrite Rabs_R0, !Rplus_0_r. assert (iw : / w <= 100000 / 121) by (replace (100000 / 121) with (/ (121 / 100000)) by lra; apply Rinv_le_contravar; lra). assert (iw0 : 0 < / w) by (apply Rinv_0_lt_compat, w0).
    set (x := Rabs (mirror_x s j)) in *. set (y := Rabs (mirror_y s i)) in *. assert (0 <= x) by apply Rabs_pos. assert (0 <= y) by apply Rabs_pos. clearbody x y. unfold Rdiv.
    assert (x * / w <= 10368 / 1000000 * (100000 / 121)) by (apply Rmult_le_compat; lra). assert (y * / w <= 5832 / 1000000 * (100000 / 121)) by (apply Rmult_le_compat; lra).
    assert (0 <= x * / w) by (apply Rmult_le_pos; lra). assert (0 <= y * / w) by (apply Rmult_le_pos; lra). set (p := x * / w) in *. set (r := y * / w) in *. clearbody p r.
    assert ((1 + p) ^ 2 <= 9.57 ^ 2) by (apply pow_incr; lra). assert ((1 + r) ^ 2 <= 5.82 ^ 2) by (apply pow_incr; lra). lra. }
  destruct Hij as [Hi Hj].
  assert (C1 : 0 <= / 2 ^ 150 <= / 2 ^ 24 / 100) by (set (e5 := / 2 ^ 150) in *; clearbody e5; lra). assert (C2 : / 2 ^ 150 <= / 2 ^ 24 * pixel_size s / 2) by (change (pixel_size s) with (10.8 * micro); unfold micro; set (e5 := / 2 ^ 150) in *; clearbody e5; lra).
  assert (C3 : 2 ^ 23 * / 2 ^ 150 <= / 2 ^ 24 * w) by (set (e5 := / 2 ^ 150) in *; clearbody e5; lra). assert (C4 : / 2 ^ 150 <= / 2 ^ 24 * Rabs A) by (rewrite Rabs_pos_eq by lra; set (e5 := / 2 ^ 150) in *; clearbody e5; lra).
  assert (C5 : 19 * / 2 ^ 24 * reach 0 0 w (mirror_x s j) (mirror_y s i) <= 1 / 8) by lra. assert (C6 : 0 <= / 2 ^ 24 <= 1 / 8) by lra. assert (C7 : 0 <= / 2 ^ 24 <= / 2 ^ 24) by lra.
  assert (C8 : 0 < pixel_size s) by (change (pixel_size s) with (10.8 * micro); unfold micro; lra).
  assert (Zy : (Z.of_nat (s_Ny s) <= 2 ^ 20)%Z) by (change (Z.of_nat (s_Ny s)) with 1080%Z; lia). assert (Zx : (Z.of_nat (s_Nx s) <= 2 ^ 20)%Z) by (change (Z.of_nat (s_Nx s)) with 1920%Z; lia).
  assert (R := beam_accurate single (/ 2 ^ 24) (/ 2 ^ 150) (/ 2 ^ 53) (/ 2 ^ 1075) (2 ^ 24) (2 ^ 53) exp32 (/ 2 ^ 24) (/ 2 ^ 150) s 0 0 A w i j binary32_arithmetic binary64_arithmetic ltac:(lia) ltac:(lia) C7 C1 exp32_accurate C6 (proj1 C1) Zy Zx C8 C2 w0 C3 C4 Hi Hj C5).
  cbv zeta in R. change (s_Ny s) with 1080%nat in R. change (s_Nx s) with 1920%nat in R. eapply Rle_trans; [exact R|]. fold z. assert (z0 : 0 <= z) by (eapply Rle_trans; [|exact G1]; apply Rmult_le_pos; [lra|left; apply Rinv_0_lt_compat; unfold corner_contrast; apply exp_pos]).
  rewrite (Rabs_pos_eq A), (Rabs_pos_eq z) by lra. set (r := reach 0 0 w (mirror_x s j) (mirror_y s i)) in *. clearbody r z.
  assert (B1 : (24 * / 2 ^ 24 * r + 2 * / 2 ^ 24) * z <= 1 / 4000 * z) by (apply Rmult_le_compat_r; lra).
  assert (B2 : 4 * / 2 ^ 150 = / 2 ^ 148) by (replace (2 ^ 150) with (4 * 2 ^ 148) by ring; rewrite Rinv_mult; field; apply pow_nonzero; lra).
  rewrite <- B2. set (e5 := / 2 ^ 150) in *. clearbody e5. nra.
Qed.
Lemma corner_far w : 121 / 100000 <= w -> corner_contrast w <= 2 ^ 145.
Proof.
  intros Hw. eapply Rle_trans; [|exact exp_97]. unfold corner_contrast. apply exp_mono. apply Rle_trans with (142 / 1000000 * / (121 / 100000) ^ 2); [|lra]. apply Rmult_le_compat_l; [lra|]. apply Rinv_le_contravar; [lra|]. apply pow_incr. lra.
Qed.
Lemma narrow_positive A w i j : 1 <= A -> 121 / 100000 <= w -> in_array d i j -> 0 < fl_gaussian_beam single exp32 1080 1920 (pixel_size s) 0 0 A w i j.
Proof.
  intros HA Hw Hij. assert (X := narrow_sample A w i j HA Hw Hij). cbv zeta in X. destruct (gauss_range wl fl per th neg A w i j ltac:(lra) ltac:(lra) Hij) as [G1 _]. fold d s in G1. set (z := hg_mode 0 0 A w 0 0 (mirror_x s j) (mirror_y s i)) in *. set (v := fl_gaussian_beam _ _ _ _ _ _ _ _ _ _ _) in *. clearbody z v.
  assert (Z : A * / 2 ^ 145 <= z). { eapply Rle_trans; [|exact G1]. apply Rmult_le_compat_l; [lra|]. apply Rinv_le_contravar; [unfold corner_contrast; apply exp_pos|exact (corner_far w Hw)]. }
  assert (T : / 2 ^ 148 = / 8 * / 2 ^ 145) by (replace (2 ^ 148) with (8 * 2 ^ 145) by ring; rewrite Rinv_mult; reflexivity). rewrite T in X. assert (P : 0 < / 2 ^ 145) by (apply Rinv_0_lt_compat, pow2_pos). set (e := / 2 ^ 145) in *. clearbody e. apply Rabs_le_inv in X. assert (0 < A * e) by (apply Rmult_lt_0_compat; lra). nra.
Qed.
Lemma corner_dark A w : 1 <= A -> 121 / 100000 <= w <= 125 / 100000 -> fl_gaussian_beam single exp32 1080 1920 (pixel_size s) 0 0 A w 0 0 <= 72 / 100 * A * / 2 ^ 129.
Proof.
  intros HA [Hw Hw']. assert (Hij : in_array d 0 0) by (split; apply Nat.ltb_lt; reflexivity). assert (X := narrow_sample A w 0 0 HA Hw Hij). cbv zeta in X. set (z := hg_mode 0 0 A w 0 0 (mirror_x s 0) (mirror_y s 0)) in *.
  assert (Z : z <= A * / (14 / 10 * 2 ^ 129)).
  { unfold z, hg_mode. rewrite !(fun x => proj1 (hermite_low_orders x)), !Rmult_1_r, !Rminus_0_r. apply Rmult_le_compat_l; [lra|].
    apply Rle_trans with (exp (- (181 / 2))); [|rewrite exp_Ropp; apply Rinv_le_contravar; [apply Rmult_lt_0_compat; [lra|apply pow2_pos]|exact exp_90]]. apply exp_mono.
    assert (PX : mirror_x s 0 = - (10368 / 1000000)). { unfold mirror_x. change (s_Nx s) with 1920%nat. change (pixel_size s) with (10.8 * micro). unfold micro. rewrite (INR_IZR_INZ 1920), (INR_IZR_INZ 0). change (Z.of_nat 1920) with 1920%Z. change (Z.of_nat 0) with 0%Z. lra. }
    assert (PY : mirror_y s 0 = 5832 / 1000000). { unfold mirror_y. change (s_Ny s) with 1080%nat. change (pixel_size s) with (10.8 * micro). unfold micro. rewrite (INR_IZR_INZ 1080), (INR_IZR_INZ 0). change (Z.of_nat 1080) with 1080%Z. change (Z.of_nat 0) with 0%Z. lra. }
    rewrite PX, PY. replace (- ((- (10368 / 1000000)) ^ 2 + (5832 / 1000000) ^ 2) / w ^ 2) with (- ((- (10368 / 1000000) / w) ^ 2 + (5832 / 1000000 / w) ^ 2)) by (field; lra). apply Ropp_le_contravar. assert (I : 100000 / 125 <= / w) by (replace (100000 / 125) with (/ (125 / 100000)) by lra; apply Rinv_le_contravar; lra). unfold Rdiv. set (iw := / w) in *. clearbody iw.
    assert (X1 : (10368 * / 1000000 * (100000 / 125)) ^ 2 <= (- (10368 * / 1000000) * iw) ^ 2) by (replace ((- (10368 * / 1000000) * iw) ^ 2) with ((10368 * / 1000000 * iw) ^ 2) by ring; apply pow_incr; lra).
    assert (X2 : (5832 * / 1000000 * (100000 / 125)) ^ 2 <= (5832 * / 1000000 * iw) ^ 2) by (apply pow_incr; lra). lra. }
  assert (T : / 2 ^ 148 = / 524288 * / 2 ^ 129) by (replace (2 ^ 148) with (524288 * 2 ^ 129) by ring; rewrite Rinv_mult; reflexivity). rewrite T in X. rewrite Rinv_mult in Z. set (v := fl_gaussian_beam _ _ _ _ _ _ _ _ _ _ _) in *. clearbody v z. assert (P : 0 < / 2 ^ 129) by (apply Rinv_0_lt_compat, pow2_pos). set (e := / 2 ^ 129) in *. clearbody e. apply Rabs_le_inv in X. assert (0 < A * e) by (apply Rmult_lt_0_compat; lra).
  replace (A * (/ (14 / 10) * e)) with (10 / 14 * (A * e)) in Z by lra. replace (A * (/ 524288 * e)) with (/ 524288 * (A * e)) in X by ring. replace (72 / 100 * A * e) with (72 / 100 * (A * e)) by ring. set (y := A * e) in *. clearbody y. lra.
Qed.
Lemma quotient_overflows A w S : 1 <= A -> 121 / 100000 <= w <= 125 / 100000 -> A / 2 <= f_abs q (S 0%nat 0%nat) ->
  ie_ratio single_limits single (f_abs q (S 0%nat 0%nat)) (f_abs q (E' A w 0 0)) = PInf.
Proof.
  intros HA Hw HS. assert (Hij : in_array d 0 0) by (split; apply Nat.ltb_lt; reflexivity). assert (V0 := narrow_positive A w 0 0 HA (proj1 Hw) Hij). assert (V1 := corner_dark A w HA Hw). rewrite abs_sampled. set (v := fl_gaussian_beam _ _ _ _ _ _ _ _ _ _ _) in *. set (t := f_abs q (S 0%nat 0%nat)) in *. clearbody v t. rewrite Rabs_pos_eq by lra.
  unfold ie_ratio, ie_div, xdiv. destruct (Req_EM_T t 0) as [Z|_]; [lra|]. destruct (Req_EM_T v 0) as [Z|_]; [lra|].
  assert (Q : 138 / 100 * 2 ^ 128 <= t / v).
  { apply Rmult_le_reg_r with v; [exact V0|]. replace (t / v * v) with t by (field; lra). eapply Rle_trans; [|exact HS]. replace (2 ^ 129) with (2 * 2 ^ 128) in V1 by ring. rewrite Rinv_mult in V1. assert (P := pow2_pos 128). assert (I : / 2 ^ 128 * 2 ^ 128 = 1) by (apply Rinv_l; lra). set (e := / 2 ^ 128) in *. set (g := 2 ^ 128) in *. clearbody e g.
    apply Rle_trans with (138 / 100 * g * (72 / 100 * A * (/ 2 * e))); [apply Rmult_le_compat_l; lra|]. replace (138 / 100 * g * (72 / 100 * A * (/ 2 * e))) with (138 / 100 * (72 / 100) * A * / 2 * (e * g)) by ring. rewrite I. lra. }
  assert (E := ar_error _ _ _ _ binary32_arithmetic (t / v)). cbn [single machine rnd]. set (x := t / v) in *. set (r := binary32 x) in *. clearbody x r. assert (P := pow2_pos 128). assert (x0 : 0 < x) by lra. rewrite (Rabs_pos_eq x) in E by lra. apply Rabs_le_inv in E.
  assert (T : / 2 ^ 150 <= / 16777216) by (rewrite <- u24; apply inv_pow_le; lia). assert (N1 := pow2_ge1 128). rewrite u24 in E.
  assert (G : 2 ^ 128 < r) by (set (g := 2 ^ 128) in *; clearbody g; set (e := / 2 ^ 150) in *; clearbody e; lra).
  destruct (Rle_dec (Rabs r) (lim single_limits)) as [L|_]; [|destruct (Rlt_dec 0 x); [reflexivity|contradiction]]. exfalso. cbn [single_limits lim] in L. unfold max32 in L. assert (Q1 := Rle_abs r). assert (Q2 := pow2_pos 104). set (g := 2 ^ 128) in *. set (g4 := 2 ^ 104) in *. clearbody g g4. lra.
Qed.
Lemma angle4 z : Rabs (f_angle q z) <= 4.
Proof.
  cbn [f_angle q rounded_polar]. assert (K := carg_range z). assert (P := PI_4). assert (M := ar_monotone _ _ _ _ binary32_arithmetic). assert (O := ar_odd _ _ _ _ binary32_arithmetic).
  assert (I4 : binary32 4 = 4) by (apply (fl_int _ _ _ _ binary32_arithmetic 4); lia). apply Rabs_le. split; [rewrite <- I4, <- O; apply M; lra|rewrite <- I4; apply M; lra].
Qed.
Lemma period_fine : 1 <= per <= 2 ^ 100 -> above2 20 (d_p d) /\ below2 100 (d_p d).
Proof.
  intros Hp. change (d_p d) with (per * (10.8 * micro)). assert (M : / 2 ^ 20 <= 10.8 * micro <= 1) by (unfold micro; lra). set (m := 10.8 * micro) in *. clearbody m. assert (P : 0 < / 2 ^ 20) by (apply Rinv_0_lt_compat, pow2_pos). set (e := / 2 ^ 20) in *. unfold above2, below2. fold e. clearbody e. rewrite Rabs_pos_eq by (apply Rmult_le_pos; lra). set (g := 2 ^ 100) in *. clearbody g. split; nra.
Qed.
Lemma blown_hologram A w S sf : 1 <= per <= 2 ^ 100 -> Rabs th <= 2 ^ 100 -> / 2 ^ 40 <= sf -> 1 <= A -> 121 / 100000 <= w <= 125 / 100000 -> A / 2 <= f_abs q (S 0%nat 0%nat) ->
  let M := ie_max single_limits single 1080 1920 (fun i j => f_abs q (S i j)) (fun i j => f_abs q (E' A w i j)) in
  (forall i j, in_array d i j -> 0 < fl_gaussian_beam single exp32 1080 1920 (pixel_size s) 0 0 A w i j) /\ M = PInf /\ ck_holo_eta single_limits single 1080 1920 (pixel_size s) sf M = Some 0 /\
  forall i j, in_array d i j ->
    (ck_holo_level single_limits single q neg 1080 1920 (pixel_size s) (d_p d) th S (E' A w) i j = Some (Fin 0) \/ ck_holo_level single_limits single q neg 1080 1920 (pixel_size s) (d_p d) th S (E' A w) i j = Some NaN) /\
    ck_holo_mirror single_limits single q neg 1080 1920 (pixel_size s) (d_p d) th S (E' A w) i j = Some false.
Proof.
  intros Hp Ht Hsf HA Hw HS M. destruct ps_fine as [PS0 PS]. destruct (period_fine Hp) as [P1 P2]. assert (RO := single_roomy).
  assert (Z1 : (Z.of_nat 1080 <= 2 ^ 20)%Z) by (change (Z.of_nat 1080) with 1080%Z; lia). assert (Z2 : (Z.of_nat 1920 <= 2 ^ 20)%Z) by (change (Z.of_nat 1920) with 1920%Z; lia).
  split; [intros i j Hij; apply narrow_positive; try assumption; lra|].
  assert (EM : M = PInf).
  { unfold M, ie_max. cbn [reduce_max]. apply (xmax2_pinf _ _ _ 0 0).
    - intros i j Hi Hj. assert (V := narrow_positive A w i j HA (proj1 Hw) (conj Hi Hj)). unfold ie_ratio, ie_div. destruct (Req_EM_T (f_abs q (S i j)) 0); [discriminate|]. rewrite abs_sampled, (Rabs_pos_eq (fl_gaussian_beam _ _ _ _ _ _ _ _ _ _ _)) by lra. unfold xdiv. destruct (Req_EM_T (fl_gaussian_beam _ _ _ _ _ _ _ _ _ _ _) 0); [lra|]. destruct (Rle_dec _ _); [discriminate|]. destruct (Rlt_dec _ _); discriminate.
    - apply Nat.ltb_lt. reflexivity.
    - apply Nat.ltb_lt. reflexivity.
    - exact (quotient_overflows A w S HA Hw HS). }
  assert (SF : above2 40 sf) by (unfold above2; eapply Rle_trans; [exact Hsf|apply Rle_abs]).
  split; [exact EM|]. split; [unfold ck_holo_eta; rewrite EM; repeat one RO; reflexivity|]. intros i j Hij.
  assert (LV : ck_holo_level single_limits single q neg 1080 1920 (pixel_size s) (d_p d) th S (E' A w) i j = Some (Fin 0) \/ ck_holo_level single_limits single q neg 1080 1920 (pixel_size s) (d_p d) th S (E' A w) i j = Some NaN).
  { destruct Hij as [Hi Hj]. change (i < 1080)%nat in Hi. change (j < 1920)%nat in Hj.
    assert (Z3 : (Z.of_nat i <= 2 ^ 20)%Z) by (apply Nat2Z.inj_lt in Hi; change (Z.of_nat 1080) with 1080%Z in Hi; lia). assert (Z4 : (Z.of_nat j <= 2 ^ 20)%Z) by (apply Nat2Z.inj_lt in Hj; change (Z.of_nat 1920) with 1920%Z in Hj; lia).
    destruct (grid_finite single_limits single RO 1080 1920 (pixel_size s) i j Z1 Z2 PS Z3 Z4) as (EG & BX & BY). unfold ck_holo_level. rewrite EG. destruct (fl_grid single 1080 1920 (pixel_size s) i j) as [x y]. cbn [fst snd] in BX, BY.
    assert (BT : below2 100 th) by exact Ht. repeat one RO. unfold ie_amp_scaled. change (ie_max single_limits single 1080 1920 (fun i j => f_abs q (S i j)) (fun i j => f_abs q (E' A w i j))) with M. rewrite EM.
    assert (Z0 : rnd single 0 = 0) by (apply (fl_0 _ _ _ _ binary32_arithmetic); lia).
    destruct ie_ratio as [r| | |]; unfold ie_div; cbn [xdiv]; try (right; reflexivity). left. rewrite Z0.
    destruct (Rle_dec (Rabs 0) (lim single_limits)) as [_|N]; [|exfalso; apply N; rewrite Rabs_R0; cbn [single_limits lim]; assert (K := max32_big); assert (K' := pow2_pos 127); lra].
    rewrite (ideal_finite single_limits single RO); try assumption.
    - do 2 f_equal. unfold fl_ideal. rewrite Rmult_0_l. exact Z0.
    - unfold below2. rewrite Rabs_R0. left. apply pow2_pos.
    - assert (UP : above2 21 (rnd single (d_p d))) by (eapply above_rnd; [exact (ro_rnd _ _ RO)|small|exact P1]). unfold above2 in *. eapply Rle_trans; [|exact UP]. apply inv_pow_le. lia.
    - apply (below_le 2); [apply below_4; apply angle4|small].
    - unfold fl_phase_out. destruct (C_dec0 (S i j)); [apply below_const; rewrite Rabs_R0; lra|]. apply (below_le 2); [apply below_4; apply angle4|small]. }
  split; [exact LV|]. unfold ck_holo_mirror. destruct LV as [-> | ->]; [|reflexivity]. one RO. assert (H5 : rnd single (1 / 2) = 1 / 2) by (assert (X := ar_exact _ _ _ _ binary32_arithmetic 1 1 ltac:(lia) ltac:(lia)); replace (IZR 1 / 2 ^ 1) with (1 / 2) in X by (cbn [pow]; field); exact X). rewrite H5. destruct (Rlt_dec (1 / 2) 0); [lra|reflexivity].
Qed.
(** The exact beam. *)
Lemma exact_efficiency h A w target T kw ru m : 0 < wl -> 0 < fl -> per <> 0 -> A <> 0 -> 0 < w -> full_target h s target T -> spectrum_of 1080 1920 T 0 0 <> RtoC 0 -> m = MSimple \/ m = MRandom ->
  exists eta, 0 < eta /\ snd (calculate_dmd_state h d (exact_beam s A w) target m None kw ru) = Ok (Fin eta).
Proof.
  intros Hwl Hfl Hper HA W0 HT Hz Hm.
  assert (Hp : d_p d <> 0). { change (d_p d) with (per * (10.8 * micro)). apply Rmult_integral_contrapositive_currified; [exact Hper|]. unfold micro. lra. }
  assert (S0 : 0 < scaling_factor s) by (unfold s, d, DLP9500, dmd_new, scaling_factor; cbn [d_slm wavelength focal_length]; apply Rmult_lt_0_compat; assumption).
  assert (PS : 0 < pixel_size s) by (change (pixel_size s) with (10.8 * micro); unfold micro; lra).
  assert (Yn : (0 < s_Ny s)%nat) by (apply Nat.ltb_lt; reflexivity). assert (Xn : (0 < s_Nx s)%nat) by (apply Nat.ltb_lt; reflexivity).
  assert (HW : window_reads h s None (fun _ _ => RtoC 1)) by (intros i j; reflexivity).
  set (F := fun i j => RtoC (hg_mode 0 0 A w 0 0 (mirror_x s j) (mirror_y s i))).
  assert (HF : full_input h s (exact_beam s A w) F) by reflexivity.
  destruct (hologram_spec h d (exact_beam s A w) target None F T (fun _ _ => RtoC 1) kw ru HF HT HW Hp Yn Xn ltac:(fold s; lra)) as (M & HM & _ & _ & _ & (g2 & G2 & _) & (g3 & G3 & _)).
  { intros i j _ E. destruct (exact_bright s A w i j W0 HA E). }
  { exists 0%nat, 0%nat. split; [split; assumption|]. unfold windowed. rewrite Cmult_1_r. exact Hz. }
  exists (eta_scale s / M). split.
  - unfold eta_scale. apply Rdiv_lt_0_compat; [|exact HM]. apply Rdiv_lt_0_compat; [|exact S0]. assert (N1 := lt_0_INR _ Yn). assert (N2 := lt_0_INR _ Xn). apply Rmult_lt_0_compat; [apply Rmult_lt_0_compat; assumption|apply pow_lt; exact PS].
  - destruct Hm as [-> | ->]; [rewrite G2|rewrite G3]; reflexivity.
Qed.

(** ** Wide *)
Lemma wide_bright A w i j : / 2 ^ 30 <= A -> 6 / 1000 <= w -> in_array d i j -> / 2 ^ 60 <= f_abs q (E' A w i j).
Proof.
  intros HA Hw Hij. rewrite abs_sampled. assert (X := sampled wl fl per th neg A w i j HA Hw Hij). fold d s in X. destruct (gauss_range wl fl per th neg A w i j ltac:(lra) ltac:(lra) Hij) as [G1 G2]. fold d s in G1, G2. assert (D := corner_6mm w Hw). assert (D1 := corner_ge w ltac:(lra)).
  assert (ZA : A / 68 <= A / corner_contrast w) by (apply Rmult_le_compat_l; [lra|]; apply Rinv_le_contravar; lra). set (z := hg_mode 0 0 A w 0 0 (mirror_x s j) (mirror_y s i)) in *. set (v := fl_gaussian_beam _ _ _ _ _ _ _ _ _ _ _) in *. clearbody z v. apply Rabs_le_inv in X. rewrite Rabs_pos_eq by lra. lra.
Qed.
Lemma wide_finite A w S i j : 1 <= per <= 2 ^ 100 -> Rabs th <= 2 ^ 100 -> / 2 ^ 30 <= A -> 6 / 1000 <= w -> (forall i j, in_array d i j -> f_abs q (S i j) <= 2 ^ 60) -> in_array d i j ->
  ck_holo_level single_limits single q neg 1080 1920 (pixel_size s) (d_p d) th S (E' A w) i j = Some (match fl_holo_level single q neg 1080 1920 (pixel_size s) (d_p d) th S (E' A w) i j with Some g => Fin g | None => NaN end) /\
  ck_holo_mirror single_limits single q neg 1080 1920 (pixel_size s) (d_p d) th S (E' A w) i j = Some (match fl_holo_mirror single q neg 1080 1920 (pixel_size s) (d_p d) th S (E' A w) i j with Some b => b | None => false end) /\
  ie_max single_limits single 1080 1920 (fun i j => f_abs q (S i j)) (fun i j => f_abs q (E' A w i j)) = fl_holo_max single q 1080 1920 S (E' A w).
Proof.
  intros Hp Ht HA Hw HS [Hi Hj]. destruct ps_fine as [_ PS]. destruct (period_fine Hp) as [P1 P2].
  assert (Z1 : (Z.of_nat 1080 <= 2 ^ 20)%Z) by (change (Z.of_nat 1080) with 1080%Z; lia). assert (Z2 : (Z.of_nat 1920 <= 2 ^ 20)%Z) by (change (Z.of_nat 1920) with 1920%Z; lia).
  assert (N1 : (0 < 1080)%nat) by (apply Nat.ltb_lt; reflexivity). assert (N2 : (0 < 1920)%nat) by (apply Nat.ltb_lt; reflexivity).
  assert (HS' : forall i j, (i < 1080)%nat -> (j < 1920)%nat -> 0 <= f_abs q (S i j) <= 2 ^ 60).
  { intros k l Hk Hl. split; [|apply HS; split; assumption]. cbn [f_abs q rounded_polar]. assert (Z0 := fl_0 _ _ _ _ binary32_arithmetic ltac:(lia)). rewrite <- Z0 at 1. apply (ar_monotone _ _ _ _ binary32_arithmetic). apply Cmod_ge_0. }
  assert (HE' : forall i j, (i < 1080)%nat -> (j < 1920)%nat -> / 2 ^ 60 <= f_abs q (E' A w i j)) by (intros k l Hk Hl; apply wide_bright; try assumption; split; assumption).
  destruct (level_finite single_limits single single_roomy q 1080 1920 (pixel_size s) (d_p d) th S (E' A w) N1 N2 Z1 Z2 PS P1 P2 Ht angle4 HS' HE' neg i j Hi Hj) as [L1 L2].
  split; [exact L1|]. split; [exact L2|]. exact (holo_max_finite single_limits single single_roomy q 1080 1920 S (E' A w) N1 N2 HS' HE').
Qed.
End Panel.

(** ** A spot *)
Lemma spot_bright tab ly lx k l i j : let F := fun _ _ : nat => numpy_fft2 single double tab (direct double tab) ly lx in
  good_forward_table (2 * / 2 ^ 53) tab -> Forall (fun r => 2 <= r)%nat (ly ++ lx) -> size ly = 1080%nat -> size lx = 1920%nat -> (k < 1080)%nat -> (l < 1920)%nat -> (i < 1080)%nat -> (j < 1920)%nat ->
  1 / 2 <= f_abs (rounded_polar binary32) (fl_spectrum single F 1080 1920 (spot k l) None i j) <= 2.
Proof.
  intros F TB FL Sy Sx Hk Hl Hi Hj. assert (NF := numpy_forward tab ly lx TB FL ltac:(lia) ltac:(lia)). rewrite Sy, Sx in NF.
  assert (Z0 := fl_0 _ _ _ _ binary32_arithmetic ltac:(lia)). assert (Z1 := fl_1 _ _ _ _ binary32_arithmetic ltac:(lia)).
  assert (TR : forall i j, (i < 1080)%nat -> (j < 1920)%nat -> representable (rnd single) (spot k l i j)).
  { intros u v _ _. unfold spot. destruct (andb _ _); split; cbn [fst snd RtoC]; assumption. }
  assert (E0 : 0 <= / 2 ^ 150) by (left; apply Rinv_0_lt_compat, pow2_pos).
  assert (P := spectrum_near single (/ 2 ^ 24) (/ 2 ^ 150) (/ 2 ^ 24) (2 ^ 24) (/ 2 ^ 22) (/ 2 ^ 120) F 1080 1920 (spot k l) None binary32_arithmetic ltac:(rewrite u24; lra) ltac:(rewrite u24; lra) E0 ltac:(lia) ltac:(lia) NF TR).
  cbv beta iota zeta in P. specialize (P ltac:(intros; rewrite Cmod_1; lra) i j Hi Hj). rewrite Cmult_1_r in P. assert (SP := spot_spectrum 1080 1920 k l i j Hk Hl). rewrite SP in P.
  assert (NT : norm 1080 1920 (spectrum_of 1080 1920 (spot k l)) = sqrt (INR 1080 * INR 1920)) by (apply norm_unit; intros; apply spot_spectrum; assumption). rewrite NT in P. clear NT.
  assert (Q : sqrt (INR 1080 * INR 1920) = 1440).
  { rewrite !INR_IZR_INZ. change (Z.of_nat 1920) with 1920%Z. change (Z.of_nat 1080) with 1080%Z. replace (1080 * 1920) with (1440 ^ 2) by ring. apply sqrt_pow2. lra. }
  rewrite Q, u24, u22 in P. clear Q. set (z := fl_spectrum single F 1080 1920 (spot k l) None i j) in *. set (y := spectrum_of 1080 1920 (spot k l) i j) in *. clearbody z y.
  assert (T1 : / 2 ^ 150 <= / 1048576) by (replace 1048576 with (2 ^ 20) by ring; apply inv_pow_le; lia). assert (T2 : / 2 ^ 120 <= / 1048576) by (replace 1048576 with (2 ^ 20) by ring; apply inv_pow_le; lia).
  assert (B : Cmod (z - y)%C <= 1 / 4) by (set (e1 := / 2 ^ 150) in *; set (e2 := / 2 ^ 120) in *; clearbody e1 e2; lra).
  assert (TZ := Cmod_triangle y (z - y)%C). replace (y + (z - y))%C with z in TZ by ring. assert (TY := Cmod_triangle z (y - z)%C). replace (z + (y - z))%C with y in TY by ring. assert (SY : Cmod (y - z)%C = Cmod (z - y)%C) by (rewrite <- Cmod_opp; f_equal; ring). rewrite SY in TY.
  cbn [f_abs rounded_polar]. assert (M := ar_monotone _ _ _ _ binary32_arithmetic).
  assert (H5 : binary32 (1 / 2) = 1 / 2) by (assert (X := ar_exact _ _ _ _ binary32_arithmetic 1 1 ltac:(lia) ltac:(lia)); replace (IZR 1 / 2 ^ 1) with (1 / 2) in X by (cbn [pow]; field); exact X).
  assert (I2 : binary32 2 = 2) by (apply (fl_int _ _ _ _ binary32_arithmetic 2); lia).
  split; [rewrite <- H5|rewrite <- I2]; apply M; lra.
Qed.
