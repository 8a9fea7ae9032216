(** A wide Gaussian beam on a DLP9500 in single precision (C137). *)
From Coq Require Import Reals Lra Psatz ZArith Arith List Bool Lia.
From Flocq Require Import Core.
From Coquelicot Require Import Complex.
From Verif Require FlHoloFacts2.
From Verif Require Import Cx Sums DFT PyBase ProfileModel SlmModel LibModel DmdModel SimModel SimSpec DmdSpec DmdThms ModeSpec ModeThms FloatModel FloatSpec FloatFacts FloatFacts2 FloatFacts3 FloatFacts4 FringeSpec FlSimSpec NormFacts FlSimFacts FftModel FftSpec FwdModel FwdSpec FlHoloModel FlHoloSpec FlHoloFacts FlHoloFacts4 FlModeModel NarrowSpec NarrowFacts FftFacts3 FlGsFacts WideSpec WideFacts WideFacts2.
Open Scope R_scope.

Lemma exp_mono x y : x <= y -> exp x <= exp y. Proof. intros [H| ->]; [left; apply exp_increasing, H|lra]. Qed.
Lemma exp_times n x : exp (INR n * x) = exp x ^ n.
Proof. induction n as [|n IH]; [cbn [INR pow]; rewrite Rmult_0_l; apply exp_0|]. rewrite S_INR. cbn [pow]. rewrite <- IH, <- exp_plus. f_equal. ring. Qed.
Lemma corner_ge w : 0 < w -> 1 <= corner_contrast w.
Proof. intros Hw. unfold corner_contrast. rewrite <- exp_0 at 1. apply exp_mono. apply Rmult_le_pos; [lra|left; apply Rinv_0_lt_compat, pow_lt, Hw]. Qed.
Lemma corner_6mm w : 6 / 1000 <= w -> corner_contrast w <= 68.
Proof.
  intros Hw. unfold corner_contrast. apply Rle_trans with (exp (INR 32 * (71 / 576))).
  - apply exp_mono. replace (INR 32 * (71 / 576)) with (142 / 1000000 * / (6 / 1000) ^ 2) by (assert (N : INR 32 = 32) by (rewrite INR_IZR_INZ; reflexivity); rewrite N; field). apply Rmult_le_compat_l; [lra|]. apply Rinv_le_contravar; [lra|]. apply pow_incr. lra.
  - assert (E : exp (71 / 576) <= 576 / 505). { assert (U := exp_ineq1_le (- (71 / 576))). rewrite exp_Ropp in U. assert (P := exp_pos (71 / 576)). replace (576 / 505) with (/ (505 / 576)) by lra. rewrite <- (Rinv_inv (exp (71 / 576))). apply Rinv_le_contravar; lra. }
    rewrite exp_times. apply Rle_trans with ((576 / 505) ^ 32); [|lra]. apply pow_incr. split; [left; apply exp_pos|exact E].
Qed.
Lemma exp32_accurate : accurate_exp exp32 (/ 2 ^ 24) (/ 2 ^ 150).
Proof. intros t _. assert (E := ar_error _ _ _ _ binary32_arithmetic (exp t)). rewrite (Rabs_pos_eq (exp t)) in E by (left; apply exp_pos). exact E. Qed.
Lemma mirror_range n k : (k < n)%nat -> Rabs (INR k - INR n / 2) <= INR n / 2 /\ Rabs (INR n / 2 - INR k) <= INR n / 2.
Proof. intros H. apply lt_INR in H. assert (P := pos_INR k). split; apply Rabs_le; lra. Qed.
Section Panel.
Variables (wl fl per th : R) (neg : bool).
Let d := DLP9500 wl fl per th neg.
Let s := d_slm d.
Lemma mirrors i j : in_array d i j -> Rabs (mirror_x s j) <= 10368 / 1000000 /\ Rabs (mirror_y s i) <= 5832 / 1000000.
Proof.
  intros [Hi Hj]. change (i < 1080)%nat in Hi. change (j < 1920)%nat in Hj. destruct (mirror_range 1920 j Hj) as [X _]. destruct (mirror_range 1080 i Hi) as [_ Y]. unfold mirror_x, mirror_y.
  change (s_Nx s) with 1920%nat. change (s_Ny s) with 1080%nat. assert (PP : pixel_size s = 108 / 10000000) by (change (pixel_size s) with (10.8 * micro); unfold micro; lra). set (p := pixel_size s) in *. clearbody p. rewrite !Rabs_mult, (Rabs_pos_eq p) by lra. rewrite PP.
  assert (N1 : INR 1920 = 1920) by (rewrite INR_IZR_INZ; reflexivity). assert (N2 : INR 1080 = 1080) by (rewrite INR_IZR_INZ; reflexivity). rewrite N1, N2 in *. split; lra.
Qed.
Lemma gauss_range A w i j : 0 < A -> 0 < w -> in_array d i j -> let z := hg_mode 0 0 A w 0 0 (mirror_x s j) (mirror_y s i) in A / corner_contrast w <= z <= A.
Proof.
  intros HA Hw Hij z. destruct (mirrors i j Hij) as [X Y]. set (x := mirror_x s j) in *. set (y := mirror_y s i) in *.
  assert (Z : z = A * exp (- ((x ^ 2 + y ^ 2) / w ^ 2))). { unfold z, hg_mode. rewrite !(fun x => proj1 (hermite_low_orders x)), !Rmult_1_r, !Rminus_0_r. do 2 f_equal. field. lra. }
  assert (w2 : 0 < / w ^ 2) by (apply Rinv_0_lt_compat, pow_lt, Hw). assert (X2 : x ^ 2 <= (10368 / 1000000) ^ 2) by (rewrite <- (pow2_abs x); apply pow_incr; split; [apply Rabs_pos|exact X]). assert (Y2 : y ^ 2 <= (5832 / 1000000) ^ 2) by (rewrite <- (pow2_abs y); apply pow_incr; split; [apply Rabs_pos|exact Y]).
  assert (X0 := pow2_ge_0 x). assert (Y0 := pow2_ge_0 y). rewrite Z. clearbody x y. split.
  - unfold Rdiv at 1, corner_contrast. rewrite <- exp_Ropp. apply Rmult_le_compat_l; [lra|]. apply exp_mono. apply Ropp_le_contravar. unfold Rdiv. apply Rmult_le_compat_r; lra.
  - rewrite <- (Rmult_1_r A) at 2. apply Rmult_le_compat_l; [lra|]. rewrite <- exp_0. apply exp_mono. assert (0 <= (x ^ 2 + y ^ 2) / w ^ 2) by (apply Rmult_le_pos; lra). lra.
Qed.
Lemma sampled A w i j : / 2 ^ 30 <= A -> 6 / 1000 <= w -> in_array d i j ->
  Rabs (fl_gaussian_beam single exp32 1080 1920 (pixel_size s) 0 0 A w i j - hg_mode 0 0 A w 0 0 (mirror_x s j) (mirror_y s i)) <= 1 / 60000 * hg_mode 0 0 A w 0 0 (mirror_x s j) (mirror_y s i).
Proof.
  intros HA Hw Hij. assert (A0 : 0 < A) by lra. assert (w0 : 0 < w) by lra. destruct (gauss_range A w i j A0 w0 Hij) as [G1 G2]. destruct (mirrors i j Hij) as [X Y].
  assert (P := inv_le 130 150 ltac:(lia)). assert (P0 : 0 < / 2 ^ 150) by (apply Rinv_0_lt_compat, pow_lt; lra).
  assert (RQ : reach 0 0 w (mirror_x s j) (mirror_y s i) <= 11.34).
  { unfold reach. rewrite Rabs_R0, !Rplus_0_r. assert (iw : / w <= 1000 / 6) by (replace (1000 / 6) with (/ (6 / 1000)) by lra; apply Rinv_le_contravar; lra). assert (iw0 : 0 < / w) by (apply Rinv_0_lt_compat, w0).
    set (x := Rabs (mirror_x s j)) in *. set (y := Rabs (mirror_y s i)) in *. assert (0 <= x) by apply Rabs_pos. assert (0 <= y) by apply Rabs_pos. clearbody x y. unfold Rdiv.
    assert (x * / w <= 10368 / 1000000 * (1000 / 6)) by (apply Rmult_le_compat; lra). assert (y * / w <= 5832 / 1000000 * (1000 / 6)) by (apply Rmult_le_compat; lra).
    assert (0 <= x * / w) by (apply Rmult_le_pos; lra). assert (0 <= y * / w) by (apply Rmult_le_pos; lra). set (p := x * / w) in *. set (r := y * / w) in *. clearbody p r.
    assert ((1 + p) ^ 2 <= 2.728 ^ 2) by (apply pow_incr; lra). assert ((1 + r) ^ 2 <= 1.972 ^ 2) by (apply pow_incr; lra). lra. }
  destruct Hij as [Hi Hj].
  assert (C1 : 0 <= / 2 ^ 150 <= / 2 ^ 24 / 100) by (set (e5 := / 2 ^ 150) in *; clearbody e5; lra). assert (C2 : / 2 ^ 150 <= / 2 ^ 24 * pixel_size s / 2) by (change (pixel_size s) with (10.8 * micro); unfold micro; set (e5 := / 2 ^ 150) in *; clearbody e5; lra).
  assert (C3 : 2 ^ 23 * / 2 ^ 150 <= / 2 ^ 24 * w) by (set (e5 := / 2 ^ 150) in *; clearbody e5; lra). assert (C4 : / 2 ^ 150 <= / 2 ^ 24 * Rabs A) by (rewrite Rabs_pos_eq by lra; set (e5 := / 2 ^ 150) in *; clearbody e5; lra).
  assert (C5 : 19 * / 2 ^ 24 * reach 0 0 w (mirror_x s j) (mirror_y s i) <= 1 / 8) by lra. assert (C6 : 0 <= / 2 ^ 24 <= 1 / 8) by lra. assert (C7 : 0 <= / 2 ^ 24 <= / 2 ^ 24) by lra.
  assert (C8 : 0 < pixel_size s) by (change (pixel_size s) with (10.8 * micro); unfold micro; lra).
  assert (Zy : (Z.of_nat (s_Ny s) <= 2 ^ 20)%Z) by (change (Z.of_nat (s_Ny s)) with 1080%Z; lia). assert (Zx : (Z.of_nat (s_Nx s) <= 2 ^ 20)%Z) by (change (Z.of_nat (s_Nx s)) with 1920%Z; lia).
  assert (R := beam_accurate single (/ 2 ^ 24) (/ 2 ^ 150) (/ 2 ^ 53) (/ 2 ^ 1075) (2 ^ 24) (2 ^ 53) exp32 (/ 2 ^ 24) (/ 2 ^ 150) s 0 0 A w i j binary32_arithmetic binary64_arithmetic ltac:(lia) ltac:(lia) C7 C1 exp32_accurate C6 (proj1 C1) Zy Zx C8 C2 w0 C3 C4 Hi Hj C5).
  cbv zeta in R. change (s_Ny s) with 1080%nat in R. change (s_Nx s) with 1920%nat in R. eapply Rle_trans; [exact R|]. set (z := hg_mode 0 0 A w 0 0 (mirror_x s j) (mirror_y s i)) in *. assert (D := corner_6mm w Hw). assert (D1 := corner_ge w w0).
  assert (ZA : A / 68 <= z). { eapply Rle_trans; [|exact G1]. apply Rmult_le_compat_l; [lra|]. apply Rinv_le_contravar; lra. }
  rewrite (Rabs_pos_eq A), (Rabs_pos_eq z) by lra. set (q := reach 0 0 w (mirror_x s j) (mirror_y s i)) in *. clearbody q z.
  assert (B1 : (24 * / 2 ^ 24 * q + 2 * / 2 ^ 24) * z <= (24 * / 2 ^ 24 * 11.34 + 2 * / 2 ^ 24) * z) by (apply Rmult_le_compat_r; lra).
  assert (B2 : A * / 2 ^ 150 <= A * / 2 ^ 130) by (apply Rmult_le_compat_l; lra). set (e5 := / 2 ^ 150) in *. clearbody e5. set (t := A * e5) in *. clearbody t. lra.
Qed.
Lemma wide_hologram h A w target T wa W kw ru tab ly lx : let E' := fun i j => RtoC (fl_gaussian_beam single exp32 1080 1920 (pixel_size s) 0 0 A w i j) in
  let S1 := windowed d T W in let K := corner_contrast w * (norm 1080 1920 (spectrum_of 1080 1920 T) / norm 1080 1920 S1) in
  let F := fun _ _ : nat => numpy_fft2 single double tab (direct double tab) ly lx in let q := rounded_polar binary32 in
  good_forward_table (2 * / 2 ^ 53) tab -> Forall (fun r => 2 <= r)%nat (ly ++ lx) -> size ly = 1080%nat -> size lx = 1920%nat ->
  4 <= per <= 2 ^ 20 -> Rabs th <= 4 -> 0 < scaling_factor s <= 2 ^ 100 -> / 2 ^ 30 <= A -> 6 / 1000 <= w ->
  full_target h s target T -> window_reads h s wa W -> (forall i j, in_array d i j -> Cmod (W i j) <= 1) ->
  (exists i j, in_array d i j /\ S1 i j <> RtoC 0) -> (forall i j, in_array d i j -> representable binary32 (T i j)) ->
  K <= 90 -> A / 2 ^ 38 <= norm 1080 1920 S1 -> norm 1080 1920 S1 <= 2 ^ 100 ->
  let S' := fl_spectrum single F 1080 1920 T (window_of wa W) in let bound := 1 / 40 + K / 650 in
  exists g f ef y,
    calculate_dmd_state h d (exact_beam s A w) target MIdeal wa kw ru = (with_state d (DFloat 1080 1920 g), Ok (Fin ef)) /\
    calculate_dmd_state h d (exact_beam s A w) target MSimple wa kw ru = (with_state d (DBool 1080 1920 f), Ok (Fin ef)) /\
    fl_holo_eta single 1080 1920 (pixel_size s) (scaling_factor s) (fl_holo_max single q 1080 1920 S' E') = Some y /\ Rabs (y - ef) <= (1 / 25000 + K / 1400) * ef /\
    forall i j, in_array d i j -> exists r x t, g i j = Fin r /\
      fl_holo_level single q neg 1080 1920 (pixel_size s) (d_p d) th S' E' i j = Some x /\ Rabs (x - r) <= bound /\
      fl_holo_mirror single q neg 1080 1920 (pixel_size s) (d_p d) th S' E' i j = Some t /\ (t <> f i j -> Rabs (r - 1 / 2) <= bound).
Proof.
  intros E' S1 K F q TB FL Sy Sx Hp Ht Hsf HA Hw FT WR W1 NZ TR HK HS HS' S' bound.
  assert (A0 : 0 < A) by lra. assert (w0 : 0 < w) by lra. assert (D1 := corner_ge w w0). assert (D2 := corner_6mm w Hw).
  set (E := fun i j => RtoC (hg_mode 0 0 A w 0 0 (mirror_x s j) (mirror_y s i))).
  set (b := A / corner_contrast w * (59999 / 60000)).
  assert (n0 : 0 < norm 1080 1920 S1) by (apply Rlt_le_trans with (2 := HS); apply Rmult_lt_0_compat; lra).
  assert (ic : / 68 <= / corner_contrast w) by (apply Rinv_le_contravar; lra). assert (bA : A / 68 <= A / corner_contrast w) by (apply Rmult_le_compat_l; lra). assert (b0 : 0 < b) by (unfold b; lra).
  assert (EB : forall i j, in_array d i j -> b <= Cmod (E' i j) <= A * (60001 / 60000)).
  { intros i j Hij. assert (X := sampled A w i j HA Hw Hij). destruct (gauss_range A w i j A0 w0 Hij) as [G1 G2]. set (z := hg_mode 0 0 A w 0 0 (mirror_x s j) (mirror_y s i)) in *. unfold E'. rewrite Cmod_R. apply Rabs_le_inv in X. set (z' := fl_gaussian_beam _ _ _ _ _ _ _ _ _ _ _) in *. clearbody z z'. unfold b. rewrite Rabs_pos_eq by lra. lra. }
  assert (NE : norm 1080 1920 E' <= 1440 * (A * (60001 / 60000))).
  { eapply Rle_trans; [apply (norm_le_pt 1080 1920 E' (fun _ _ => RtoC (A * (60001 / 60000))))|]. { intros i j Hi Hj. rewrite Cmod_R, Rabs_pos_eq by lra. apply EB. split; assumption. }
    rewrite norm_const by lra. apply Rmult_le_compat_r; [lra|]. replace 1440 with (sqrt (1440 ^ 2)) by (apply sqrt_pow2; lra). apply sqrt_le_1_alt. rewrite mult_INR, !INR_IZR_INZ. change (Z.of_nat 1080) with 1080%Z. change (Z.of_nat 1920) with 1920%Z. lra. }
  assert (NE0 : 0 < norm 1080 1920 E').
  { destruct NZ as (i0 & j0 & [Hi Hj] & _). eapply Rlt_le_trans; [|apply (FlHoloFacts2.entry_norm 1080 1920 E' i0 j0 Hi Hj)]. destruct (EB i0 j0 (conj Hi Hj)). lra. }
  set (rho := norm 1080 1920 (spectrum_of 1080 1920 T) / norm 1080 1920 S1) in *. assert (rho0 : 0 <= rho) by (apply Rmult_le_pos; [apply norm_ge_0|left; apply Rinv_0_lt_compat, n0]).
  assert (K1 : 1 <= K).
  { unfold K. rewrite <- (Rmult_1_r 1) at 1. apply Rmult_le_compat; try lra. unfold rho. apply Rmult_le_reg_r with (norm 1080 1920 S1); [exact n0|]. unfold Rdiv. rewrite Rmult_assoc, Rinv_l, Rmult_1_r, Rmult_1_l by lra.
    apply norm_le_pt. intros i j Hi Hj. unfold S1, windowed. rewrite Cmod_mult. rewrite <- (Rmult_1_r (Cmod (spectrum_of 1080 1920 T i j))). apply Rmult_le_compat_l; [apply Cmod_ge_0|]. apply W1. split; assumption. }
  assert (K' : contrast 1080 1920 E' (spectrum_of 1080 1920 T) S1 b <= 1441 * K).
  { unfold contrast. fold rho. unfold K. rewrite <- Rmult_assoc. apply Rmult_le_compat_r; [exact rho0|]. apply Rle_trans with (1440 * (A * (60001 / 60000)) / b); [apply Rmult_le_compat_r; [left; apply Rinv_0_lt_compat, b0|exact NE]|].
    unfold b. replace (1440 * (A * (60001 / 60000)) / (A / corner_contrast w * (59999 / 60000))) with (1440 * 60001 / 59999 * corner_contrast w) by (field; lra). lra. }
  assert (KK : contrast 1080 1920 E' (spectrum_of 1080 1920 T) S1 b <= 2 ^ 17) by lra.
  assert (Hb : / 2 ^ 40 <= b) by (unfold b; lra).
  assert (HM : / 2 ^ 50 <= norm 1080 1920 S1 / norm 1080 1920 E').
  { apply Rle_trans with (A / 2 ^ 38 * / (1440 * (A * (60001 / 60000)))).
    - replace (A / 2 ^ 38 * / (1440 * (A * (60001 / 60000)))) with (/ (2 ^ 38 * (1440 * (60001 / 60000)))) by (field; repeat split; try lra; apply Rgt_not_eq, pow_lt; lra). apply Rinv_le_contravar; lra.
    - apply Rmult_le_compat; [apply Rmult_le_pos; lra|left; apply Rinv_0_lt_compat; lra|exact HS|apply Rinv_le_contravar; [exact NE0|exact NE]]. }
  destruct (hologram_9500 wl fl per th neg h (rounded_beam single s exp32 A w) target wa E' T W kw ru b tab ly lx TB FL Sy Sx Hp Ht Hsf eq_refl FT WR (fun i j Hij => proj1 (EB i j Hij)) Hb W1 NZ TR KK HM HS') as (g' & f' & ef' & y & G' & F' & Ey & Dy & V).
  assert (HE : forall i j, in_array d i j -> E i j <> RtoC 0 /\ exists r, Rabs (r - 1) <= 1 / 60000 /\ E' i j = (RtoC r * E i j)%C).
  { intros i j Hij. assert (X := sampled A w i j HA Hw Hij). destruct (gauss_range A w i j A0 w0 Hij) as [G1 G2]. unfold E, E'. set (z := hg_mode 0 0 A w 0 0 (mirror_x s j) (mirror_y s i)) in *. set (z' := fl_gaussian_beam _ _ _ _ _ _ _ _ _ _ _) in *. clearbody z z'. assert (z0 : 0 < z) by lra.
    split; [intros N; apply RtoC_inj in N; lra|]. exists (z' / z). split; [|rewrite <- RtoC_mult; f_equal; field; lra].
    replace (z' / z - 1) with ((z' - z) * / z) by (field; lra). rewrite Rabs_mult, (Rabs_pos_eq (/ z)) by (left; apply Rinv_0_lt_compat, z0). apply Rmult_le_reg_r with z; [exact z0|]. rewrite Rmult_assoc, Rinv_l, Rmult_1_r by lra. exact X. }
  assert (Pp : d_p d <> 0) by (apply Rgt_not_eq; change (d_p d) with (per * (10.8 * micro)); unfold micro; lra).
  destruct (hologram_stable h d (exact_beam s A w) (rounded_beam single s exp32 A w) target wa E E' T W kw ru (1 / 60000) eq_refl eq_refl FT WR Pp ltac:(apply Nat.ltb_lt; reflexivity) ltac:(apply Nat.ltb_lt; reflexivity) ltac:(fold s; lra) ltac:(lra) HE NZ) as (g & f & ef & g2 & f2 & ef2 & G & F1 & G2 & F2 & De & V2).
  fold d in G', F'. change (s_Ny (d_slm d)) with 1080%nat in G, F1, G2, F2. change (s_Nx (d_slm d)) with 1920%nat in G, F1, G2, F2.
  rewrite G2 in G'. rewrite F2 in F'. injection G' as Eg Ee. injection F' as Ef _. subst g2 f2 ef2.
  assert (K0 : 0 <= K) by (unfold K; apply Rmult_le_pos; lra). set (c := contrast 1080 1920 E' (spectrum_of 1080 1920 T) S1 b) in *.
  change (contrast 1080 1920 E' (spectrum_of 1080 1920 T) (windowed (DLP9500 wl fl per th neg) T W) b) with c in Dy, V. assert (c0 : 0 <= c). { unfold c, contrast. fold rho. apply Rmult_le_pos; [|exact rho0]. apply Rmult_le_pos; [apply norm_ge_0|left; apply Rinv_0_lt_compat, b0]. }
  clearbody c K. exists g, f, ef, y. split; [exact G|]. split; [exact F1|]. split; [exact Ey|]. split.
  { assert (Pef' : 0 <= ef') by (assert (Q := Rabs_pos (y - ef')); nra).
    assert (Pef : 0 <= ef). { destruct (Rle_dec 0 ef) as [L|L]; [exact L|]. exfalso. rewrite (Rabs_left ef) in De by lra. apply Rabs_le_inv in De. lra. }
    rewrite (Rabs_pos_eq ef) in De by exact Pef. apply Rabs_le_inv in De as De'. assert (U : ef' <= 1.0001 * ef) by lra. assert (Y1 : (/ 50000 + c / 2 ^ 21) * ef' <= (/ 50000 + 1441 * K / 2 ^ 21) * (1.0001 * ef)) by (apply Rmult_le_compat; lra).
    replace (y - ef) with ((y - ef') + (ef' - ef)) by ring. eapply Rle_trans; [apply Rabs_triang|]. eapply Rle_trans; [apply Rplus_le_compat; [eapply Rle_trans; [exact Dy|exact Y1]|exact De]|]. assert (KE : 0 <= K * ef) by (apply Rmult_le_pos; assumption). replace ((1 / 25000 + K / 1400) * ef) with (1 / 25000 * ef + K * ef / 1400) by lra. replace ((/ 50000 + 1441 * K / 2 ^ 21) * (1.0001 * ef)) with (1.0001 / 50000 * ef + 1441 * 1.0001 / 2 ^ 21 * (K * ef)) by lra. set (m := K * ef) in *. clearbody m. lra. }
  assert (BB : 1 / 40 + c / 2 ^ 20 + 4 * (1 / 60000) <= bound). { unfold bound. lra. }
  intros i j Hij. destruct (V i j Hij) as (r' & x & t & V1 & V3 & V4 & V5 & V6). destruct (V2 i j Hij) as (r & r2 & R1 & R2 & R3 & R4). rewrite R2 in V1. injection V1 as ->. exists r, x, t. split; [exact R1|]. split; [exact V3|].
  change (1 / 40 + c / 2 ^ 20) with (1 / 40 + c / 2 ^ 20) in V4. apply Rabs_le_inv in V4 as V4'. apply Rabs_le_inv in R3 as R3'. split; [apply Rabs_le; lra|]. split; [exact V5|]. intros N.
  destruct (bool_dec t (f' i j)) as [-> |N']; [specialize (R4 N); lra|]. specialize (V6 N'). apply Rabs_le_inv in V6. apply Rabs_le. lra.
Qed.
End Panel.
