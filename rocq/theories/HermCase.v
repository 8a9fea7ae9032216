(** C113: numbers for a DLP9500. *)
From Coq Require Import Reals Lra Psatz ZArith Arith List Bool Lia.
From Coquelicot Require Import Rcomplements Complex.
From Verif Require Import Cx Sums PyBase ProfileModel ProfSpec SlmModel LibModel DmdModel SimModel SimSpec ModeSpec DFT ModeFacts ModeThms GridFacts GaussSum GaussFacts HermSpec HermSum HermSum2 HermFacts.
Import ListNotations.
Open Scope R_scope.

Lemma sqrt_ub x c : 0 <= c -> x <= c ^ 2 -> sqrt x <= c.
Proof. intros Hc H. rewrite <- (sqrt_pow2 c Hc). apply sqrt_le_1_alt, H. Qed.
Lemma sup0_small : 0 <= sup0 0 <= 1.19 /\ 0 <= sup0 1 <= 2.214 /\ 0 <= sup0 2 <= 5.031 /\ 0 <= sup0 3 <= 13.41.
Proof.
  assert (P := PI_4). assert (P0 := PI_RGT_0).
  unfold sup0; repeat apply conj; try apply sqrt_pos; (apply sqrt_ub; [try lra|]).
  - assert (sqrt (PI * (INR 0 + 1 / 2)) <= 1.4143) by (apply sqrt_ub; cbn [INR]; lra). cbn [pow fact INR] in *. lra.
  - assert (sqrt (PI * (INR 1 + 1 / 2)) <= 2.4495) by (apply sqrt_ub; cbn [INR]; lra). cbn [pow fact INR Nat.mul Nat.add] in *. lra.
  - assert (sqrt (PI * (INR 2 + 1 / 2)) <= 3.1623) by (apply sqrt_ub; cbn [INR]; lra). cbn [pow fact INR Nat.mul Nat.add] in *. lra.
  - assert (sqrt (PI * (INR 3 + 1 / 2)) <= 3.7417) by (apply sqrt_ub; cbn [INR]; lra). cbn [pow fact INR Nat.mul Nat.add] in *. lra.
Qed.
Lemma over_s2 x c : 0 <= x <= 1.4142 * c -> 0 <= x / sqrt 2 <= c.
Proof.
  intros [X0 X]. assert (S : 1.4142 <= sqrt 2) by (rewrite <- (sqrt_pow2 1.4142) by lra; apply sqrt_le_1_alt; lra).
  split; [apply Rmult_le_pos; [lra|left; apply Rinv_0_lt_compat; lra]|]. apply (Rmult_le_reg_r (sqrt 2)); [lra|]. replace (x / sqrt 2 * sqrt 2) with x by (field; lra). assert (0 <= c) by nra. nra.
Qed.
Lemma sup1_small : 0 <= sup1 0 <= 1.566 /\ 0 <= sup1 1 <= 5.241 /\ 0 <= sup1 2 <= 15.746.
Proof.
  destruct sup0_small as (B0 & B1 & B2 & B3). unfold sup1, lower. refine (conj _ (conj _ _)); (apply over_s2; cbn [INR]; lra).
Qed.
Lemma sup2_small : 0 <= sup2 0 <= 3.707 /\ 0 <= sup2 1 <= 13.35.
Proof.
  destruct sup1_small as (B0 & B1 & B2). unfold sup2, lower. split; (apply over_s2; cbn [INR]; lra).
Qed.
Lemma exp_tiny x : 30 <= x -> exp (- x) <= / 10 ^ 11.
Proof.
  intros H. assert (E := exp_small (x / 4) ltac:(lra)). assert (E0 := exp_pos (- (x / 4))).
  replace (- x) with ((- (x / 4) + - (x / 4)) + (- (x / 4) + - (x / 4))) by field. rewrite !exp_plus. set (e := exp (- (x / 4))) in *.
  assert (e * e <= 0.00142 * 0.00142) by (apply Rmult_le_compat; lra). assert (0 <= e * e) by nra. assert ((e * e) * (e * e) <= (0.00142 * 0.00142) * (0.00142 * 0.00142)) by (apply Rmult_le_compat; lra). lra.
Qed.
Lemma sqrtPI_lb : 1.73 <= sqrt PI.
Proof. rewrite <- (sqrt_pow2 1.73) by lra. apply sqrt_le_1_alt. assert (P := PI2_3_2). lra. Qed.
Lemma low_tails L k : (L = 5.832 \/ L = 10.368) -> Rabs k <= 2 ->
  0 <= edge 0 (- L) L <= / 10 ^ 9 /\ 0 <= edge 1 (- L) L <= / 10 ^ 9 /\ 0 <= fst (tails (- L) L k 0) <= / 10 ^ 8 /\ 0 <= fst (tails (- L) L k 1) <= / 10 ^ 8.
Proof.
  intros HL Hk. assert (G1 : exp (- L ^ 2) <= / 10 ^ 11) by (apply exp_tiny; destruct HL as [-> | ->]; lra). assert (G0 := exp_pos (- L ^ 2)).
  assert (E0 : edge 0 (- L) L = 2 * exp (- L ^ 2)). { unfold edge. rewrite !(proj1 (hermite_low_orders _)), Rabs_R1. replace ((- L) ^ 2) with (L ^ 2) by ring. ring. }
  assert (E1 : edge 1 (- L) L = 2 * (2 * sqrt 2 * Rabs L * exp (- L ^ 2))).
  { unfold edge. rewrite !(proj1 (proj2 (hermite_low_orders _))). replace (2 * (sqrt 2 * - L)) with (- (2 * sqrt 2 * L)) by ring. rewrite Rabs_Ropp. replace (2 * (sqrt 2 * L)) with (2 * sqrt 2 * L) by ring. rewrite Rabs_mult, (Rabs_pos_eq (2 * sqrt 2)) by (pose proof sqrt2_pos; lra). replace ((- L) ^ 2) with (L ^ 2) by ring. ring. }
  assert (HL1 : 0 < Rabs L <= 10.368) by (destruct HL as [-> | ->]; rewrite Rabs_pos_eq by lra; lra). set (g := exp (- L ^ 2)) in *.
  assert (S2 : 0 < sqrt 2 <= 1.5) by (split; [apply sqrt2_pos|apply sqrt_ub; lra]).
  assert (A0 : 0 <= edge 0 (- L) L <= / 10 ^ 9) by (rewrite E0; lra).
  assert (A1 : 0 <= edge 1 (- L) L <= / 10 ^ 9).
  { rewrite E1. assert (0 <= 2 * sqrt 2 * Rabs L <= 32) by (split; [apply Rmult_le_pos; lra|nra]). assert (2 * sqrt 2 * Rabs L * g <= 32 * / 10 ^ 11) by (apply Rmult_le_compat; lra). assert (0 <= 2 * sqrt 2 * Rabs L * g) by (apply Rmult_le_pos; lra). lra. }
  assert (P3 := sqrtPI_lb). assert (I3 : 0 < 2 / sqrt PI <= 2 / 1.73). { split; [apply Rdiv_lt_0_compat; lra|]. unfold Rdiv. apply Rmult_le_compat_l; [lra|]. apply Rinv_le_contravar; lra. }
  assert (K0 := Rabs_pos k). set (t := (exp (- (- L) ^ 2) + exp (- L ^ 2)) * (2 / sqrt PI + Rabs k / 2)).
  assert (T0 : 0 <= t <= / 10 ^ 10). { unfold t. replace ((- L) ^ 2) with (L ^ 2) by ring. fold g. split; [apply Rmult_le_pos; lra|]. apply Rle_trans with ((/ 10 ^ 11 + / 10 ^ 11) * (2 / 1.73 + 1)); [apply Rmult_le_compat; lra|lra]. }
  split; [exact A0|]. split; [exact A1|]. cbn [tails fst]. fold t. split; [lra|].
  assert (0 <= sqrt 2 * Rabs k <= 3) by (split; [apply Rmult_le_pos; lra|nra]). assert (0 <= sqrt 2 * Rabs k * t <= 3 * / 10 ^ 10) by (split; [apply Rmult_le_pos; lra|apply Rmult_le_compat; lra]).
  assert (0 <= sqrt 2 * edge 0 (- L) L <= 1.5 * / 10 ^ 9) by (split; [apply Rmult_le_pos; lra|apply Rmult_le_compat; lra]). lra.
Qed.
Lemma herm_small q L0 b kappa : ((q = 1%nat /\ L0 = 10.368 /\ b = 0.0051) \/ (q = 0%nat /\ L0 = 5.832 /\ b = 0.001)) -> Rabs (1 / 1000 * kappa) <= 2 ->
  0 <= hg_axis_error q (10.8 / 1000000) (L0 / 1000) 0 (1 / 1000) kappa <= b * (sqrt PI * (1 / 1000)).
Proof.
  intros HQ Hk. unfold hg_axis_error. cbv zeta. set (k := 1 / 1000 * kappa) in *.
  replace (- (L0 / 1000 + 0) / (1 / 1000)) with (- L0) by field. replace ((L0 / 1000 - 0) / (1 / 1000)) with L0 by field. replace (2 * (L0 / 1000) / (1 / 1000)) with (2 * L0) by field.
  replace (10.8 / 1000000 / (1 / 1000)) with 0.0108 by lra.
  assert (HL : L0 = 5.832 \/ L0 = 10.368) by (destruct HQ as [(_ & E & _)|(_ & E & _)]; [right|left]; exact E).
  destruct (low_tails L0 k HL Hk) as (A0 & A1 & T0 & T1). assert (P3 := sqrtPI_lb).
  destruct sup0_small as (B0 & B1 & _). destruct sup1_small as (C0 & C1 & _). destruct sup2_small as (D0 & D1).
  assert (K0 := Rabs_pos k). assert (K2 : 0 <= k ^ 2 <= 4) by (split; [apply pow2_ge_0|rewrite <- (pow2_abs k); nra]).
  destruct HQ as [(-> & -> & ->)|(-> & -> & ->)].
  - assert (0 <= 2 * Rabs k * sup1 1 <= 4 * 5.241) by (split; [apply Rmult_le_pos; lra|apply Rmult_le_compat; lra]).
    assert (0 <= k ^ 2 * sup0 1 <= 4 * 2.214) by (split; [apply Rmult_le_pos; lra|apply Rmult_le_compat; lra]).
    set (M := sup2 1 + _ + _). assert (0 <= M <= 43.17) by (unfold M; lra). clearbody M. split; lra.
  - assert (0 <= 2 * Rabs k * sup1 0 <= 4 * 1.566) by (split; [apply Rmult_le_pos; lra|apply Rmult_le_compat; lra]).
    assert (0 <= k ^ 2 * sup0 0 <= 4 * 1.19) by (split; [apply Rmult_le_pos; lra|apply Rmult_le_compat; lra]).
    set (M := sup2 0 + _ + _). assert (0 <= M <= 14.74) by (unfold M; lra). clearbody M. split; lra.
Qed.
Lemma one_percent t s0 s1 e0 e1 : 0 < t -> 0 <= s0 <= 1.19 -> 0 <= s1 <= 2.214 -> 0 <= e0 <= 0.001 * t -> 0 <= e1 <= 0.0051 * t ->
  product_error (t * s0) (t * s1) e0 e1 <= 0.01 * t ^ 2.
Proof.
  intros Ht H0 H1 E0 E1. unfold product_error. replace ((t * s0 + e0) * (t * s1 + e1) - t * s0 * (t * s1)) with (t * (s0 * e1 + s1 * e0) + e0 * e1) by ring.
  assert (s0 * e1 <= 1.19 * (0.0051 * t)) by (apply Rmult_le_compat; lra). assert (s1 * e0 <= 2.214 * (0.001 * t)) by (apply Rmult_le_compat; lra).
  assert (e0 * e1 <= (0.001 * t) * (0.0051 * t)) by (apply Rmult_le_compat; lra). assert (t * (s0 * e1 + s1 * e0) <= t * (1.19 * (0.0051 * t) + 2.214 * (0.001 * t))) by (apply Rmult_le_compat_l; lra). nra.
Qed.
Lemma two_lobes h wl fl per th neg m a X Y : wl * fl <> 0 -> (0 <= pad_x m)%Z -> (0 <= pad_y m)%Z ->
  let d := set_dmd_state_on (DLP9500 wl fl per th neg) in let s := d_slm d in let w := 1 / 1000 in let waist := wl * fl / (PI * w) in
  grid_is (image_plane_padded_grid s m) (NY s m) (NX s m) X Y ->
  exists h1 p m' I, hg_new h 0 0 a w 1 0 = Ok (h1, p) /\ propagate_to_image h1 (DevDmd d) m (AProf p) = (m', Ok tt) /\ field_is (f_image m') (NY s m) (NX s m) I /\
  forall u v, (u < NY s m)%nat -> (v < NX s m)%nat -> Rabs (X u v) <= Rabs waist -> Rabs (Y u v) <= Rabs waist ->
  let b := a * (w / waist) in
  Cmod (I u v - Ci * odd_phase (NY s m) (NX s m) u v * RtoC (b * (2 * sqrt 2 * X u v / waist) * exp (- (X u v ^ 2 + Y u v ^ 2) / waist ^ 2)))%C <= 0.01 * Rabs b.
Proof.
  intros Hsf Px Py d s w waist GX. assert (EX : INR 1920 = 1920) by (rewrite INR_IZR_INZ; reflexivity). assert (EY : INR 1080 = 1080) by (rewrite INR_IZR_INZ; reflexivity).
  assert (Ehs : pixel_size s = 10.8 / 1000000) by (cbn; unfold micro; lra). assert (ENx : s_Nx s = 1920%nat) by reflexivity. assert (ENy : s_Ny s = 1080%nat) by reflexivity.
  destruct (hg_image h (DevDmd d) m 0 0 a w 1 0 (RtoC 1) (fun i j => RtoC (if true then 1 else 0)) X Y) as (h1 & p & m' & I & E1 & E2 & E3 & B); cbn [dev_slm]; fold s; rewrite ?Ehs, ?ENx, ?ENy, ?EX, ?EY, ?Rabs_R0; try (unfold w; lra); try lia; try assumption.
  - exact (on_state (DLP9500 wl fl per th neg)).
  - reflexivity.
  - cbn [dev_slm] in E3, B. fold s in E3, B. rewrite Ehs, ENx, ENy, EX, EY in B. exists h1, p, m', I. split; [exact E1|]. split; [exact E2|]. split; [exact E3|].
    intros u v Hu Hv BX BY. set (b := a * (w / waist)). assert (Q := B u v Hu Hv). change (scaling_factor s) with (wl * fl) in Q. change (wavelength s * focal_length s) with (wl * fl) in Q. fold waist in Q. set (sf := wl * fl) in *.
    assert (PP := PI_RGT_0). assert (Hw : 0 < w) by (unfold w; lra).
    assert (K : forall z, Rabs z <= Rabs waist -> Rabs (w * (2 * PI * z / sf)) <= 2).
    { intros z Hz. replace (w * (2 * PI * z / sf)) with (2 * z / waist) by (unfold waist; field; repeat split; lra). unfold Rdiv. rewrite !Rabs_mult, Rabs_inv, (Rabs_pos_eq 2) by lra.
      assert (Hwa : 0 < Rabs waist). { apply Rabs_pos_lt. unfold waist, Rdiv. apply Rmult_integral_contrapositive. split; [exact Hsf|]. apply Rinv_neq_0_compat. apply Rmult_integral_contrapositive. split; lra. }
      apply (Rmult_le_reg_r (Rabs waist)); [exact Hwa|]. replace (2 * Rabs z * / Rabs waist * Rabs waist) with (2 * Rabs z) by (field; lra). lra. }
    assert (A1 := herm_small 1 10.368 0.0051 _ (or_introl (conj eq_refl (conj eq_refl eq_refl))) (K _ BX)). assert (A2 := herm_small 0 5.832 0.001 _ (or_intror (conj eq_refl (conj eq_refl eq_refl))) (K _ BY)). fold w in A1, A2.
    replace (1080 / 2 * (10.8 / 1000000)) with (5.832 / 1000) in Q by lra. replace (1920 / 2 * (10.8 / 1000000)) with (10.368 / 1000) in Q by lra.
    set (e1 := hg_axis_error 1 _ _ _ _ _) in *. set (e2 := hg_axis_error 0 _ _ _ _ _) in *. assert (S0 := sqrtPI_pos). set (t := sqrt PI * w) in *. assert (Ht : 0 < t) by (apply Rmult_lt_0_compat; lra).
    assert (ET : t ^ 2 = PI * w ^ 2). { unfold t. rewrite Rpow_mult_distr. f_equal. rewrite <- Rsqr_pow2. apply Rsqr_sqrt. lra. }
    destruct sup0_small as (B0 & B1 & _). assert (D := one_percent t (sup0 0) (sup0 1) e2 e1 Ht B0 B1 A2 A1).
    assert (PK : Rabs b = Rabs a / Rabs sf * t ^ 2). { unfold b. rewrite ET. replace (a * (w / waist)) with (a / sf * (PI * w ^ 2)) by (unfold waist; field; repeat split; lra).
      unfold Rdiv at 1. rewrite !Rabs_mult, Rabs_inv, (Rabs_pos_eq PI) by lra. rewrite (Rabs_pos_eq (w ^ 2)) by apply pow2_ge_0. reflexivity. }
    rewrite PK. rewrite Cmod_1 in Q. replace (1 * Rabs a / Rabs sf) with (Rabs a / Rabs sf) in Q by (unfold Rdiv; ring). assert (0 <= Rabs a / Rabs sf) by (apply Rmult_le_pos; [apply Rabs_pos|left; apply Rinv_0_lt_compat, Rabs_pos_lt, Hsf]).
    apply Rle_trans with (Rabs a / Rabs sf * product_error (t * sup0 0) (t * sup0 1) e2 e1); [|replace (0.01 * (Rabs a / Rabs sf * t ^ 2)) with (Rabs a / Rabs sf * (0.01 * t ^ 2)) by ring; apply Rmult_le_compat_l; assumption].
    eapply Rle_trans; [|exact Q]. right. f_equal. f_equal. f_equal.
    replace (2 * PI * (0 * X u v + 0 * Y u v) / sf + INR (1 + 0) * (PI / 2)) with (PI / 2) by (cbn [INR Nat.add]; unfold Rdiv; ring).
    replace (cis (PI / 2)) with Ci by (unfold cis; rewrite cos_PI2, sin_PI2; reflexivity). rewrite Cmult_1_l, (Cmult_comm Ci). f_equal. f_equal. unfold hg_mode. fold b.
    rewrite (proj1 (hermite_low_orders (sqrt 2 * (Y u v - 0) / waist))), (proj1 (proj2 (hermite_low_orders _))), !Rminus_0_r, Rmult_1_r. unfold Rdiv. ring.
Qed.
Lemma hg_bounded h x0 y0 a w n m : w <> 0 -> exists h1 p, hg_new h x0 y0 a w (Z.of_nat n) (Z.of_nat m) = Ok (h1, p) /\
  forall x y, exists z, gives h1 p x y z false /\ Cmod z <= Rabs a * (sup0 n * sup0 m).
Proof.
  intros Hw. destruct (hg_evaluates h x0 y0 a w n m Hw) as (h1 & p & E & _ & _ & G). exists h1, p. split; [exact E|]. intros x y. exists (RtoC (hg_mode x0 y0 a w n m x y)). split; [apply G|].
  rewrite Cmod_R, mode_product, !Rabs_mult by exact Hw. apply Rmult_le_compat_l; [apply Rabs_pos|]. rewrite Rmult_comm. apply Rmult_le_compat; try apply Rabs_pos; apply hf_bound.
Qed.
Lemma herm_case : exists X Y, let s := d_slm (set_dmd_state_on (DLP9500 1 1 4 0 false)) in let m := {| pad_x := 0; pad_y := 0; f_input := None; f_output := None; f_image := None |} in
  grid_is (image_plane_padded_grid s m) (NY s m) (NX s m) X Y /\ let waist := 1 * 1 / (PI * (1 / 1000)) in
  exists u v, (u < NY s m)%nat /\ (v < NX s m)%nat /\ 0 < Rabs (X u v) <= Rabs waist /\ Rabs (Y u v) <= Rabs waist.
Proof.
  set (s := d_slm (set_dmd_state_on (DLP9500 1 1 4 0 false))). set (m := {| pad_x := 0; pad_y := 0; f_input := None; f_output := None; f_image := None |}).
  do 2 eexists. cbv zeta. split; [apply (image_grid_of_is (NX s m) (NY s m) (pixel_size s) (scaling_factor s)); unfold s; cbn; unfold micro; lra|].
  assert (Hx : (NX s m = 1920)%nat) by reflexivity. assert (Hy : (NY s m = 1080)%nat) by reflexivity. rewrite Hx, Hy.
  exists (1080 / 2)%nat, (1920 / 2 + 1)%nat. split; [apply Nat.div_lt; lia|]. split; [assert (1920 / 2 < 1919)%nat by (apply Nat.div_lt_upper_bound; lia); lia|].
  assert (P1 := PI2_3_2). assert (P4 := PI_4). assert (I1 : / 4 <= / PI) by (apply Rinv_le_contravar; lra).
  assert (E : 1 * 1 / (PI * (1 / 1000)) = 1000 * / PI) by (field; lra). rewrite E, (Rabs_pos_eq (1000 * / PI)) by lra.
  cbv beta. rewrite Z.sub_diag. replace (Z.of_nat (1920 / 2 + 1) - Z.of_nat (1920 / 2))%Z with 1%Z by lia.
  change (pixel_size s) with (10.8 * micro). change (scaling_factor s) with (1 * 1). unfold micro. assert (EX : INR 1920 = 1920) by (rewrite INR_IZR_INZ; reflexivity). assert (EY : INR 1080 = 1080) by (rewrite INR_IZR_INZ; reflexivity). rewrite EX, EY.
  assert (Z1 : 1 * (1 * 1) / (1920 * (10.8 * / 10 ^ 6)) = 1000000 / (1920 * 10.8)) by (unfold Rdiv; rewrite !Rinv_mult, Rinv_inv; lra). rewrite Z1. assert (Z2 : 48 < 1000000 / (1920 * 10.8) < 49) by lra.
  split; [rewrite Rabs_pos_eq; lra|]. unfold Rdiv. rewrite !Rmult_0_l, Ropp_0, Rabs_R0. lra.
Qed.
