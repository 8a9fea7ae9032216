(** The light behind an LCOS, with rounding (C127). *)
From Coq Require Import Reals Lra Psatz ZArith Arith List Lia.
From Coquelicot Require Import Complex.
From Verif Require DmdSpec HoloSpec HoloFacts2 HoloThms FloatLink.
From Verif Require Import Cx Sums DFT PyBase ProfileModel SlmModel LibModel DmdModel SimModel SimSpec SimFacts StabFacts FloatModel FloatSpec FloatFacts FringeSpec FringeErr2 FlSimModel FlSimSpec NormFacts FlSimFacts FlSimLink FftFacts FlLcosModel.
Open Scope R_scope.

Lemma near_trans e d e' d' x y z : 0 <= e' -> near e d x y -> near e' d' y z -> near ((1 + e) * (1 + e') - 1) (d * (1 + e') + d') x z.
Proof.
  unfold near. intros He H1 H2. replace (z - x) with ((z - y) + (y - x)) by ring. eapply Rle_trans; [apply Rabs_triang|].
  assert (T : Rabs y <= Rabs x + Rabs (y - x)) by (replace y with (x + (y - x)) at 1 by ring; apply Rabs_triang). nra.
Qed.
(** Components bound the modulus. *)
Lemma Cmod_components z p q : Rabs (fst z) <= p -> Rabs (snd z) <= q -> Cmod z <= p + q.
Proof.
  intros H1 H2. assert (P1 := Rabs_pos (fst z)). assert (P2 := Rabs_pos (snd z)). unfold Cmod. rewrite <- (sqrt_pow2 (p + q)) by lra. apply sqrt_le_1_alt.
  rewrite <- (pow2_abs (fst z)), <- (pow2_abs (snd z)). nra.
Qed.
Lemma Cmod_square z p : 0 <= p -> Rabs (fst z) <= p -> Rabs (snd z) <= p -> Cmod z <= 3 / 2 * p.
Proof.
  intros Hp H1 H2. assert (P1 := Rabs_pos (fst z)). assert (P2 := Rabs_pos (snd z)). unfold Cmod. rewrite <- (sqrt_pow2 (3 / 2 * p)) by lra. apply sqrt_le_1_alt.
  rewrite <- (pow2_abs (fst z)), <- (pow2_abs (snd z)). nra.
Qed.
Lemma cross_products (a b c d : R) : Rabs (a * c) + Rabs (b * d) <= Cmod (a, b) * Cmod (c, d).
Proof.
  rewrite !Rabs_mult. unfold Cmod. cbn [fst snd]. rewrite <- sqrt_mult by (apply Rplus_le_le_0_compat; apply pow2_ge_0). rewrite <- (sqrt_pow2 (Rabs a * Rabs c + Rabs b * Rabs d)).
  - apply sqrt_le_1_alt. rewrite <- (pow2_abs a), <- (pow2_abs b), <- (pow2_abs c), <- (pow2_abs d). assert (Q := pow2_ge_0 (Rabs a * Rabs d - Rabs b * Rabs c)). lra.
  - assert (0 <= Rabs a * Rabs c) by (apply Rmult_le_pos; apply Rabs_pos). assert (0 <= Rabs b * Rabs d) by (apply Rmult_le_pos; apply Rabs_pos). lra.
Qed.
Lemma norm_split ny nx f g : norm ny nx f <= norm ny nx (fun i j => f i j - g i j)%C + norm ny nx g.
Proof. rewrite (norm_ext ny nx f (fun i j => (f i j - g i j) + g i j)%C) by (intros; ring). apply minkowski. Qed.
Section Mul.
Variables (a : fpu) (u eta : R) (B : Z).
Hypothesis H : arithmetic u eta B (rnd a).
Hypothesis Hu : 0 <= u <= 1 / 8.
Hypothesis He : 0 <= eta.
Lemma two_products x y m : Rabs x + Rabs y <= m -> Rabs (rnd a (rnd a x + rnd a y) - (x + y)) <= (2 + / 8) * u * m + (3 + / 4) * eta.
Proof.
  intros Hm. assert (E1 := ar_error _ _ _ _ H x). assert (E2 := ar_error _ _ _ _ H y). assert (E3 := ar_error _ _ _ _ H (rnd a x + rnd a y)).
  assert (P1 := Rabs_pos x). assert (P2 := Rabs_pos y).
  assert (T : Rabs (rnd a x + rnd a y) <= (1 + u) * m + 2 * eta).
  { replace (rnd a x + rnd a y) with ((rnd a x - x) + x + ((rnd a y - y) + y)) by ring. eapply Rle_trans; [apply Rabs_triang|].
    assert (Q1 := Rabs_triang (rnd a x - x) x). assert (Q2 := Rabs_triang (rnd a y - y) y). nra. }
  replace (rnd a (rnd a x + rnd a y) - (x + y)) with ((rnd a (rnd a x + rnd a y) - (rnd a x + rnd a y)) + ((rnd a x - x) + (rnd a y - y))) by ring.
  eapply Rle_trans; [apply Rabs_triang|]. assert (Q := Rabs_triang (rnd a x - x) (rnd a y - y)).
  assert (u * Rabs (rnd a x + rnd a y) <= u * ((1 + u) * m + 2 * eta)) by (apply Rmult_le_compat_l; lra). assert (u * m <= / 8 * m) by nra. assert (u * eta <= / 8 * eta) by nra. nra.
Qed.
(** A product of complex numbers. *)
Lemma cmul_near z w : Cmod (fl_cmul a z w - z * w)%C <= 4 * u * (Cmod z * Cmod w) + 5 * eta.
Proof.
  destruct z as [x y]. destruct w as [c d]. assert (P : 0 <= Cmod (x, y) * Cmod (c, d)) by (apply Rmult_le_pos; apply Cmod_ge_0).
  assert (K1 := cross_products x y c d). assert (K2 : Rabs (x * d) + Rabs (y * c) <= Cmod (x, y) * Cmod (c, d)).
  { replace (Cmod (c, d)) with (Cmod (d, c)); [apply cross_products|]. unfold Cmod. cbn [fst snd]. f_equal. ring. }
  set (m := Cmod (x, y) * Cmod (c, d)) in *. clearbody m.
  eapply Rle_trans; [apply (Cmod_square _ ((2 + / 8) * u * m + (3 + / 4) * eta))|].
  - assert (0 <= u * m) by (apply Rmult_le_pos; lra). lra.
  - unfold fl_cmul. cbn [fst snd Cminus Cplus Copp Cmult]. replace (rnd a (rnd a (x * c) - rnd a (y * d))) with (rnd a (rnd a (x * c) + rnd a (- (y * d)))) by (rewrite (ar_odd _ _ _ _ H); reflexivity).
    replace (- (x * c - y * d)) with (- (x * c + - (y * d))) by ring. apply two_products. rewrite Rabs_Ropp. exact K1.
  - unfold fl_cmul. cbn [fst snd Cminus Cplus Copp Cmult]. apply two_products. exact K2.
  - assert (0 <= u * m) by (apply Rmult_le_pos; lra). lra.
Qed.
(** The phase factor of a pixel. *)
Lemma factor_accurate v phi : FringeSpec.accurate a v -> u <= v -> eta <= v -> Rabs phi <= 7 -> Cmod (fl_phase_factor a phi - cis (- phi))%C <= 27 / 2 * v.
Proof.
  intros [AC AS] Huv Hev Hphi. assert (Hv : 0 <= v) by lra. assert (E := ar_error _ _ _ _ H phi).
  assert (D : Rabs (rnd a phi - phi) <= 8 * v) by (assert (u * Rabs phi <= v * 7) by (apply Rmult_le_compat; try lra; apply Rabs_pos); lra).
  replace (27 / 2 * v) with (3 / 2 * (9 * v)) by lra. apply Cmod_square; [lra| |]; unfold fl_phase_factor, cis; cbn [fst snd Cminus Cplus Copp].
  - assert (Q := AC (- rnd a phi)). assert (L := cos_lipschitz (- rnd a phi) (- phi)). replace (- rnd a phi - - phi) with (- (rnd a phi - phi)) in L by ring. rewrite Rabs_Ropp in L.
    replace (f_cos a (- rnd a phi) + - cos (- phi)) with ((f_cos a (- rnd a phi) - cos (- rnd a phi)) + (cos (- rnd a phi) - cos (- phi))) by ring.
    eapply Rle_trans; [apply Rabs_triang|]. lra.
  - assert (Q := AS (- rnd a phi)). assert (L := cos_lipschitz (PI / 2 - - rnd a phi) (PI / 2 - - phi)). rewrite !cos_shift in L. replace (PI / 2 - - rnd a phi - (PI / 2 - - phi)) with (rnd a phi - phi) in L by ring.
    replace (f_sin a (- rnd a phi) + - sin (- phi)) with ((f_sin a (- rnd a phi) - sin (- rnd a phi)) + (sin (- rnd a phi) - sin (- phi))) by ring.
    eapply Rle_trans; [apply Rabs_triang|]. lra.
Qed.
Lemma pixel_accurate v z phi : FringeSpec.accurate a v -> u <= v -> eta <= v -> v <= / 128 -> Rabs phi <= 7 ->
  Cmod (fl_cmul a z (fl_phase_factor a phi) - z * cis (- phi))%C <= 18 * v * Cmod z + 5 * eta.
Proof.
  intros HA Huv Hev Hv Hphi. assert (V0 : 0 <= v) by lra. assert (K := factor_accurate v phi HA Huv Hev Hphi). set (w := fl_phase_factor a phi) in *. assert (M := cmul_near z w).
  assert (W : Cmod w <= 1 + 27 / 2 * v). { assert (T := Cmod_triangle (w - cis (- phi))%C (cis (- phi))). rewrite Cmod_cis in T. replace (w - cis (- phi) + cis (- phi))%C with w in T by ring. lra. }
  replace (fl_cmul a z w - z * cis (- phi))%C with ((fl_cmul a z w - z * w) + z * (w - cis (- phi)))%C by ring. eapply Rle_trans; [apply Cmod_triangle|]. rewrite Cmod_mult.
  assert (P := Cmod_ge_0 z). assert (PW := Cmod_ge_0 w). set (m := Cmod z) in *. set (q := Cmod w) in *. set (k := Cmod (w - cis (- phi))%C) in *. assert (k0 : 0 <= k) by apply Cmod_ge_0. clearbody m q k.
  assert (m * k <= m * (27 / 2 * v)) by (apply Rmult_le_compat_l; lra). assert (m * q <= m * (1 + 27 / 2 * v)) by (apply Rmult_le_compat_l; lra).
  assert (4 * u * (m * q) <= 4 * v * (m * (1 + 27 / 2 * v))). { apply Rmult_le_compat; try lra; [apply Rmult_le_pos; lra]. }
  assert (v * v <= v * / 128) by (apply Rmult_le_compat_l; lra). assert (m * (v * v) <= m * (v * / 128)) by (apply Rmult_le_compat_l; lra). assert (0 <= m * v) by (apply Rmult_le_pos; lra). lra.
Qed.
(** The field behind the panel. *)
Lemma field_accurate v ny nx input phi : FringeSpec.accurate a v -> u <= v -> eta <= v -> v <= / 128 -> (forall i j, (i < ny)%nat -> (j < nx)%nat -> Rabs (phi i j) <= 7) ->
  near (18 * v) (5 * eta * sqrt (INR (ny * nx))) (norm ny nx input) (norm ny nx (fun i j => fl_cmul a (input i j) (fl_phase_factor a (phi i j)))).
Proof.
  intros HA Huv Hev Hv Hphi. set (g := fun i j => fl_cmul a (input i j) (fl_phase_factor a (phi i j))). set (f := fun i j => (input i j * cis (- phi i j))%C).
  assert (EN : norm ny nx input = norm ny nx f). { unfold norm. f_equal. apply rsum2_ext. intros i j _ _. unfold f. rewrite Cmod_mult, Cmod_cis, Rmult_1_r. reflexivity. }
  assert (D : norm ny nx (fun i j => g i j - f i j)%C <= 18 * v * norm ny nx input + 5 * eta * sqrt (INR (ny * nx))).
  { eapply Rle_trans; [apply (pointwise ny nx _ input input (18 * v) 0 (5 * eta)); try lra|lra]. intros i j Hi Hj. rewrite Rmult_0_l, Rplus_0_r. apply pixel_accurate; auto. }
  unfold near. rewrite (Rabs_pos_eq (norm ny nx input)) by apply norm_ge_0. eapply Rle_trans; [|exact D]. rewrite EN. apply Rabs_le. split.
  - assert (T := norm_split ny nx f g).
    assert (E : norm ny nx (fun i j => f i j - g i j)%C = norm ny nx (fun i j => g i j - f i j)%C). { unfold norm. f_equal. apply rsum2_ext. intros i j _ _. rewrite <- (Cmod_opp (f i j - g i j)%C). do 2 f_equal. ring. } lra.
  - assert (T := norm_split ny nx g f). lra.
Qed.
End Mul.

(** ** The reported powers *)
Lemma lcos_powers a u eta u' eta' v B B' w0 w w' F e d Ny Nx py px ps sf input phi t0 t t' :
  arithmetic u eta B (rnd a) -> (2 ^ 22 <= B)%Z -> arithmetic u' eta' B' (dbl a) -> (2 ^ 40 <= B')%Z -> 0 <= u <= 1 / 8 -> 0 <= eta -> u' <= u -> eta' <= eta ->
  FringeSpec.accurate a v -> u <= v -> eta <= v -> v <= / 128 -> (forall i j, (i < Ny)%nat -> (j < Nx)%nat -> Rabs (phi i j) <= 7) ->
  let ny := (py + Ny + py)%nat in let nx := (px + Nx + px)%nat in
  (0 < Ny)%nat -> (0 < Nx)%nat -> (Z.of_nat (ny * nx) <= 2 ^ 40)%Z -> 0 < ps -> 0 < sf -> far_from_underflow u eta ny nx ps sf ->
  each_once ny nx t0 -> each_once ny nx t -> each_once ny nx t' -> 0 <= e -> 0 <= d -> FlSimSpec.accurate a e d ny nx (F ny nx) ->
  let out := fl_output a py px Ny Nx input (fun i j => fl_phase_factor a (phi i j)) in
  let P := field_power Ny Nx (ps ^ 2) input in
  let lost := 5 * eta * sqrt (INR (Ny * Nx)) * ps in
  near ((1 + 4 * u) ^ (depth t0 + 5) - 1) ((1 + 4 * u) ^ (depth t0 + 5) * (sqrt eta * (3 * (ps * sqrt (INR (ny * nx))) + 1))) (sqrt P) (sqrt (fl_input_power a w0 py px Ny Nx ps input t0)) /\
  near ((1 + 18 * v) * (1 + 4 * u) ^ (depth t + 5) - 1) ((1 + 4 * u) ^ (depth t + 5) * (lost + sqrt eta * (3 * (ps * sqrt (INR (ny * nx))) + 1))) (sqrt P) (sqrt (fl_output_power a w ps out t)) /\
  near ((1 + 18 * v) * ((1 + e) * (1 + 4 * u) ^ (depth t' + 13)) - 1) ((1 + 4 * u) ^ (depth t' + 13) * ((1 + e) * lost + ps * sqrt (INR (ny * nx)) * d + 2 * (sf / ps) * eta + sqrt eta * (3 * (sf / ps) + 1)))
    (sqrt P) (sqrt (fl_image_power a w' ny nx ps sf (fl_to_image a F ny nx ps sf out) t')).
Proof.
  intros H HB H' HB' Hu He Hu' He' HA Huv Hev Hv Hphi ny nx Hny Hnx HN Hps Hsf FU T0 T T' Hpe Hpd HF out P lost.
  set (g := fun i j => fl_cmul a (input i j) (fl_phase_factor a (phi i j))).
  assert (Q : near (18 * v) lost (sqrt P) (sqrt (field_power Ny Nx (ps ^ 2) g))).
  { assert (K := field_accurate a u eta B H Hu He v Ny Nx input phi HA Huv Hev Hv Hphi). fold g in K. assert (S : forall f, sqrt (field_power Ny Nx (ps ^ 2) f) = norm Ny Nx f * ps).
    { intros f. rewrite sqrt_field_power by apply pow2_ge_0. rewrite sqrt_pow2 by lra. reflexivity. }
    unfold P. rewrite !S. unfold near in *. rewrite <- Rmult_minus_distr_r, !Rabs_mult, (Rabs_pos_eq ps) by lra. unfold lost. 
    replace (18 * v * (Rabs (norm Ny Nx input) * ps) + 5 * eta * sqrt (INR (Ny * Nx)) * ps) with ((18 * v * Rabs (norm Ny Nx input) + 5 * eta * sqrt (INR (Ny * Nx))) * ps) by ring. apply Rmult_le_compat_r; [lra|exact K]. }
  destruct (rounded_powers a u eta u' eta' B B' w w' F e d Ny Nx py px ps sf input (fun i j => fl_phase_factor a (phi i j)) t t' H HB H' HB' Hu He Hu' He' Hny Hnx HN Hps Hsf FU T T' Hpe Hpd HF) as [R1 R2].
  fold ny nx out g in R1, R2. split; [|split].
  - unfold fl_input_power, P. rewrite <- (pad_power py px Ny Nx). fold ny nx. apply (output_power_near a u eta u' eta' B B' H HB H' HB' Hu He Hu' He' ny nx ps sf); try assumption; unfold ny, nx; lia.
  - assert (V := pow_ge_1 (4 * u) (depth t + 5) ltac:(lra)). assert (EV : 0 <= (1 + 4 * u) ^ (depth t + 5) - 1) by lra. eapply near_weaken; [| |exact (near_trans _ _ _ _ _ _ _ EV Q R1)]; apply Req_le; ring.
  - assert (V := pow_ge_1 (4 * u) (depth t' + 13) ltac:(lra)). assert (EV : 0 <= (1 + e) * (1 + 4 * u) ^ (depth t' + 13) - 1) by (set (q := (1 + 4 * u) ^ (depth t' + 13)) in *; clearbody q; nra).
    eapply near_weaken; [| |exact (near_trans _ _ _ _ _ _ _ EV Q R2)]; apply Req_le; ring.
Qed.

(** ** Single precision *)
Lemma single_lcos_powers w0 w w' F d Ny Nx py px ps sf input phi t0 t t' :
  let ny := (py + Ny + py)%nat in let nx := (px + Nx + px)%nat in
  (0 < Ny)%nat -> (0 < Nx)%nat -> (Z.of_nat (ny * nx) <= 2 ^ 24)%Z -> / 2 ^ 30 <= ps <= 1 -> / 2 ^ 40 <= sf <= 1 -> (forall i j, (i < Ny)%nat -> (j < Nx)%nat -> Rabs (phi i j) <= 7) ->
  each_once ny nx t0 -> each_once ny nx t -> each_once ny nx t' -> (depth t0 <= 64)%nat -> (depth t <= 64)%nat -> (depth t' <= 64)%nat -> 0 <= d -> FlSimSpec.accurate single (/ 2 ^ 18) d ny nx (F ny nx) ->
  let out := fl_output single py px Ny Nx input (fun i j => fl_phase_factor single (phi i j)) in
  let P := field_power Ny Nx (ps ^ 2) input in
  near (/ 2 ^ 15) (/ 2 ^ 40) (sqrt P) (sqrt (fl_input_power single w0 py px Ny Nx ps input t0)) /\
  near (/ 2 ^ 14) (/ 2 ^ 39) (sqrt P) (sqrt (fl_output_power single w ps out t)) /\
  near (/ 2 ^ 14) (2 ^ 13 * d + / 2 ^ 39) (sqrt P) (sqrt (fl_image_power single w' ny nx ps sf (fl_to_image single F ny nx ps sf out) t')).
Proof.
  intros ny nx Hny Hnx HN Hps Hsf Hphi T0 T T' D0 D D' Hd HF out P.
  assert (U15 : / 2 ^ 15 = / 32768) by (f_equal; rewrite (pow_IZR 2 15); reflexivity). assert (U14 : / 2 ^ 14 = / 16384) by (f_equal; rewrite (pow_IZR 2 14); reflexivity).
  assert (U23 : / 2 ^ 23 = / 8388608) by (f_equal; rewrite (pow_IZR 2 23); reflexivity). assert (U24 : / 2 ^ 24 = / 16777216) by (f_equal; rewrite (pow_IZR 2 24); reflexivity).
  assert (Z39 : / 2 ^ 39 = 2 * / 2 ^ 40). { rewrite (inv2_add 39 1 : / 2 ^ 40 = _). cbn [pow]. lra. }
  assert (Z40 : 0 < / 2 ^ 40) by (apply Rinv_0_lt_compat, pow_lt; lra). assert (Z150 : 0 < / 2 ^ 150) by (apply Rinv_0_lt_compat, pow_lt; lra).
  assert (Z30 : 0 < / 2 ^ 30) by (apply Rinv_0_lt_compat, pow_lt; lra).
  assert (S150 : / 2 ^ 150 <= / 2 ^ 24) by (apply inv2; lia).
  assert (Hu : 0 <= / 2 ^ 24 <= 1 / 8) by (rewrite U24; lra).
  assert (SN : 0 <= sqrt (INR (ny * nx)) <= 4096).
  { split; [apply sqrt_pos|]. rewrite <- (sqrt_pow2 4096) by lra. apply sqrt_le_1_alt. rewrite INR_IZR_INZ. apply Rle_trans with (IZR (2 ^ 24)); [apply IZR_le; exact HN|]. change (2 ^ 24)%Z with 16777216%Z. lra. }
  assert (SN' : 0 <= sqrt (INR (Ny * Nx)) <= 4096).
  { split; [apply sqrt_pos|]. apply Rle_trans with (2 := proj2 SN). apply sqrt_le_1_alt, le_INR. unfold ny, nx. nia. }
  assert (SE : sqrt (/ 2 ^ 150) = / 2 ^ 75).
  { rewrite <- (sqrt_pow2 (/ 2 ^ 75)) by (left; apply Rinv_0_lt_compat, pow_lt; lra). f_equal. rewrite pow_inv, <- pow_mult. reflexivity. }
  assert (Z75 : 0 < / 2 ^ 75) by (apply Rinv_0_lt_compat, pow_lt; lra).
  assert (T75 : / 2 ^ 75 * 65536 <= / 2 ^ 40). { rewrite (inv2_add 40 35 : / 2 ^ 75 = _). assert (/ 2 ^ 35 <= / 2 ^ 16) by (apply inv2; lia). assert (/ 2 ^ 16 = / 65536) by (f_equal; rewrite (pow_IZR 2 16); reflexivity). assert (0 < / 2 ^ 35) by (apply Rinv_0_lt_compat, pow_lt; lra). nra. }
  assert (T150 : / 2 ^ 150 * 65536 <= / 2 ^ 40). { assert (/ 2 ^ 150 <= / 2 ^ 75) by (apply inv2; lia). lra. }
  split.
  { assert (FU := single_far ny nx ps sf ltac:(unfold ny; lia) ltac:(unfold nx; lia) HN Hps Hsf).
    assert (R0 : near ((1 + 4 * / 2 ^ 24) ^ (depth t0 + 5) - 1) ((1 + 4 * / 2 ^ 24) ^ (depth t0 + 5) * (sqrt (/ 2 ^ 150) * (3 * (ps * sqrt (INR (ny * nx))) + 1))) (sqrt P) (sqrt (fl_input_power single w0 py px Ny Nx ps input t0))).
    { unfold fl_input_power, P. rewrite <- (pad_power py px Ny Nx). fold ny nx.
      apply (output_power_near single (/ 2 ^ 24) (/ 2 ^ 150) (/ 2 ^ 53) (/ 2 ^ 1075) (2 ^ 24) (2 ^ 53) binary32_arithmetic ltac:(lia) binary64_arithmetic ltac:(lia) Hu ltac:(lra) ltac:(apply inv2; lia) ltac:(apply inv2; lia) ny nx ps sf); try assumption; try lra; try (unfold ny, nx; lia). }
    rewrite SE in R0. assert (PB : 1 <= (1 + 4 * / 2 ^ 24) ^ (depth t0 + 5) <= 1 + 1 / 50000).
    { rewrite U24. split; [apply pow_ge_1; lra|]. apply Rle_trans with ((1 + 4 * / 16777216) ^ 77); [apply Rle_pow; [lra|lia]|].
      eapply Rle_trans; [apply bernoulli; [lra|]|]; replace (INR 77) with 77 by (rewrite INR_IZR_INZ; reflexivity); [lra|]. apply Rmult_le_reg_r with (1 - 77 * (4 * / 16777216)); [lra|]. rewrite Rinv_l by lra. lra. }
    set (V := (1 + 4 * / 2 ^ 24) ^ (depth t0 + 5)) in *. set (sn := sqrt (INR (ny * nx))) in *. clearbody V sn. eapply near_weaken; [| |exact R0]; [lra|].
    assert (Y : 0 <= 3 * (ps * sn) + 1 <= 32768) by nra. set (q := 3 * (ps * sn) + 1) in *. clearbody q. assert (/ 2 ^ 75 * q <= / 2 ^ 75 * 32768) by (apply Rmult_le_compat_l; lra). assert (0 <= / 2 ^ 75 * q) by (apply Rmult_le_pos; lra). nra. }
  set (g := fun i j => fl_cmul single (input i j) (fl_phase_factor single (phi i j))).
  assert (Q : near (18 * / 2 ^ 23) (/ 2 ^ 40 / 2) (sqrt P) (sqrt (field_power Ny Nx (ps ^ 2) g))).
  { assert (K := field_accurate single (/ 2 ^ 24) (/ 2 ^ 150) (2 ^ 24) binary32_arithmetic Hu ltac:(lra) (/ 2 ^ 23) Ny Nx input phi single_accurate ltac:(rewrite U23, U24; lra) ltac:(rewrite U23, U24 in *; lra) ltac:(rewrite U23; lra) Hphi). fold g in K.
    assert (SS : forall f, sqrt (field_power Ny Nx (ps ^ 2) f) = norm Ny Nx f * ps).
    { intros f. rewrite sqrt_field_power by apply pow2_ge_0. rewrite sqrt_pow2 by lra. reflexivity. }
    unfold P. rewrite !SS. unfold near in *. rewrite <- Rmult_minus_distr_r, !Rabs_mult, (Rabs_pos_eq ps) by lra.
    eapply Rle_trans; [apply Rmult_le_compat_r; [lra|exact K]|]. set (sn := sqrt (INR (Ny * Nx))) in *. clearbody sn. assert (sn * ps <= 4096) by nra. assert (0 <= sn * ps) by (apply Rmult_le_pos; lra).
    assert (/ 2 ^ 150 * (sn * ps) <= / 2 ^ 150 * 4096) by (apply Rmult_le_compat_l; lra). lra. }
  destruct (single_powers w w' F d Ny Nx py px ps sf input (fun i j => fl_phase_factor single (phi i j)) t t' Hny Hnx HN Hps Hsf T T' D D' Hd HF) as [R1 R2].
  fold ny nx out g in R1, R2. assert (E15 : 0 <= / 2 ^ 15) by (rewrite U15; lra).
  split.
  - eapply near_weaken; [| |exact (near_trans _ _ _ _ _ _ _ E15 Q R1)]; [rewrite U15, U14, U23; lra|rewrite U15, Z39; lra].
  - eapply near_weaken; [| |exact (near_trans _ _ _ _ _ _ _ E15 Q R2)]; [rewrite U15, U14, U23; lra|rewrite U15, Z39; lra].
Qed.
(** ** Without rounding *)
Lemma link_lcos h l m arg F phi m' w t : let s := l_slm l in
  full_input h s arg F -> l_state l = LReal (s_Ny s) (s_Nx s) phi -> propagate_to_image h (DevLcos l) m arg = (m', Ok tt) -> each_once (NY s m) (NX s m) t ->
  full_state (DevLcos l) (fun i j => fl_phase_factor exact (phi i j)) /\
  get_input_power s m' = Ok (fl_input_power exact w (Z.to_nat (pad_y m)) (Z.to_nat (pad_x m)) (s_Ny s) (s_Nx s) (pixel_size s) F t).
Proof.
  intros s HF HS H T.
  assert (FS : full_state (DevLcos l) (fun i j => fl_phase_factor exact (phi i j))).
  { assert (E := HoloFacts2.lcos_full_state l phi HS). unfold fl_phase_factor. cbn [exact rnd f_cos f_sin]. exact E. }
  split; [exact FS|]. destruct (propagate_inv h (DevLcos l) m arg F (fun i j => fl_phase_factor exact (phi i j)) m' HF FS H) as (Hy & Hx & Hsf & Epx & Epy & Hi & _). cbn [dev_slm] in *. fold s in Hsf, Hi.
  rewrite (input_power_eq _ _ _ _ _ Hi). unfold fl_input_power. rewrite (FloatLink.link_power _ _ _ _ _ _ T). unfold fl_fourier_area. cbn [dbl exact]. f_equal. rewrite Rmult_comm. reflexivity.
Qed.
(** ** The phases the hologram methods store are in the range of the bound *)
Lemma two_pi_7 : 2 * PI < 7.
Proof.
  assert (H := proj2 (PI_ineq 1)). cbn [Nat.mul Nat.add sum_f_R0] in H. unfold tg_alt, PI_tg in H. cbn [Nat.mul Nat.add pow] in H. rewrite !INR_IZR_INZ in H. cbn [Z.of_nat Pos.of_succ_nat Pos.succ] in H. lra.
Qed.
Lemma stored_range (p : R) N : ((1 <= N)%Z -> - PI < p <= PI) /\ ((N <= 0)%Z -> 0 <= p < 2 * PI) -> Rabs p <= 7.
Proof. intros [A B]. assert (P := PI_RGT_0). assert (Q := two_pi_7). apply Rabs_le. destruct (Z_le_gt_dec 1 N) as [H|H]; [specialize (A H)|specialize (B ltac:(lia))]; lra. Qed.
Lemma stored_phases h l input target F T kw u : full_input h (l_slm l) input F -> HoloSpec.real_target h (l_slm l) target T -> (forall i j, HoloSpec.in_slm (l_slm l) i j -> 0 <= u i j < 1) ->
  (exists p, HoloSpec.stores (l_slm l) (calculate_hologram h l input target MGs kw u) p /\ forall i j, (i < s_Ny (l_slm l))%nat -> (j < s_Nx (l_slm l))%nat -> Rabs (p i j) <= 7) /\
  (forall w W, lk_window kw = Some w -> DmdSpec.full_target h (l_slm l) w W ->
   exists p, HoloSpec.stores (l_slm l) (calculate_hologram h l input target MMraf kw u) p /\ forall i j, (i < s_Ny (l_slm l))%nat -> (j < s_Nx (l_slm l))%nat -> Rabs (p i j) <= 7).
Proof.
  intros HF HT Hu. destruct (HoloThms.ranges h l input target F T kw u HF HT Hu) as (A & B & _). split.
  - destruct A as (p & A1 & A2). exists p. split; [exact A1|]. intros i j Hi Hj. exact (stored_range _ _ (A2 i j (conj Hi Hj))).
  - intros w W Ew HW. destruct (B w W Ew HW) as (p & A1 & A2). exists p. split; [exact A1|]. intros i j Hi Hj. exact (stored_range _ _ (A2 i j (conj Hi Hj))).
Qed.
