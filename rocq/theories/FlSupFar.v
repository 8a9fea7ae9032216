(** Super-Gaussian profiles in double precision, without a limit on the distance. *)
From Coq Require Import Reals ZArith List Bool Lia Lra Psatz.
From Verif Require Import Cx Sums PyBase ProfileModel ModeSpec ModeFacts ModeThms FloatModel FloatSpec FloatFacts FlSimSpec FlSimFacts WideSpec FlAnaModel FlAnaFacts FlAnaThms FlZernModel FlZernThms FlHermModel FlHermSpec FlHermFacts FlHermThms FlSupModel FlSupSpec FlSupFacts FlSupThms FlSupFacts2 FlSupFacts3.
Import ListNotations.
Open Scope R_scope.

Section Exponent.
Variables (u eta : R) (B : Z) (l : zlib) (f_exp : R -> R) (f_pow : R -> R -> R) (vp x0 y0 Am w p x y : R).
Hypothesis (A : arithmetic u eta B (z_rnd l)) (Hu : 0 < u <= 1 / 1000) (He0 : 0 <= eta) (He : 2 * eta <= u) (Hv : 0 <= vp <= 1 / 2).
Let x0' := z_rnd l x0. Let y0' := z_rnd l y0. Let A' := z_rnd l Am. Let w' := z_rnd l w. Let p' := z_rnd l p.
Hypothesis (Hw : 0 < w') (Ew : 4 * eta <= (u * w') ^ 2).
Let t := power (dist2 x0' y0' x y ^ 2 / w' ^ 2) p'.
Lemma exponent c k : 0 <= c <= 1 -> 0 <= k ->
  (forall s s', 0 <= s -> 0 <= s' -> Rabs (s' - s) <= 8 * u * s + 8 * eta -> Rabs (power s' p' - power s p') <= c * power s p' + k) ->
  (forall s, 0 <= s -> 0 <= f_pow s p' /\ Rabs (f_pow s p' - power s p') <= vp * power s p' + eta) ->
  exists t', fl_super l f_exp f_pow x0 y0 Am w p x y = z_rnd l (A' * f_exp (- t')) /\ 0 <= t' /\ Rabs (t' - t) <= (c + 2 * vp) * t + 2 * k + eta.
Proof.
  intros Hc Hk Close Fp. destruct (base_err u eta B l A Hu ltac:(lra) w' Hw Ew (x - x0') (y - y0')) as [S0 Se]. assert (Sq : dist2 x0' y0' x y ^ 2 / w' ^ 2 = ((x - x0') / w') ^ 2 + ((y - y0') / w') ^ 2) by (rewrite dist2_sq; field; lra).
  unfold fl_super. fold A' w' p' x0' y0'. set (s' := z_rnd l (z_rnd l (_ ^ 2) + z_rnd l (_ ^ 2))) in *. exists (f_pow s' p'). split; [reflexivity|]. unfold t. rewrite Sq. set (s := ((x - x0') / w') ^ 2 + ((y - y0') / w') ^ 2) in *.
  assert (Hs : 0 <= s) by (unfold s; pose proof (pow2_ge_0 ((x - x0') / w')); pose proof (pow2_ge_0 ((y - y0') / w')); lra). destruct (Fp s' S0) as [F0 F1]. split; [exact F0|]. pose proof (Close s s' Hs S0 Se) as D2. pose proof (power_pos s p') as P0. set (b := power s p') in *. set (q := power s' p') in *.
  apply Rcomplements.Rabs_le_between in F1, D2. assert (ut : 0 <= c * b <= 1 * b) by (split; [apply Rmult_le_pos; lra|apply Rmult_le_compat_r; lra]). assert (q <= 2 * b + k) by lra. assert (vq : vp * q <= vp * (2 * b + k)) by (apply Rmult_le_compat_l; lra). assert (vp * k <= 1 / 2 * k) by (apply Rmult_le_compat_r; lra). apply Rabs_le. lra.
Qed.
End Exponent.
Lemma exp_1000 t : 1000 <= t -> exp (- t) <= / 2 ^ 1077.
Proof.
  intros Ht. rewrite exp_Ropp. apply Rinv_le_contravar; [apply pow_lt; lra|]. apply Rle_trans with (exp (INR 333 * 3)).
  - assert (E : exp (INR 333 * 3) = exp 3 ^ 333) by (symmetry; apply pow_exp || (rewrite <- Rpower_pow by apply exp_pos; unfold Rpower; rewrite ln_exp; reflexivity)). rewrite E.
    assert (E3 : 2 ^ 4 <= exp 3). { replace 3 with (INR 30 * (1 / 10)) by (rewrite INR_IZR_INZ; cbn; lra). assert (Q : exp (INR 30 * (1 / 10)) = exp (1 / 10) ^ 30) by (symmetry; apply pow_exp || (rewrite <- Rpower_pow by apply exp_pos; unfold Rpower; rewrite ln_exp; reflexivity)). rewrite Q. apply Rle_trans with ((1 + 1 / 10) ^ 30); [lra|]. apply pow_incr. pose proof (exp_ineq1_le (1 / 10)). lra. }
    apply Rle_trans with ((2 ^ 4) ^ 333); [|apply pow_incr; split; [apply pow_le; lra|exact E3]]. rewrite <- pow_mult. apply Rle_pow; [lra|]. apply Nat.leb_le. reflexivity.
  - assert (INR 333 = 333) by (rewrite INR_IZR_INZ; reflexivity). destruct (Req_dec (INR 333 * 3) t) as [->|N]; [lra|left; apply exp_increasing; lra].
Qed.
(** Far from the centre both values are next to nothing. *)
Lemma far l f_exp Am t t' : z_rnd l = binary64 -> accurate_exp f_exp (/ 2 ^ 52) (/ 2 ^ 1075) -> 1000 <= t -> 1000 <= t' ->
  Rabs (z_rnd l (z_rnd l Am * f_exp (- t')) - z_rnd l Am * exp (- t)) <= (4 * Rabs (binary64 Am) + 1) / 2 ^ 1075.
Proof.
  intros Hl Fe Ht Ht'. rewrite Hl. set (A' := binary64 Am). pose proof binary64_arithmetic as A. assert (P : forall k, 0 < / 2 ^ k) by (intros; apply Rinv_0_lt_compat, pow_lt; lra).
  pose proof (exp_1000 t Ht) as X. pose proof (exp_1000 t' Ht') as X'. pose proof (exp_pos (- t)). pose proof (exp_pos (- t')).
  assert (Pm : forall a b, (b <= a)%nat -> / 2 ^ a <= / 2 ^ b). { intros a b Le. apply Rinv_le_contravar; [apply pow_lt; lra|]. apply Rle_pow; [lra|exact Le]. }
  assert (E77 : / 2 ^ 1077 = / 4 * / 2 ^ 1075) by (change 1077%nat with (2 + 1075)%nat; rewrite pow_add, Rinv_mult; f_equal; field). pose proof (P 1075%nat) as e0. set (e := / 2 ^ 1075) in *.
  assert (U : / 2 ^ 53 <= / 2 ^ 10) by (apply Pm; lia). replace (2 ^ 10) with 1024 in U by ring. assert (V : / 2 ^ 52 <= / 2 ^ 10) by (apply Pm; lia). replace (2 ^ 10) with 1024 in V by ring. pose proof (P 53%nat) as P53. pose proof (P 52%nat) as P52.
  pose proof (Fe (- t') ltac:(lra)) as K.
  assert (Y : Rabs (f_exp (- t') - exp (- t)) <= 2 * e).
  { apply Rcomplements.Rabs_le_between in K. assert (/ 2 ^ 52 * exp (- t') <= / 1024 * exp (- t')) by (apply Rmult_le_compat_r; lra). apply Rabs_le. lra. }
  assert (P1 : Rabs (A' * f_exp (- t') - A' * exp (- t)) <= Rabs A' * (2 * e)). { replace (A' * f_exp (- t') - A' * exp (- t)) with (A' * (f_exp (- t') - exp (- t))) by ring. rewrite Rabs_mult. apply Rmult_le_compat_l; [apply Rabs_pos|exact Y]. }
  pose proof (rnd_err (/ 2 ^ 53) (/ 2 ^ 1075) (2 ^ 53) binary64 A ltac:(lra) _ _ _ P1) as R. eapply Rle_trans; [exact R|]. fold e. rewrite Rabs_mult, (Rabs_pos_eq (exp (- t))) by lra. pose proof (Rabs_pos A') as a0. set (a := Rabs A') in *.
  assert (aE : a * exp (- t) <= a * (/ 4 * e)) by (apply Rmult_le_compat_l; lra). assert (ae : 0 <= a * e) by (apply Rmult_le_pos; lra). assert (aE0 : 0 <= a * exp (- t)) by (apply Rmult_le_pos; lra).
  assert (/ 2 ^ 53 * (a * exp (- t)) <= / 1024 * (a * exp (- t))) by (apply Rmult_le_compat_r; lra). assert (/ 2 ^ 53 * (a * (2 * e)) <= / 1024 * (a * (2 * e))) by (apply Rmult_le_compat_r; [apply Rmult_le_pos; lra|lra]). unfold Rdiv. fold e. lra.
Qed.
Lemma everywhere l f_exp f_pow x0 y0 Am w p x y : z_rnd l = binary64 -> accurate_exp f_exp (/ 2 ^ 52) (/ 2 ^ 1075) -> accurate_pow f_pow (/ 2 ^ 52) (/ 2 ^ 1075) -> accurate_root f_pow (/ 2 ^ 52) (/ 2 ^ 1075) ->
  let x0' := binary64 x0 in let y0' := binary64 y0 in let A' := binary64 Am in let w' := binary64 w in let p' := binary64 p in let d := dist2 x0' y0' x y in
  / 2 ^ 483 <= w' -> 1 / 16 <= p' <= 100 ->
  Rabs (fl_super l f_exp f_pow x0 y0 Am w p x y - sg_mode A' w' p' d) <= Rabs (sg_mode A' w' p' d) / 2 ^ 30 + (4 * Rabs A' + 1) / 2 ^ 1075.
Proof.
  intros Hl Fe Fp Fr x0' y0' A' w' p' d Hw Hp. pose proof binary64_arithmetic as A. assert (P : forall k, 0 < / 2 ^ k) by (intros; apply Rinv_0_lt_compat, pow_lt; lra). pose proof (Rabs_pos A') as a0. pose proof (Rabs_pos (sg_mode A' w' p' d)) as g0.
  assert (Pm : forall a b, (b <= a)%nat -> / 2 ^ a <= / 2 ^ b). { intros a b Le. apply Rinv_le_contravar; [apply pow_lt; lra|]. apply Rle_pow; [lra|exact Le]. }
  pose proof (P 53%nat) as P53. pose proof (P 1075%nat) as P1075. pose proof (P 52%nat) as P52. pose proof (P 483%nat) as P483. pose proof (P 30%nat) as P30.
  assert (ext : (2 * Rabs A' + 1) / 2 ^ 1075 <= (4 * Rabs A' + 1) / 2 ^ 1075) by (unfold Rdiv; apply Rmult_le_compat_r; lra).
  destruct (Rle_dec (power (d ^ 2 / w' ^ 2) p') 1024) as [T|T].
  - destruct (Rle_dec 1 p') as [H1|H1].
    + pose proof (steep_double l f_exp f_pow x0 y0 Am w p x y Hl Fe Fp) as K. cbv zeta in K. fold x0' y0' A' w' p' in K. fold d in K. specialize (K Hw ltac:(lra) T). lra.
    + pose proof (small_double l f_exp f_pow x0 y0 Am w p x y Hl Fe Fr) as K. cbv zeta in K. fold x0' y0' A' w' p' in K. fold d in K. specialize (K Hw ltac:(lra) T). assert (/ 2 ^ 38 <= / 2 ^ 30) by (apply Pm; lia). assert (Rabs (sg_mode A' w' p' d) / 2 ^ 38 <= Rabs (sg_mode A' w' p' d) / 2 ^ 30) by (unfold Rdiv; apply Rmult_le_compat_l; lra). lra.
  - assert (U : / 2 ^ 53 <= / 2 ^ 20) by (apply Pm; lia). replace (2 ^ 20) with 1048576 in U by ring. assert (V : / 2 ^ 52 <= / 2 ^ 20) by (apply Pm; lia). replace (2 ^ 20) with 1048576 in V by ring. assert (W : / 2 ^ 1075 <= / 2 ^ 54) by (apply Pm; lia). assert (E54 : / 2 ^ 54 = / 2 * / 2 ^ 53) by (replace (2 ^ 54) with (2 * 2 ^ 53) by ring; rewrite Rinv_mult; reflexivity).
    assert (et : 4 * / 2 ^ 1075 <= (/ 2 ^ 53 * w') ^ 2).
    { apply Rle_trans with ((/ 2 ^ 53 * / 2 ^ 483) ^ 2); [|apply pow_incr; split; [apply Rmult_le_pos; lra|apply Rmult_le_compat_l; lra]]. rewrite <- Rinv_mult, <- pow_add, pow_inv, <- pow_mult. change ((53 + 483) * 2)%nat with 1072%nat. change 1075%nat with (3 + 1072)%nat. rewrite pow_add, Rinv_mult. pose proof (P 1072%nat). replace (/ 2 ^ 3) with (1 / 8) by field. lra. }
    pose proof (exponent (/ 2 ^ 53) (/ 2 ^ 1075) (2 ^ 53) l f_exp f_pow (/ 2 ^ 52) x0 y0 Am w p x y) as K. rewrite Hl in K. fold x0' y0' A' w' p' in K. fold d in K. assert (Vv : 0 <= / 2 ^ 52 <= 1 / 2) by lra.
    assert (Q : exists t', fl_super l f_exp f_pow x0 y0 Am w p x y = binary64 (A' * f_exp (- t')) /\ 1000 <= t').
    { set (t := power (d ^ 2 / w' ^ 2) p') in *. destruct (Rle_dec 1 p') as [H1|H1].
      - assert (pu : / 2 ^ 53 * p' <= / 2 ^ 53 * 100) by (apply Rmult_le_compat_l; lra). assert (pu0 : 0 <= / 2 ^ 53 * p') by (apply Rmult_le_pos; lra). assert (Pe : / 2 ^ 1075 / / 2 ^ 53 = / 2 ^ 1022). { change 1075%nat with (1022 + 53)%nat. rewrite pow_add, Rinv_mult. unfold Rdiv. rewrite Rmult_assoc, Rinv_r, Rmult_1_r by lra. reflexivity. } assert (W2 : / 2 ^ 1022 <= / 2 ^ 53) by (apply Pm; lia). pose proof (P 1022%nat) as P1022.
        destruct (K A ltac:(lra) ltac:(lra) ltac:(lra) Vv ltac:(lra) et (32 * / 2 ^ 53 * p') (2 * / 2 ^ 1022)) as (t' & E & T0 & D); [lra|lra| |intros s Hs; apply Fp; lra|].
        + intros s s' Hs Hs' Hd. rewrite <- Pe. apply power_close_steep; try assumption; lra.
        + exists t'. split; [exact E|]. apply Rcomplements.Rabs_le_between in D. assert ((32 * / 2 ^ 53 * p' + 2 * / 2 ^ 52) * t <= 1 / 100 * t) by (apply Rmult_le_compat_r; lra). lra.
      - pose proof (tiny_power p' ltac:(lra)) as Tp. assert (W2 : / 2 ^ 67 <= / 2 ^ 53) by (apply Pm; lia). pose proof (power_pos (8 * / 2 ^ 1075) p') as T8.
        destruct (K A ltac:(lra) ltac:(lra) ltac:(lra) Vv ltac:(lra) et (8 * / 2 ^ 53) (power (8 * / 2 ^ 1075) p')) as (t' & E & T0 & D); [lra|exact T8| |intros s Hs; apply Fr; lra|].
        + intros s s' Hs Hs' Hd. apply power_close_small; try assumption; lra.
        + exists t'. split; [exact E|]. apply Rcomplements.Rabs_le_between in D. assert ((8 * / 2 ^ 53 + 2 * / 2 ^ 52) * t <= 1 / 100 * t) by (apply Rmult_le_compat_r; lra). lra. }
    destruct Q as (t' & E & T'). rewrite E. assert (Sg : sg_mode A' w' p' d = A' * exp (- power (d ^ 2 / w' ^ 2) p')) by (unfold d; rewrite sg_power by lra; replace (dist2 x0' y0' x y ^ 2 / w' ^ 2) with (((x - x0') / w') ^ 2 + ((y - y0') / w') ^ 2) by (rewrite dist2_sq; field; lra); reflexivity). rewrite Sg. pose proof (far l f_exp Am (power (d ^ 2 / w' ^ 2) p') t' Hl Fe ltac:(lra) T') as Z. rewrite Hl in Z. fold A' in Z. clear g0. assert (0 <= Rabs (A' * exp (- power (d ^ 2 / w' ^ 2) p')) / 2 ^ 30) by (apply Rmult_le_pos; [apply Rabs_pos|lra]). lra.
Qed.
(** Single precision, the default. *)
Lemma steep_single l f_exp f_pow x0 y0 Am w p x y : z_rnd l = binary32 -> accurate_exp f_exp (/ 2 ^ 23) (/ 2 ^ 150) -> accurate_pow f_pow (/ 2 ^ 23) (/ 2 ^ 150) ->
  let x0' := binary32 x0 in let y0' := binary32 y0 in let A' := binary32 Am in let w' := binary32 w in let p' := binary32 p in let d := dist2 x0' y0' x y in
  / 2 ^ 50 <= w' -> 1 <= p' <= 10 -> power (d ^ 2 / w' ^ 2) p' <= 16 ->
  Rabs (fl_super l f_exp f_pow x0 y0 Am w p x y - sg_mode A' w' p' d) <= Rabs (sg_mode A' w' p' d) / 2 ^ 10 + (2 * Rabs A' + 1) / 2 ^ 150.
Proof.
  intros Hl Fe Fp x0' y0' A' w' p' d Hw Hp HT. pose proof binary32_arithmetic as A. assert (P : forall k, 0 < / 2 ^ k) by (intros; apply Rinv_0_lt_compat, pow_lt; lra).
  assert (Pm : forall a b, (b <= a)%nat -> / 2 ^ a <= / 2 ^ b). { intros a b Le. apply Rinv_le_contravar; [apply pow_lt; lra|]. apply Rle_pow; [lra|exact Le]. }
  assert (U : / 2 ^ 24 <= / 2 ^ 20) by (apply Pm; lia). replace (2 ^ 20) with 1048576 in U by ring.
  pose proof (P 24%nat) as P24. pose proof (P 150%nat) as P150. pose proof (P 23%nat) as P23. pose proof (P 50%nat) as P50.
  assert (et : 4 * / 2 ^ 150 <= (/ 2 ^ 24 * w') ^ 2).
  { apply Rle_trans with ((/ 2 ^ 24 * / 2 ^ 50) ^ 2); [|apply pow_incr; split; [apply Rmult_le_pos; lra|apply Rmult_le_compat_l; lra]]. rewrite <- Rinv_mult, <- pow_add, pow_inv, <- pow_mult. change ((24 + 50) * 2)%nat with 148%nat. change 150%nat with (2 + 148)%nat. rewrite pow_add, Rinv_mult. pose proof (P 148%nat). replace (/ 2 ^ 2) with (1 / 4) by field. lra. }
  assert (Pe : / 2 ^ 150 / / 2 ^ 24 = / 2 ^ 126). { change 150%nat with (126 + 24)%nat. rewrite pow_add, Rinv_mult. unfold Rdiv. rewrite Rmult_assoc, Rinv_r, Rmult_1_r by lra. reflexivity. }
  assert (E23 : / 2 ^ 23 = 2 * / 2 ^ 24) by (replace (2 ^ 24) with (2 * 2 ^ 23) by ring; rewrite Rinv_mult; field; apply Rgt_not_eq, pow_lt; lra). assert (E11 : / 2 ^ 11 = 8192 * / 2 ^ 24) by (replace (2 ^ 24) with (8192 * 2 ^ 11) by ring; rewrite Rinv_mult; field; apply Rgt_not_eq, pow_lt; lra).
  pose proof (power_pos (d ^ 2 / w' ^ 2) p') as T0. pose proof (Pm 126%nat 24%nat ltac:(lia)) as P126. pose proof (Pm 150%nat 25%nat ltac:(lia)) as P25. assert (E25 : / 2 ^ 25 = / 2 * / 2 ^ 24) by (replace (2 ^ 25) with (2 * 2 ^ 24) by ring; rewrite Rinv_mult; reflexivity).
  assert (pu : / 2 ^ 24 * p' <= / 2 ^ 24 * 10) by (apply Rmult_le_compat_l; lra). assert (pu0 : 0 <= / 2 ^ 24 * p') by (apply Rmult_le_pos; lra).
  assert (Z : steep_error (/ 2 ^ 24) (/ 2 ^ 23) (/ 2 ^ 23) (/ 2 ^ 150) p' (power (d ^ 2 / w' ^ 2) p') <= / 2 ^ 11).
  { unfold steep_error. rewrite Pe. assert ((32 * / 2 ^ 24 * p' + 2 * / 2 ^ 23) * power (d ^ 2 / w' ^ 2) p' <= (324 * / 2 ^ 24) * 16) by (apply Rmult_le_compat; lra). lra. }
  assert (Z0 : steep_error (/ 2 ^ 24) (/ 2 ^ 23) (/ 2 ^ 23) (/ 2 ^ 150) p' (power (d ^ 2 / w' ^ 2) p') <= 1 / 2). { eapply Rle_trans; [exact Z|]. apply Rle_trans with (/ 2 ^ 1); [apply Pm; lia|]. replace (2 ^ 1) with 2 by ring. lra. }
  pose proof (super_steep (/ 2 ^ 24) (/ 2 ^ 150) (2 ^ 24) l f_exp f_pow (/ 2 ^ 23) (/ 2 ^ 23) x0 y0 Am w p x y) as K. rewrite Hl in K. cbv zeta in K. fold x0' y0' A' w' p' in K. fold d in K.
  assert (V : 0 <= / 2 ^ 23 <= 1 / 2) by lra. specialize (K A ltac:(lra) ltac:(lra) ltac:(lra) Fe ltac:(lra) Fp V ltac:(lra) et ltac:(lra) ltac:(lra) Z0). eapply Rle_trans; [exact K|]. unfold Rdiv. apply Rplus_le_compat_r. rewrite Rmult_comm. apply Rmult_le_compat_l; [apply Rabs_pos|].
  assert (E10 : / 2 ^ 10 = 2 * / 2 ^ 11) by (replace (2 ^ 11) with (2 * 2 ^ 10) by ring; rewrite Rinv_mult; field; apply Rgt_not_eq, pow_lt; lra). lra.
Qed.
Lemma single_case : accurate_pow (fun s p => binary32 (power s p)) (/ 2 ^ 23) (/ 2 ^ 150) /\ power (2 ^ 2 / 1 ^ 2) 2 <= 16.
Proof.
  split.
  - intros s p Hs Hp. pose proof binary32_arithmetic as A. pose proof (power_pos s p) as P0. split.
    + assert (Z0 : binary32 0 = 0). { pose proof (ar_odd _ _ _ _ A 0) as O. rewrite Ropp_0 in O. lra. } rewrite <- Z0. apply (ar_monotone _ _ _ _ A), P0.
    + pose proof (ar_error _ _ _ _ A (power s p)) as K. rewrite (Rabs_pos_eq (power s p)) in K by lra. assert (/ 2 ^ 24 <= / 2 ^ 23) by (apply Rinv_le_contravar; [apply pow_lt; lra|apply Rle_pow; [lra|lia]]). assert (/ 2 ^ 24 * power s p <= / 2 ^ 23 * power s p) by (apply Rmult_le_compat_r; lra). lra.
  - replace (2 ^ 2 / 1 ^ 2) with 4 by field. destruct pow_case as (_ & E & _). rewrite E. lra.
Qed.
