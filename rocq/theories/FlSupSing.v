(** Super-Gaussian profiles in single precision, on the whole plane. *)
From Coq Require Import Reals ZArith List Bool Lia Lra Psatz.
From Verif Require Import Cx Sums PyBase ProfileModel ModeSpec ModeFacts ModeThms FloatModel FloatSpec FloatFacts FlSimSpec FlSimFacts WideSpec FlAnaModel FlAnaFacts FlAnaThms FlZernModel FlZernThms FlHermModel FlHermSpec FlHermFacts FlHermThms FlSupModel FlSupSpec FlSupFacts FlSupThms FlSupFacts2 FlSupFacts3 FlSupFar.
Import ListNotations.
Open Scope R_scope.
Lemma steep_single_far l f_exp f_pow x0 y0 Am w p x y : z_rnd l = binary32 -> accurate_exp f_exp (/ 2 ^ 23) (/ 2 ^ 150) -> accurate_pow f_pow (/ 2 ^ 23) (/ 2 ^ 150) ->
  let x0' := binary32 x0 in let y0' := binary32 y0 in let A' := binary32 Am in let w' := binary32 w in let p' := binary32 p in let d := dist2 x0' y0' x y in
  / 2 ^ 50 <= w' -> 1 <= p' <= 10 -> power (d ^ 2 / w' ^ 2) p' <= 128 ->
  Rabs (fl_super l f_exp f_pow x0 y0 Am w p x y - sg_mode A' w' p' d) <= Rabs (sg_mode A' w' p' d) / 2 ^ 7 + (2 * Rabs A' + 1) / 2 ^ 150.
Proof.
  intros Hl Fe Fp x0' y0' A' w' p' d Hw Hp HT. pose proof binary32_arithmetic as A. assert (P : forall k, 0 < / 2 ^ k) by (intros; apply Rinv_0_lt_compat, pow_lt; lra).
  assert (Pm : forall a b, (b <= a)%nat -> / 2 ^ a <= / 2 ^ b). { intros a b Le. apply Rinv_le_contravar; [apply pow_lt; lra|]. apply Rle_pow; [lra|exact Le]. }
  assert (U : / 2 ^ 24 <= / 2 ^ 20) by (apply Pm; lia). replace (2 ^ 20) with 1048576 in U by ring.
  pose proof (P 24%nat) as P24. pose proof (P 150%nat) as P150. pose proof (P 23%nat) as P23. pose proof (P 50%nat) as P50.
  assert (et : 4 * / 2 ^ 150 <= (/ 2 ^ 24 * w') ^ 2).
  { apply Rle_trans with ((/ 2 ^ 24 * / 2 ^ 50) ^ 2); [|apply pow_incr; split; [apply Rmult_le_pos; lra|apply Rmult_le_compat_l; lra]]. rewrite <- Rinv_mult, <- pow_add, pow_inv, <- pow_mult. change ((24 + 50) * 2)%nat with 148%nat. change 150%nat with (2 + 148)%nat. rewrite pow_add, Rinv_mult. pose proof (P 148%nat). replace (/ 2 ^ 2) with (1 / 4) by field. lra. }
  assert (Pe : / 2 ^ 150 / / 2 ^ 24 = / 2 ^ 126). { change 150%nat with (126 + 24)%nat. rewrite pow_add, Rinv_mult. unfold Rdiv. rewrite Rmult_assoc, Rinv_r, Rmult_1_r by lra. reflexivity. }
  assert (E23 : / 2 ^ 23 = 2 * / 2 ^ 24) by (replace (2 ^ 24) with (2 * 2 ^ 23) by ring; rewrite Rinv_mult; field; apply Rgt_not_eq, pow_lt; lra). assert (E11 : / 2 ^ 8 = 65536 * / 2 ^ 24) by (replace (2 ^ 24) with (65536 * 2 ^ 8) by ring; rewrite Rinv_mult; field; apply Rgt_not_eq, pow_lt; lra).
  pose proof (power_pos (d ^ 2 / w' ^ 2) p') as T0. pose proof (Pm 126%nat 24%nat ltac:(lia)) as P126. pose proof (Pm 150%nat 25%nat ltac:(lia)) as P25. assert (E25 : / 2 ^ 25 = / 2 * / 2 ^ 24) by (replace (2 ^ 25) with (2 * 2 ^ 24) by ring; rewrite Rinv_mult; reflexivity).
  assert (pu : / 2 ^ 24 * p' <= / 2 ^ 24 * 10) by (apply Rmult_le_compat_l; lra). assert (pu0 : 0 <= / 2 ^ 24 * p') by (apply Rmult_le_pos; lra).
  assert (Z : steep_error (/ 2 ^ 24) (/ 2 ^ 23) (/ 2 ^ 23) (/ 2 ^ 150) p' (power (d ^ 2 / w' ^ 2) p') <= / 2 ^ 8).
  { unfold steep_error. rewrite Pe. assert ((32 * / 2 ^ 24 * p' + 2 * / 2 ^ 23) * power (d ^ 2 / w' ^ 2) p' <= (324 * / 2 ^ 24) * 128) by (apply Rmult_le_compat; lra). lra. }
  assert (Z0 : steep_error (/ 2 ^ 24) (/ 2 ^ 23) (/ 2 ^ 23) (/ 2 ^ 150) p' (power (d ^ 2 / w' ^ 2) p') <= 1 / 2). { eapply Rle_trans; [exact Z|]. apply Rle_trans with (/ 2 ^ 1); [apply Pm; lia|]. replace (2 ^ 1) with 2 by ring. lra. }
  pose proof (super_steep (/ 2 ^ 24) (/ 2 ^ 150) (2 ^ 24) l f_exp f_pow (/ 2 ^ 23) (/ 2 ^ 23) x0 y0 Am w p x y) as K. rewrite Hl in K. cbv zeta in K. fold x0' y0' A' w' p' in K. fold d in K.
  assert (V : 0 <= / 2 ^ 23 <= 1 / 2) by lra. specialize (K A ltac:(lra) ltac:(lra) ltac:(lra) Fe ltac:(lra) Fp V ltac:(lra) et ltac:(lra) ltac:(lra) Z0). eapply Rle_trans; [exact K|]. unfold Rdiv. apply Rplus_le_compat_r. rewrite Rmult_comm. apply Rmult_le_compat_l; [apply Rabs_pos|].
  assert (E10 : / 2 ^ 7 = 2 * / 2 ^ 8) by (replace (2 ^ 8) with (2 * 2 ^ 7) by ring; rewrite Rinv_mult; field; apply Rgt_not_eq, pow_lt; lra). lra.
Qed.
Lemma exp_114 t : 114 <= t -> exp (- t) <= / 2 ^ 152.
Proof.
  intros Ht. rewrite exp_Ropp. apply Rinv_le_contravar; [apply pow_lt; lra|]. apply Rle_trans with (exp (INR 38 * 3)).
  - assert (E : exp (INR 38 * 3) = exp 3 ^ 38) by (symmetry; apply pow_exp || (rewrite <- Rpower_pow by apply exp_pos; unfold Rpower; rewrite ln_exp; reflexivity)). rewrite E.
    assert (E3 : 2 ^ 4 <= exp 3). { replace 3 with (INR 30 * (1 / 10)) by (rewrite INR_IZR_INZ; cbn; lra). assert (Q : exp (INR 30 * (1 / 10)) = exp (1 / 10) ^ 30) by (symmetry; apply pow_exp || (rewrite <- Rpower_pow by apply exp_pos; unfold Rpower; rewrite ln_exp; reflexivity)). rewrite Q. apply Rle_trans with ((1 + 1 / 10) ^ 30); [lra|]. apply pow_incr. pose proof (exp_ineq1_le (1 / 10)). lra. }
    apply Rle_trans with ((2 ^ 4) ^ 38); [|apply pow_incr; split; [apply pow_le; lra|exact E3]]. rewrite <- pow_mult. apply Rle_pow; [lra|]. apply Nat.leb_le. reflexivity.
  - assert (INR 38 = 38) by (rewrite INR_IZR_INZ; reflexivity). destruct (Req_dec (INR 38 * 3) t) as [->|N]; [lra|left; apply exp_increasing; lra].
Qed.
Lemma far_single l f_exp Am t t' : z_rnd l = binary32 -> accurate_exp f_exp (/ 2 ^ 23) (/ 2 ^ 150) -> 114 <= t -> 114 <= t' ->
  Rabs (z_rnd l (z_rnd l Am * f_exp (- t')) - z_rnd l Am * exp (- t)) <= (4 * Rabs (binary32 Am) + 1) / 2 ^ 150.
Proof.
  intros Hl Fe Ht Ht'. rewrite Hl. set (A' := binary32 Am). pose proof binary32_arithmetic as A. assert (P : forall k, 0 < / 2 ^ k) by (intros; apply Rinv_0_lt_compat, pow_lt; lra).
  pose proof (exp_114 t Ht) as X. pose proof (exp_114 t' Ht') as X'. pose proof (exp_pos (- t)). pose proof (exp_pos (- t')).
  assert (Pm : forall a b, (b <= a)%nat -> / 2 ^ a <= / 2 ^ b). { intros a b Le. apply Rinv_le_contravar; [apply pow_lt; lra|]. apply Rle_pow; [lra|exact Le]. }
  assert (E52 : / 2 ^ 152 = / 4 * / 2 ^ 150) by (change 152%nat with (2 + 150)%nat; rewrite pow_add, Rinv_mult; f_equal; field). pose proof (P 150%nat) as e0. set (e := / 2 ^ 150) in *.
  assert (U : / 2 ^ 24 <= / 2 ^ 10) by (apply Pm; lia). replace (2 ^ 10) with 1024 in U by ring. assert (V : / 2 ^ 23 <= / 2 ^ 10) by (apply Pm; lia). replace (2 ^ 10) with 1024 in V by ring. pose proof (P 24%nat) as P24. pose proof (P 23%nat) as P23.
  pose proof (Fe (- t') ltac:(lra)) as K.
  assert (Y : Rabs (f_exp (- t') - exp (- t)) <= 2 * e).
  { apply Rcomplements.Rabs_le_between in K. assert (/ 2 ^ 23 * exp (- t') <= / 1024 * exp (- t')) by (apply Rmult_le_compat_r; lra). apply Rabs_le. lra. }
  assert (P1 : Rabs (A' * f_exp (- t') - A' * exp (- t)) <= Rabs A' * (2 * e)). { replace (A' * f_exp (- t') - A' * exp (- t)) with (A' * (f_exp (- t') - exp (- t))) by ring. rewrite Rabs_mult. apply Rmult_le_compat_l; [apply Rabs_pos|exact Y]. }
  pose proof (rnd_err (/ 2 ^ 24) (/ 2 ^ 150) (2 ^ 24) binary32 A ltac:(lra) _ _ _ P1) as R. eapply Rle_trans; [exact R|]. fold e. rewrite Rabs_mult, (Rabs_pos_eq (exp (- t))) by lra. pose proof (Rabs_pos A') as a0. set (a := Rabs A') in *.
  assert (aE : a * exp (- t) <= a * (/ 4 * e)) by (apply Rmult_le_compat_l; lra). assert (ae : 0 <= a * e) by (apply Rmult_le_pos; lra). assert (aE0 : 0 <= a * exp (- t)) by (apply Rmult_le_pos; lra).
  assert (/ 2 ^ 24 * (a * exp (- t)) <= / 1024 * (a * exp (- t))) by (apply Rmult_le_compat_r; lra). assert (/ 2 ^ 24 * (a * (2 * e)) <= / 1024 * (a * (2 * e))) by (apply Rmult_le_compat_r; [apply Rmult_le_pos; lra|lra]). unfold Rdiv. fold e. lra.
Qed.
Lemma everywhere_single l f_exp f_pow x0 y0 Am w p x y : z_rnd l = binary32 -> accurate_exp f_exp (/ 2 ^ 23) (/ 2 ^ 150) -> accurate_pow f_pow (/ 2 ^ 23) (/ 2 ^ 150) ->
  let x0' := binary32 x0 in let y0' := binary32 y0 in let A' := binary32 Am in let w' := binary32 w in let p' := binary32 p in let d := dist2 x0' y0' x y in
  / 2 ^ 50 <= w' -> 1 <= p' <= 10 ->
  Rabs (fl_super l f_exp f_pow x0 y0 Am w p x y - sg_mode A' w' p' d) <= Rabs (sg_mode A' w' p' d) / 2 ^ 7 + (4 * Rabs A' + 1) / 2 ^ 150.
Proof.
  intros Hl Fe Fp x0' y0' A' w' p' d Hw Hp. pose proof binary32_arithmetic as A. assert (P : forall k, 0 < / 2 ^ k) by (intros; apply Rinv_0_lt_compat, pow_lt; lra). pose proof (Rabs_pos A') as a0. pose proof (Rabs_pos (sg_mode A' w' p' d)) as g0.
  assert (Pm : forall a b, (b <= a)%nat -> / 2 ^ a <= / 2 ^ b). { intros a b Le. apply Rinv_le_contravar; [apply pow_lt; lra|]. apply Rle_pow; [lra|exact Le]. }
  pose proof (P 24%nat) as P24. pose proof (P 150%nat) as P150. pose proof (P 23%nat) as P23. pose proof (P 50%nat) as P50. pose proof (P 7%nat) as P7.
  assert (ext : (2 * Rabs A' + 1) / 2 ^ 150 <= (4 * Rabs A' + 1) / 2 ^ 150) by (unfold Rdiv; apply Rmult_le_compat_r; lra).
  destruct (Rle_dec (power (d ^ 2 / w' ^ 2) p') 128) as [T|T].
  - pose proof (steep_single_far l f_exp f_pow x0 y0 Am w p x y Hl Fe Fp) as K. cbv zeta in K. fold x0' y0' A' w' p' in K. fold d in K. specialize (K Hw Hp T). lra.
  - assert (U : / 2 ^ 24 <= / 2 ^ 20) by (apply Pm; lia). replace (2 ^ 20) with 1048576 in U by ring. assert (V : / 2 ^ 23 <= / 2 ^ 20) by (apply Pm; lia). replace (2 ^ 20) with 1048576 in V by ring. assert (W : / 2 ^ 150 <= / 2 ^ 25) by (apply Pm; lia). assert (E25 : / 2 ^ 25 = / 2 * / 2 ^ 24) by (replace (2 ^ 25) with (2 * 2 ^ 24) by ring; rewrite Rinv_mult; reflexivity).
    assert (et : 4 * / 2 ^ 150 <= (/ 2 ^ 24 * w') ^ 2).
    { apply Rle_trans with ((/ 2 ^ 24 * / 2 ^ 50) ^ 2); [|apply pow_incr; split; [apply Rmult_le_pos; lra|apply Rmult_le_compat_l; lra]]. rewrite <- Rinv_mult, <- pow_add, pow_inv, <- pow_mult. change ((24 + 50) * 2)%nat with 148%nat. change 150%nat with (2 + 148)%nat. rewrite pow_add, Rinv_mult. pose proof (P 148%nat). replace (/ 2 ^ 2) with (1 / 4) by field. lra. }
    pose proof (exponent (/ 2 ^ 24) (/ 2 ^ 150) (2 ^ 24) l f_exp f_pow (/ 2 ^ 23) x0 y0 Am w p x y) as K. rewrite Hl in K. fold x0' y0' A' w' p' in K. fold d in K. assert (Vv : 0 <= / 2 ^ 23 <= 1 / 2) by lra.
    assert (Q : exists t', fl_super l f_exp f_pow x0 y0 Am w p x y = binary32 (A' * f_exp (- t')) /\ 114 <= t').
    { set (t := power (d ^ 2 / w' ^ 2) p') in *. assert (pu : / 2 ^ 24 * p' <= / 2 ^ 24 * 10) by (apply Rmult_le_compat_l; lra). assert (pu0 : 0 <= / 2 ^ 24 * p') by (apply Rmult_le_pos; lra). assert (Pe : / 2 ^ 150 / / 2 ^ 24 = / 2 ^ 126). { change 150%nat with (126 + 24)%nat. rewrite pow_add, Rinv_mult. unfold Rdiv. rewrite Rmult_assoc, Rinv_r, Rmult_1_r by lra. reflexivity. } assert (W2 : / 2 ^ 126 <= / 2 ^ 24) by (apply Pm; lia). pose proof (P 126%nat) as P126.
      destruct (K A ltac:(lra) ltac:(lra) ltac:(lra) Vv ltac:(lra) et (32 * / 2 ^ 24 * p') (2 * / 2 ^ 126)) as (t' & E & T0 & D); [lra|lra| |intros s Hs; apply Fp; lra|].
      + intros s s' Hs Hs' Hd. rewrite <- Pe. apply power_close_steep; try assumption; lra.
      + exists t'. split; [exact E|]. apply Rcomplements.Rabs_le_between in D. assert ((32 * / 2 ^ 24 * p' + 2 * / 2 ^ 23) * t <= 1 / 100 * t) by (apply Rmult_le_compat_r; lra). lra. }
    destruct Q as (t' & E & T'). rewrite E. assert (Sg : sg_mode A' w' p' d = A' * exp (- power (d ^ 2 / w' ^ 2) p')) by (unfold d; rewrite sg_power by lra; replace (dist2 x0' y0' x y ^ 2 / w' ^ 2) with (((x - x0') / w') ^ 2 + ((y - y0') / w') ^ 2) by (rewrite dist2_sq; field; lra); reflexivity). rewrite Sg. pose proof (far_single l f_exp Am (power (d ^ 2 / w' ^ 2) p') t' Hl Fe ltac:(lra) T') as Z. rewrite Hl in Z. fold A' in Z. clear g0. assert (0 <= Rabs (A' * exp (- power (d ^ 2 / w' ^ 2) p')) / 2 ^ 7) by (apply Rmult_le_pos; [apply Rabs_pos|lra]). lra.
Qed.
