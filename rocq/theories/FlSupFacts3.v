(** Rounding errors of super-Gaussian profiles with powers of at least 1, everywhere in the plane. *)
From Coq Require Import Reals ZArith List Bool Lia Lra Psatz.
From Verif Require Import Cx Sums PyBase ProfileModel ModeSpec ModeFacts ModeThms FloatModel FloatSpec FloatFacts FlSimSpec FlSimFacts WideSpec FlAnaModel FlAnaFacts FlAnaThms FlZernModel FlZernThms FlHermModel FlHermSpec FlHermFacts FlHermThms FlSupModel FlSupSpec FlSupFacts FlSupThms FlSupFacts2.
Import ListNotations.
Open Scope R_scope.

Lemma power_one p : power 1 p = 1.
Proof. unfold power. destruct (Rlt_dec 0 1); [|lra]. unfold Rpower. rewrite ln_1, Rmult_0_r. apply exp_0. Qed.
Lemma power_steep x p : 0 <= x <= 1 -> 1 <= p -> power x p <= x.
Proof.
  intros Hx Hp. unfold power. destruct (Rlt_dec 0 x) as [P|P]; [|lra]. unfold Rpower. rewrite <- (exp_ln x P) at 2. assert (L : ln x <= 0). { rewrite <- ln_1. destruct (Req_dec x 1) as [->|N]; [lra|left; apply ln_increasing; lra]. }
  assert (0 <= (p - 1) * - ln x) by (apply Rmult_le_pos; lra). destruct (Req_dec (p * ln x) (ln x)) as [->|N]; [lra|left; apply exp_increasing; lra].
Qed.
Lemma up_factor x p : 0 <= x -> 0 <= p -> x * p <= 1 / 2 -> power (1 + x) p <= 1 + 2 * (x * p).
Proof.
  intros Hx Hp H. unfold power. destruct (Rlt_dec 0 (1 + x)); [|lra]. apply Rle_trans with (exp (x * p)); [|apply exp_small; split; [apply Rmult_le_pos; lra|lra]]. unfold Rpower.
  assert (L : ln (1 + x) <= x). { pose proof (exp_ineq1_le x) as E. apply Rle_trans with (ln (exp x)); [|rewrite ln_exp; lra]. destruct (Req_dec (1 + x) (exp x)) as [<-|N]; [lra|left; apply ln_increasing; lra]. }
  assert (K : p * ln (1 + x) <= x * p) by (rewrite Rmult_comm; apply Rmult_le_compat_r; lra). destruct (Req_dec (p * ln (1 + x)) (x * p)) as [->|N]; [lra|left; apply exp_increasing; lra].
Qed.
Lemma down_factor x p : 0 <= x <= 1 / 2 -> 0 <= p -> 1 - 2 * (x * p) <= power (1 - x) p.
Proof.
  intros Hx Hp. unfold power. destruct (Rlt_dec 0 (1 - x)) as [P|]; [|lra]. unfold Rpower.
  assert (E : exp (- (2 * x)) <= 1 - x). { rewrite exp_Ropp. pose proof (exp_ineq1_le (2 * x)) as Q. apply Rle_trans with (/ (1 + 2 * x)); [apply Rinv_le_contravar; lra|]. apply Rmult_le_reg_r with (1 + 2 * x); [lra|]. rewrite Rinv_l by lra. assert (0 <= x * (1 - 2 * x)) by (apply Rmult_le_pos; lra). lra. }
  assert (L : - (2 * x) <= ln (1 - x)). { rewrite <- (ln_exp (- (2 * x))). destruct (Req_dec (exp (- (2 * x))) (1 - x)) as [->|N]; [lra|left; apply ln_increasing; [apply exp_pos|lra]]. }
  assert (K : p * - (2 * x) <= p * ln (1 - x)) by (apply Rmult_le_compat_l; lra). pose proof (exp_ineq1_le (p * ln (1 - x))) as Q. lra.
Qed.
Lemma power_close_steep s s' p u o : 1 <= p -> 0 <= s -> 0 <= s' -> 0 < u <= 1 / 1000 -> 32 * u * p <= 1 -> 0 <= o -> 2 * o <= u -> Rabs (s' - s) <= 8 * u * s + 8 * o ->
  Rabs (power s' p - power s p) <= 32 * u * p * power s p + 2 * (o / u).
Proof.
  intros Hp Hs Hs' Hu Hup Ho Hou H. apply Rcomplements.Rabs_le_between in H. pose proof (power_pos s p) as P. assert (I : 0 < / u) by (apply Rinv_0_lt_compat; lra). assert (k0 : 0 <= o / u) by (apply Rmult_le_pos; lra). assert (us : 0 <= u * s) by (apply Rmult_le_pos; lra).
  destruct (Rle_dec o (u * s)) as [C|C].
  - assert (U : power s' p <= (1 + 2 * (16 * u * p)) * power s p). { apply Rle_trans with (power ((1 + 16 * u) * s) p); [apply power_mono; lra|]. rewrite power_mult by lra. apply Rmult_le_compat_r; [exact P|]. apply up_factor; lra. }
    assert (L : (1 - 2 * (16 * u * p)) * power s p <= power s' p). { apply Rle_trans with (power ((1 - 16 * u) * s) p); [rewrite power_mult by lra; apply Rmult_le_compat_r; [exact P|apply down_factor; lra]|]. apply power_mono; [lra|]. split; [apply Rmult_le_pos; lra|lra]. }
    apply Rabs_le. lra.
  - assert (S1 : s <= o / u). { apply Rmult_le_reg_l with u; [lra|]. replace (u * (o / u)) with o by (field; lra). lra. } assert (ou : o = u * (o / u)) by (field; lra). set (k := o / u) in *. assert (uk : u * k <= 1 / 1000 * k) by (apply Rmult_le_compat_r; lra). assert (uS : u * s <= 1 / 1000 * s) by (apply Rmult_le_compat_r; lra).
    assert (k2 : 2 * k <= 1). { apply Rmult_le_reg_l with u; [lra|]. lra. } assert (A1 : power s p <= 2 * k) by (apply Rle_trans with s; [apply power_steep; lra|lra]). assert (A2 : power s' p <= 2 * k) by (apply Rle_trans with s'; [apply power_steep; lra|lra]). pose proof (power_pos s' p).
    assert (0 <= 32 * u * p * power s p) by (repeat apply Rmult_le_pos; lra). apply Rabs_le. lra.
Qed.
Lemma super_steep u eta B l f_exp f_pow ee vp x0 y0 Am w p x y :
  arithmetic u eta B (z_rnd l) -> 0 < u <= 1 / 1000 -> 0 <= eta -> 2 * eta <= u -> accurate_exp f_exp ee eta -> 0 <= ee -> accurate_pow f_pow vp eta -> 0 <= vp <= 1 / 2 ->
  let x0' := z_rnd l x0 in let y0' := z_rnd l y0 in let A' := z_rnd l Am in let w' := z_rnd l w in let p' := z_rnd l p in
  0 < w' -> 4 * eta <= (u * w') ^ 2 -> 1 <= p' -> 32 * u * p' <= 1 -> let d := dist2 x0' y0' x y in let z := steep_error u ee vp eta p' (power (d ^ 2 / w' ^ 2) p') in z <= 1 / 2 ->
  Rabs (fl_super l f_exp f_pow x0 y0 Am w p x y - sg_mode A' w' p' d) <= 2 * z * Rabs (sg_mode A' w' p' d) + (2 * Rabs A' + 1) * eta.
Proof.
  intros A Hu He0 He Fe Hee Fp Hvp x0' y0' A' w' p' Hw Ew Hp Hup dd z Hz. unfold dd in *. rewrite sg_power by exact Hw. unfold fl_super. fold A' w' p' x0' y0'.
  destruct (base_err u eta B l A Hu ltac:(lra) w' Hw Ew (x - x0') (y - y0')) as [S0 Se]. assert (Sq : dist2 x0' y0' x y ^ 2 / w' ^ 2 = ((x - x0') / w') ^ 2 + ((y - y0') / w') ^ 2) by (rewrite dist2_sq; field; lra).
  set (s' := z_rnd l (z_rnd l (_ ^ 2) + z_rnd l (_ ^ 2))) in *. set (s := ((x - x0') / w') ^ 2 + ((y - y0') / w') ^ 2) in *. assert (Hs : 0 <= s) by (unfold s; pose proof (pow2_ge_0 ((x - x0') / w')); pose proof (pow2_ge_0 ((y - y0') / w')); lra).
  pose proof (power_close_steep s s' p' u eta Hp Hs S0 Hu Hup He0 He Se) as D2. destruct (Fp s' p' S0 Hp) as [F0 F1]. pose proof (power_pos s p') as P0. pose proof (power_pos s' p') as P0'.
  assert (I : 0 < / u) by (apply Rinv_0_lt_compat; lra). assert (P8 : 0 <= 2 * (eta / u)) by (apply Rmult_le_pos; [lra|apply Rmult_le_pos; lra]). assert (c0 : 0 <= 32 * u * p') by (repeat apply Rmult_le_pos; lra).
  set (t := power s p') in *. set (q := power s' p') in *. set (t' := f_pow s' p') in *. set (k := 2 * (eta / u)) in *. set (c := 32 * u * p') in *. set (d := (c + 2 * vp) * t + 2 * k + eta).
  assert (D3 : Rabs (t' - t) <= d).
  { apply Rcomplements.Rabs_le_between in F1, D2. assert (ut : 0 <= c * t <= 1 * t) by (split; [apply Rmult_le_pos; lra|apply Rmult_le_compat_r; lra]). assert (q <= 2 * t + k) by lra. assert (vq : vp * q <= vp * (2 * t + k)) by (apply Rmult_le_compat_l; lra). assert (vp * k <= 1 / 2 * k) by (apply Rmult_le_compat_r; lra). unfold d. apply Rabs_le. lra. }
  pose proof (exp_close f_exp ee eta t t' d Fe Hee F0 D3) as K. set (E := exp (- t)) in *. assert (E0 : 0 < E) by apply exp_pos. set (E2 := f_exp (- t')) in *. assert (d0 : 0 <= d) by (pose proof (Rabs_pos (t' - t)); lra).
  assert (Hzd : z = 4 * u + d + ee) by (unfold z, steep_error, d, k, c, t; rewrite Sq; ring). clearbody z. set (hh := exp d * (1 + ee)) in *.
  assert (ed : 1 <= exp d) by (pose proof (exp_ineq1_le d); lra). assert (h1 : 1 <= hh) by (unfold hh; nra).
  assert (Tz : (1 + 4 * u) * hh <= 1 + 2 * z).
  { apply Rle_trans with (exp z); [|apply exp_small; lra]. rewrite Hzd. replace (4 * u + d + ee) with (4 * u + (d + ee)) by ring. rewrite !exp_plus. pose proof (exp_ineq1_le (4 * u)). pose proof (exp_ineq1_le ee). apply Rmult_le_compat; try lra. unfold hh. apply Rmult_le_compat_l; lra. }
  assert (P1 : Rabs (A' * E2 - A' * E) <= Rabs A' * ((hh - 1) * E + eta)). { replace (A' * E2 - A' * E) with (A' * (E2 - E)) by ring. rewrite Rabs_mult. apply Rmult_le_compat_l; [apply Rabs_pos|exact K]. }
  pose proof (rnd_err u eta B (z_rnd l) A ltac:(lra) _ _ _ P1) as R. eapply Rle_trans; [exact R|]. rewrite Rabs_mult, (Rabs_pos_eq E) by lra. pose proof (Rabs_pos A') as a0. set (a := Rabs A') in *.
  assert (aE : 0 <= a * E) by (apply Rmult_le_pos; lra). assert (ae : 0 <= a * eta) by (apply Rmult_le_pos; lra). replace (a * ((hh - 1) * E + eta)) with ((hh - 1) * (a * E) + a * eta) by ring. set (g := a * E) in *. set (e := a * eta) in *.
  assert (u * e <= 1 / 1000 * e) by (apply Rmult_le_compat_r; lra). assert ((1 + 4 * u) * hh * g <= (1 + 2 * z) * g) by (apply Rmult_le_compat_r; lra). assert (0 <= u * (hh * g)) by (apply Rmult_le_pos; [lra|apply Rmult_le_pos; lra]).
  replace ((2 * a + 1) * eta) with (2 * e + eta) by (unfold e; ring). lra.
Qed.
Lemma steep_double l f_exp f_pow x0 y0 Am w p x y : z_rnd l = binary64 -> accurate_exp f_exp (/ 2 ^ 52) (/ 2 ^ 1075) -> accurate_pow f_pow (/ 2 ^ 52) (/ 2 ^ 1075) ->
  let x0' := binary64 x0 in let y0' := binary64 y0 in let A' := binary64 Am in let w' := binary64 w in let p' := binary64 p in let d := dist2 x0' y0' x y in
  / 2 ^ 483 <= w' -> 1 <= p' <= 100 -> power (d ^ 2 / w' ^ 2) p' <= 1024 ->
  Rabs (fl_super l f_exp f_pow x0 y0 Am w p x y - sg_mode A' w' p' d) <= Rabs (sg_mode A' w' p' d) / 2 ^ 30 + (2 * Rabs A' + 1) / 2 ^ 1075.
Proof.
  intros Hl Fe Fp x0' y0' A' w' p' d Hw Hp HT. pose proof binary64_arithmetic as A. assert (P : forall k, 0 < / 2 ^ k) by (intros; apply Rinv_0_lt_compat, pow_lt; lra).
  assert (Pm : forall a b, (b <= a)%nat -> / 2 ^ a <= / 2 ^ b). { intros a b Le. apply Rinv_le_contravar; [apply pow_lt; lra|]. apply Rle_pow; [lra|exact Le]. }
  assert (U : / 2 ^ 53 <= / 2 ^ 20) by (apply Pm; lia). replace (2 ^ 20) with 1048576 in U by ring.
  pose proof (P 53%nat) as P53. pose proof (P 1075%nat) as P1075. pose proof (P 52%nat) as P52. pose proof (P 483%nat) as P483.
  assert (et : 4 * / 2 ^ 1075 <= (/ 2 ^ 53 * w') ^ 2).
  { apply Rle_trans with ((/ 2 ^ 53 * / 2 ^ 483) ^ 2); [|apply pow_incr; split; [apply Rmult_le_pos; lra|apply Rmult_le_compat_l; lra]]. rewrite <- Rinv_mult, <- pow_add, pow_inv, <- pow_mult. change ((53 + 483) * 2)%nat with 1072%nat. change 1075%nat with (3 + 1072)%nat. rewrite pow_add, Rinv_mult. pose proof (P 1072%nat). replace (/ 2 ^ 3) with (1 / 8) by field. lra. }
  assert (Pe : / 2 ^ 1075 / / 2 ^ 53 = / 2 ^ 1022). { change 1075%nat with (1022 + 53)%nat. rewrite pow_add, Rinv_mult. unfold Rdiv. rewrite Rmult_assoc, Rinv_r, Rmult_1_r by lra. reflexivity. }
  assert (E52 : / 2 ^ 52 = 2 * / 2 ^ 53) by (replace (2 ^ 53) with (2 * 2 ^ 52) by ring; rewrite Rinv_mult; field; apply Rgt_not_eq, pow_lt; lra). assert (E31 : / 2 ^ 31 = 4194304 * / 2 ^ 53) by (replace (2 ^ 53) with (4194304 * 2 ^ 31) by ring; rewrite Rinv_mult; field; apply Rgt_not_eq, pow_lt; lra).
  pose proof (power_pos (d ^ 2 / w' ^ 2) p') as T0. pose proof (Pm 1022%nat 53%nat ltac:(lia)) as P1022. pose proof (Pm 1075%nat 54%nat ltac:(lia)) as P54. assert (E54 : / 2 ^ 54 = / 2 * / 2 ^ 53) by (replace (2 ^ 54) with (2 * 2 ^ 53) by ring; rewrite Rinv_mult; reflexivity).
  assert (pu : / 2 ^ 53 * p' <= / 2 ^ 53 * 100) by (apply Rmult_le_compat_l; lra). assert (pu0 : 0 <= / 2 ^ 53 * p') by (apply Rmult_le_pos; lra).
  assert (Z : steep_error (/ 2 ^ 53) (/ 2 ^ 52) (/ 2 ^ 52) (/ 2 ^ 1075) p' (power (d ^ 2 / w' ^ 2) p') <= / 2 ^ 31).
  { unfold steep_error. rewrite Pe. assert ((32 * / 2 ^ 53 * p' + 2 * / 2 ^ 52) * power (d ^ 2 / w' ^ 2) p' <= (3204 * / 2 ^ 53) * 1024) by (apply Rmult_le_compat; lra). lra. }
  assert (Z0 : steep_error (/ 2 ^ 53) (/ 2 ^ 52) (/ 2 ^ 52) (/ 2 ^ 1075) p' (power (d ^ 2 / w' ^ 2) p') <= 1 / 2). { eapply Rle_trans; [exact Z|]. apply Rle_trans with (/ 2 ^ 1); [apply Pm; lia|]. replace (2 ^ 1) with 2 by ring. lra. }
  pose proof (super_steep (/ 2 ^ 53) (/ 2 ^ 1075) (2 ^ 53) l f_exp f_pow (/ 2 ^ 52) (/ 2 ^ 52) x0 y0 Am w p x y) as K. rewrite Hl in K. cbv zeta in K. fold x0' y0' A' w' p' in K. fold d in K.
  assert (V : 0 <= / 2 ^ 52 <= 1 / 2) by lra. specialize (K A ltac:(lra) ltac:(lra) ltac:(lra) Fe ltac:(lra) Fp V ltac:(lra) et ltac:(lra) ltac:(lra) Z0). eapply Rle_trans; [exact K|]. unfold Rdiv. apply Rplus_le_compat_r. rewrite Rmult_comm. apply Rmult_le_compat_l; [apply Rabs_pos|].
  assert (E30 : / 2 ^ 30 = 2 * / 2 ^ 31) by (replace (2 ^ 31) with (2 * 2 ^ 30) by ring; rewrite Rinv_mult; field; apply Rgt_not_eq, pow_lt; lra). lra.
Qed.
