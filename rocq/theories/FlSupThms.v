(** Theorems on the rounding errors of super-Gaussian profiles in the form they are stated in PropsFlSup.v. *)
From Coq Require Import Reals ZArith List Bool Lia Lra Psatz.
From Verif Require Import Cx Sums PyBase ProfileModel ModeSpec ModeFacts ModeThms FloatModel FloatSpec FloatFacts FlSimSpec FlSimFacts WideSpec FlAnaModel FlAnaFacts FlAnaThms FlZernModel FlZernThms FlHermModel FlHermSpec FlHermFacts FlHermThms FlSupModel FlSupSpec FlSupFacts.
Import ListNotations.
Open Scope R_scope.

Lemma sg_power a w p x0 y0 x y : 0 < w -> sg_mode a w p (dist2 x0 y0 x y) = a * exp (- power (((x - x0) / w) ^ 2 + ((y - y0) / w) ^ 2) p).
Proof.
  intros Hw. unfold sg_mode, power. replace (((x - x0) / w) ^ 2 + ((y - y0) / w) ^ 2) with (dist2 x0 y0 x y ^ 2 / w ^ 2) by (rewrite dist2_sq; field; lra).
  destruct (Req_EM_T (dist2 x0 y0 x y) 0) as [E|E].
  - rewrite E. replace (0 ^ 2 / w ^ 2) with 0 by (field; lra). destruct (Rlt_dec 0 0); [lra|]. rewrite Ropp_0, exp_0. ring.
  - destruct (Rlt_dec 0 (dist2 x0 y0 x y ^ 2 / w ^ 2)) as [G|G]; [reflexivity|]. exfalso. apply G. pose proof (dist2_pos x0 y0 x y). apply Rdiv_lt_0_compat; apply pow_lt; lra.
Qed.
Lemma super_value u eta B l f_exp f_pow ee vp x0 y0 Am w p x y X Y :
  arithmetic u eta B (z_rnd l) -> 0 <= u <= 1 / 1000 -> 0 <= eta <= u -> accurate_exp f_exp ee eta -> 0 <= ee -> accurate_pow f_pow vp eta -> 0 <= vp ->
  let x0' := z_rnd l x0 in let y0' := z_rnd l y0 in let A' := z_rnd l Am in let w' := z_rnd l w in let p' := z_rnd l p in
  0 < w' -> eta <= u * w' -> 1 <= p' -> 56 * u * p' <= 1 -> 1 <= X -> 1 <= Y -> Rabs ((x - x0') / w') <= X -> Rabs ((y - y0') / w') <= Y -> super_error u ee vp eta p' X Y <= 1 / 2 ->
  Rabs (fl_super l f_exp f_pow x0 y0 Am w p x y - sg_mode A' w' p' (dist2 x0' y0' x y)) <=
    2 * super_error u ee vp eta p' X Y * Rabs (sg_mode A' w' p' (dist2 x0' y0' x y)) + (2 * Rabs A' + 1) * eta.
Proof.
  intros A Hu He Fe Hee Fp Hvp x0' y0' A' w' p' Hw Ew Hp Pp X1 Y1 HX HY Hz. rewrite sg_power by exact Hw. unfold fl_super. fold A' w' p' x0' y0'.
  pose proof (exponent_part u eta B l A) as EP. specialize (EP ltac:(lra) He). pose proof EP as EP'. 
  destruct (EP' x0 y0 w x y X Y Hw Ew X1 Y1 HX HY) as [Se S0]. cbv zeta in Se, S0. fold x0' y0' w' in Se, S0.
  set (s' := z_rnd l (z_rnd l (_ ^ 2) + z_rnd l (_ ^ 2))) in *. set (xn := (x - x0') / w') in *. set (yn := (y - y0') / w') in *. set (s := xn ^ 2 + yn ^ 2) in *.
  assert (sq : forall t T, 1 <= T -> Rabs t <= T -> t ^ 2 <= T ^ 2). { intros t T HT Ht. rewrite <- (pow2_abs t). apply pow_incr. split; [apply Rabs_pos|exact Ht]. } pose proof (sq xn X X1 HX) as Qx. pose proof (sq yn Y Y1 HY) as Qy.
  pose proof (pow2_ge_0 xn). pose proof (pow2_ge_0 yn). assert (XY : 0 < X ^ 2 + Y ^ 2) by nra. set (SS := X ^ 2 + Y ^ 2) in *. assert (Hs : 0 <= s <= SS) by (unfold s, SS; lra).
  assert (D1 : Rabs (s' - s) <= 28 * u * SS) by (eapply Rle_trans; [exact Se|]; apply Rmult_le_compat_r; [lra|apply sixth, Hu]).
  pose proof (power_close s s' SS p' (28 * u) Hp Hs S0 XY ltac:(lra) ltac:(lra) D1) as D2. destruct (Fp s' p' S0 Hp) as [F0 F1]. pose proof (power_le s SS p' Hp Hs XY) as PL. pose proof (power_pos s p') as P0. pose proof (power_pos s' p') as P0'.
  set (T := Rpower SS p') in *. set (t := power s p') in *. set (q := power s' p') in *. set (t' := f_pow s' p') in *. unfold super_error in *. fold SS in Hz |- *. fold T in Hz |- *. set (d := (56 * u * p' + 2 * vp) * T + eta).
  assert (T0 : 0 < T) by apply exp_pos. assert (D3 : Rabs (t' - t) <= d).
  { apply Rcomplements.Rabs_le_between in F1, D2. assert (q <= 2 * T). { assert (56 * u * p' * T <= 1 * T) by (apply Rmult_le_compat_r; lra). lra. } assert (vp * q <= vp * (2 * T)) by (apply Rmult_le_compat_l; lra). unfold d. apply Rabs_le. lra. }
  pose proof (exp_close f_exp ee eta t t' d Fe Hee F0 D3) as K. set (E := exp (- t)) in *. assert (E0 : 0 < E) by apply exp_pos. set (E2 := f_exp (- t')) in *. assert (d0 : 0 <= d) by (pose proof (Rabs_pos (t' - t)); lra).
  set (z := 4 * u + (56 * u * p' + 2 * vp) * T + eta + ee) in *. assert (Hzd : z = 4 * u + d + ee) by (unfold z, d; ring). set (h := exp d * (1 + ee)) in *.
  assert (ed : 1 <= exp d) by (pose proof (exp_ineq1_le d); lra). assert (h1 : 1 <= h) by (unfold h; nra).
  assert (Tz : (1 + 4 * u) * h <= 1 + 2 * z).
  { apply Rle_trans with (exp z); [|apply exp_small; lra]. rewrite Hzd. replace (4 * u + d + ee) with (4 * u + (d + ee)) by ring. rewrite !exp_plus. pose proof (exp_ineq1_le (4 * u)). pose proof (exp_ineq1_le ee). apply Rmult_le_compat; try lra. unfold h. apply Rmult_le_compat_l; lra. }
  assert (P1 : Rabs (A' * E2 - A' * E) <= Rabs A' * ((h - 1) * E + eta)). { replace (A' * E2 - A' * E) with (A' * (E2 - E)) by ring. rewrite Rabs_mult. apply Rmult_le_compat_l; [apply Rabs_pos|exact K]. }
  pose proof (rnd_err u eta B (z_rnd l) A ltac:(lra) _ _ _ P1) as R. eapply Rle_trans; [exact R|]. rewrite Rabs_mult, (Rabs_pos_eq E) by lra. pose proof (Rabs_pos A') as a0. set (a := Rabs A') in *.
  assert (aE : 0 <= a * E) by (apply Rmult_le_pos; lra). assert (ae : 0 <= a * eta) by (apply Rmult_le_pos; lra). replace (a * ((h - 1) * E + eta)) with ((h - 1) * (a * E) + a * eta) by ring. set (g := a * E) in *. set (e := a * eta) in *.
  assert (u * e <= 1 / 1000 * e) by (apply Rmult_le_compat_r; lra). assert ((1 + 4 * u) * h * g <= (1 + 2 * z) * g) by (apply Rmult_le_compat_r; lra). assert (0 <= u * (h * g)) by (apply Rmult_le_pos; [lra|apply Rmult_le_pos; lra]).
  replace ((2 * a + 1) * eta) with (2 * e + eta) by (unfold e; ring). lra.
Qed.
Lemma no_rounding l x0 y0 Am w p x y : (forall t, z_rnd l t = t) -> 0 < w -> fl_super l exp power x0 y0 Am w p x y = sg_mode Am w p (dist2 x0 y0 x y).
Proof. intros Hl Hw. rewrite sg_power by exact Hw. unfold fl_super. rewrite !Hl. reflexivity. Qed.
Lemma pow_case : accurate_pow (fun s p => binary64 (power s p)) (/ 2 ^ 52) (/ 2 ^ 1075) /\ power 4 2 = 16 /\ power 0 2 = 0.
Proof.
  split; [|split].
  - intros s p Hs Hp. pose proof binary64_arithmetic as A. pose proof (power_pos s p) as P0. split.
    + assert (Z0 : binary64 0 = 0). { pose proof (ar_odd _ _ _ _ A 0) as O. rewrite Ropp_0 in O. lra. } rewrite <- Z0. apply (ar_monotone _ _ _ _ A), P0.
    + pose proof (ar_error _ _ _ _ A (power s p)) as K. rewrite (Rabs_pos_eq (power s p)) in K by lra. assert (/ 2 ^ 53 <= / 2 ^ 52) by (apply Rinv_le_contravar; [apply pow_lt; lra|apply Rle_pow; [lra|lia]]). assert (/ 2 ^ 53 * power s p <= / 2 ^ 52 * power s p) by (apply Rmult_le_compat_r; lra). lra.
  - unfold power. destruct (Rlt_dec 0 4); [|lra]. change 2 with (INR 2). rewrite Rpower_pow by lra. cbn. lra.
  - unfold power. destruct (Rlt_dec 0 0); [lra|reflexivity].
Qed.
Lemma super_double l f_exp f_pow x0 y0 Am w p x y : z_rnd l = binary64 -> accurate_exp f_exp (/ 2 ^ 52) (/ 2 ^ 1075) -> accurate_pow f_pow (/ 2 ^ 52) (/ 2 ^ 1075) ->
  let x0' := binary64 x0 in let y0' := binary64 y0 in let A' := binary64 Am in let w' := binary64 w in let p' := binary64 p in
  / 2 ^ 1022 <= w' -> 1 <= p' <= 10 -> Rabs ((x - x0') / w') <= 1 -> Rabs ((y - y0') / w') <= 1 ->
  Rabs (fl_super l f_exp f_pow x0 y0 Am w p x y - sg_mode A' w' p' (dist2 x0' y0' x y)) <= Rabs (sg_mode A' w' p' (dist2 x0' y0' x y)) / 2 ^ 32 + (2 * Rabs A' + 1) / 2 ^ 1075.
Proof.
  intros Hl Fe Fp x0' y0' A' w' p' Hw Hp HX HY. pose proof binary64_arithmetic as A. assert (P : forall k, 0 < / 2 ^ k) by (intros; apply Rinv_0_lt_compat, pow_lt; lra).
  assert (Pm : forall a b, (b <= a)%nat -> / 2 ^ a <= / 2 ^ b). { intros a b Le. apply Rinv_le_contravar; [apply pow_lt; lra|]. apply Rle_pow; [lra|exact Le]. }
  assert (U : / 2 ^ 53 <= 1 / 1000). { apply Rle_trans with (/ 2 ^ 10); [apply Pm; lia|]. replace (2 ^ 10) with 1024 by ring. lra. }
  assert (et : / 2 ^ 1075 <= / 2 ^ 53 * w'). { apply Rle_trans with (/ 2 ^ 53 * / 2 ^ 1022); [|apply Rmult_le_compat_l; [apply Rlt_le, P|exact Hw]]. rewrite <- Rinv_mult, <- pow_add. apply Rle_refl. }
  pose proof (P 53%nat) as P53. pose proof (Pm 1075%nat 53%nat ltac:(lia)) as Pe. pose proof (P 1075%nat) as P1075. pose proof (P 52%nat) as P52. pose proof (P 1022%nat) as P1022.
  assert (E52 : / 2 ^ 52 = 2 * / 2 ^ 53) by (replace (2 ^ 53) with (2 * 2 ^ 52) by ring; rewrite Rinv_mult; field; apply Rgt_not_eq, pow_lt; lra). assert (E33 : / 2 ^ 33 = 1048576 * / 2 ^ 53) by (replace (2 ^ 53) with (1048576 * 2 ^ 33) by ring; rewrite Rinv_mult; field; apply Rgt_not_eq, pow_lt; lra).
  assert (T : Rpower (1 ^ 2 + 1 ^ 2) p' <= 1024). { replace (1 ^ 2 + 1 ^ 2) with 2 by ring. apply Rle_trans with (Rpower 2 (INR 10)); [|rewrite Rpower_pow by lra; right; ring]. apply Rle_Rpower; [lra|]. rewrite INR_IZR_INZ. cbn. lra. } assert (T0 : 0 < Rpower (1 ^ 2 + 1 ^ 2) p') by apply exp_pos.
  assert (pu : 56 * / 2 ^ 53 * p' <= 560 * / 2 ^ 53) by (assert (/ 2 ^ 53 * p' <= / 2 ^ 53 * 10) by (apply Rmult_le_compat_l; lra); lra). assert (pu0 : 0 <= 56 * / 2 ^ 53 * p') by (apply Rmult_le_pos; lra).
  assert (U2 : 560 * / 2 ^ 53 <= 1 / 1000). { assert (/ 2 ^ 53 <= / 2 ^ 20) by (apply Pm; lia). replace (2 ^ 20) with 1048576 in H by ring. lra. }
  assert (Z : super_error (/ 2 ^ 53) (/ 2 ^ 52) (/ 2 ^ 52) (/ 2 ^ 1075) p' 1 1 <= / 2 ^ 33).
  { unfold super_error. assert ((56 * / 2 ^ 53 * p' + 2 * / 2 ^ 52) * Rpower (1 ^ 2 + 1 ^ 2) p' <= (564 * / 2 ^ 53) * 1024) by (apply Rmult_le_compat; lra). lra. }
  assert (Z0 : super_error (/ 2 ^ 53) (/ 2 ^ 52) (/ 2 ^ 52) (/ 2 ^ 1075) p' 1 1 <= 1 / 2). { eapply Rle_trans; [exact Z|]. apply Rle_trans with (/ 2 ^ 1); [apply Pm; lia|]. replace (2 ^ 1) with 2 by ring. lra. }
  pose proof (super_value (/ 2 ^ 53) (/ 2 ^ 1075) (2 ^ 53) l f_exp f_pow (/ 2 ^ 52) (/ 2 ^ 52) x0 y0 Am w p x y 1 1) as K. rewrite Hl in K. cbv zeta in K. fold x0' y0' A' w' p' in K.
  specialize (K A ltac:(lra) ltac:(lra) Fe ltac:(lra) Fp ltac:(lra) ltac:(lra) et ltac:(lra) ltac:(lra) ltac:(lra) ltac:(lra) HX HY Z0). eapply Rle_trans; [exact K|]. unfold Rdiv. apply Rplus_le_compat_r. rewrite Rmult_comm. apply Rmult_le_compat_l; [apply Rabs_pos|].
  assert (E32 : / 2 ^ 32 = 2 * / 2 ^ 33) by (replace (2 ^ 33) with (2 * 2 ^ 32) by ring; rewrite Rinv_mult; field; apply Rgt_not_eq, pow_lt; lra). lra.
Qed.
