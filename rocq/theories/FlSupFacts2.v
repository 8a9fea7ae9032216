(** Rounding errors of super-Gaussian profiles with powers up to 1. *)
From Coq Require Import Reals ZArith List Bool Lia Lra Psatz.
From Verif Require Import Cx Sums PyBase ProfileModel ModeSpec ModeFacts ModeThms FloatModel FloatSpec FloatFacts FlSimSpec FlSimFacts WideSpec FlAnaModel FlAnaFacts FlAnaThms FlZernModel FlZernThms FlHermModel FlHermSpec FlHermFacts FlHermThms FlSupModel FlSupSpec FlSupFacts FlSupThms.
Import ListNotations.
Open Scope R_scope.

Lemma power_mono a b p : 0 < p -> 0 <= a <= b -> power a p <= power b p.
Proof.
  intros Hp H. unfold power. destruct (Rlt_dec 0 a); [|destruct (Rlt_dec 0 b); [left; apply exp_pos|lra]]. destruct (Rlt_dec 0 b); [|lra]. apply Rle_Rpower_l; lra.
Qed.
Lemma power_mult a b p : 0 <= a -> 0 <= b -> power (a * b) p = power a p * power b p.
Proof.
  intros Ha Hb. unfold power. destruct (Rlt_dec 0 a) as [A|A].
  - destruct (Rlt_dec 0 b) as [B|B].
    + destruct (Rlt_dec 0 (a * b)) as [C|C]; [symmetry; apply Rpower_mult_distr; assumption|]. exfalso. apply C. apply Rmult_lt_0_compat; assumption.
    + replace b with 0 by lra. rewrite Rmult_0_r. destruct (Rlt_dec 0 0); [lra|ring].
  - replace a with 0 by lra. rewrite Rmult_0_l. destruct (Rlt_dec 0 0); [lra|]. ring.
Qed.
Lemma power_below x p : 0 <= x <= 1 -> 0 < p <= 1 -> x <= power x p.
Proof.
  intros Hx Hp. unfold power. destruct (Rlt_dec 0 x) as [P|P]; [|lra]. unfold Rpower. rewrite <- (exp_ln x P) at 1. assert (L : ln x <= 0). { rewrite <- ln_1. destruct (Req_dec x 1) as [->|N]; [lra|left; apply ln_increasing; lra]. }
  assert (0 <= (1 - p) * - ln x) by (apply Rmult_le_pos; lra). destruct (Req_dec (ln x) (p * ln x)) as [<-|N]; [lra|left; apply exp_increasing; lra].
Qed.
Lemma power_above x p : 1 <= x -> 0 < p <= 1 -> power x p <= x.
Proof.
  intros Hx Hp. unfold power. destruct (Rlt_dec 0 x) as [P|P]; [|lra]. rewrite <- (Rpower_1 x P) at 2. apply Rle_Rpower; lra.
Qed.
Lemma power_sub a b p : 0 <= a -> 0 <= b -> 0 < p <= 1 -> power (a + b) p <= power a p + power b p.
Proof.
  intros Ha Hb Hp. destruct (Req_dec (a + b) 0) as [E|E]; [replace a with 0 by lra; replace b with 0 by lra; rewrite Rplus_0_r; pose proof (power_pos 0 p); lra|].
  assert (S0 : 0 < a + b) by lra. assert (F : forall c, 0 <= c <= a + b -> c / (a + b) * power (a + b) p <= power c p).
  { intros c Hc. assert (I : 0 < / (a + b)) by (apply Rinv_0_lt_compat, S0). assert (R : 0 <= c / (a + b) <= 1). { split; [apply Rmult_le_pos; lra|]. apply Rmult_le_reg_r with (a + b); [exact S0|]. unfold Rdiv. rewrite Rmult_assoc, Rinv_l, Rmult_1_r by lra. lra. }
    replace c with (c / (a + b) * (a + b)) at 2 by (field; lra). rewrite power_mult by lra. apply Rmult_le_compat_r; [apply power_pos|]. apply power_below; assumption. }
  pose proof (F a ltac:(lra)) as Fa. pose proof (F b ltac:(lra)) as Fb. replace (power (a + b) p) with (a / (a + b) * power (a + b) p + b / (a + b) * power (a + b) p) by (field; lra). lra.
Qed.
(** Relative error d and absolute error t of the base. *)
Lemma power_close_small s s' p d t : 0 < p <= 1 -> 0 <= s -> 0 <= s' -> 0 <= d <= 1 -> 0 <= t -> Rabs (s' - s) <= d * s + t -> Rabs (power s' p - power s p) <= d * power s p + power t p.
Proof.
  intros Hp Hs Hs' Hd Ht H. apply Rcomplements.Rabs_le_between in H. pose proof (power_pos s p) as P. assert (ds : 0 <= d * s) by (apply Rmult_le_pos; lra). assert (ds2 : 0 <= (1 - d) * s) by (apply Rmult_le_pos; lra).
  assert (U : power s' p <= (1 + d) * power s p + power t p).
  { apply Rle_trans with (power ((1 + d) * s + t) p); [apply power_mono; lra|]. eapply Rle_trans; [apply power_sub; lra|]. apply Rplus_le_compat_r. rewrite power_mult by lra. apply Rmult_le_compat_r; [exact P|apply power_above; lra]. }
  assert (L : (1 - d) * power s p <= power s' p + power t p).
  { apply Rle_trans with (power ((1 - d) * s) p); [rewrite power_mult by lra; apply Rmult_le_compat_r; [exact P|apply power_below; lra]|]. apply Rle_trans with (power (s' + t) p); [apply power_mono; lra|apply power_sub; lra]. }
  apply Rabs_le. lra.
Qed.

Section Base.
Variables (u eta : R) (B : Z) (l : zlib).
Hypothesis A : arithmetic u eta B (z_rnd l).
Hypothesis Hu : 0 < u <= 1 / 1000.
Hypothesis He : 0 <= eta <= u.
Variables (w' : R).
Hypothesis Hw : 0 < w'.
Hypothesis Ew : 4 * eta <= (u * w') ^ 2.
Let Hu8 : 0 <= u <= 1 / 8. Proof. lra. Qed.
Lemma quot_err d : let X := d / w' in let b := (1 + u) * (eta / w') + eta in Rabs (z_rnd l (z_rnd l d / w') - X) <= (2 * u + u ^ 2) * Rabs X + b.
Proof.
  intros X b. pose proof (ar_error _ _ _ _ A d) as E. assert (I : 0 < / w') by (apply Rinv_0_lt_compat, Hw). assert (Q : Rabs (z_rnd l d / w' - X) <= u * Rabs X + eta / w').
  { replace (z_rnd l d / w' - X) with ((z_rnd l d - d) * / w') by (unfold X, Rdiv; ring). rewrite Rabs_mult, (Rabs_pos_eq (/ w')) by lra. replace (Rabs X) with (Rabs d * / w') by (unfold X, Rdiv; rewrite Rabs_mult, (Rabs_pos_eq (/ w')) by lra; reflexivity). unfold Rdiv. apply Rmult_le_compat_r with (r := / w') in E; lra. }
  pose proof (rnd_err u eta B (z_rnd l) A ltac:(lra) _ _ _ Q) as K. unfold b. lra.
Qed.
Lemma tiny : let b := (1 + u) * (eta / w') + eta in 0 <= b /\ b ^ 2 <= 201 / 100 * (u * eta).
Proof.
  intros b. assert (I : 0 < / w') by (apply Rinv_0_lt_compat, Hw). set (q := eta / w') in *. assert (q0 : 0 <= q) by (apply Rmult_le_pos; lra).
  assert (Q2 : q ^ 2 <= u ^ 2 / 4 * eta). { replace (q ^ 2) with (eta * (eta * (/ w') ^ 2)) by (unfold q, Rdiv; ring). replace (u ^ 2 / 4 * eta) with (eta * ((u * w') ^ 2 / 4 * (/ w') ^ 2)) by (field; lra). apply Rmult_le_compat_l; [lra|]. apply Rmult_le_compat_r; [apply pow2_ge_0|lra]. }
  assert (uu : u ^ 2 * eta <= 1 / 1000 * (u * eta)). { replace (u ^ 2 * eta) with (u * (u * eta)) by ring. apply Rmult_le_compat_r; [apply Rmult_le_pos; lra|lra]. } assert (ee : eta ^ 2 <= u * eta) by (replace (eta ^ 2) with (eta * eta) by ring; apply Rmult_le_compat_r; lra).
  assert (b0 : 0 <= b) by (unfold b; assert (0 <= (1 + u) * q) by (apply Rmult_le_pos; lra); lra). split; [exact b0|]. assert (b2 : b <= 2 * q + eta) by (unfold b; assert (u * q <= 1 * q) by (apply Rmult_le_compat_r; lra); lra). assert (T : b ^ 2 <= (2 * q + eta) ^ 2) by (apply pow_incr; lra).
  assert (0 <= (2 * q - eta) ^ 2) by apply pow2_ge_0. assert (U0 : 0 <= u * eta) by (apply Rmult_le_pos; lra). replace ((2 * q + eta) ^ 2) with (2 * (4 * q ^ 2) + 2 * eta ^ 2 - (2 * q - eta) ^ 2) in T by ring. lra.
Qed.
Lemma square_err X x b : 0 <= b -> b ^ 2 <= 201 / 100 * (u * eta) -> Rabs (x - X) <= (2 * u + u ^ 2) * Rabs X + b -> Rabs (z_rnd l (x ^ 2) - X ^ 2) <= 62 / 10 * u * X ^ 2 + 32 / 10 * eta.
Proof.
  intros b0 b2 H. set (a := 2 * u + u ^ 2) in *. assert (ua : u ^ 2 <= 1 / 1000 * u) by (replace (u ^ 2) with (u * u) by ring; apply Rmult_le_compat_r; lra). pose proof (pow2_ge_0 u) as u2. assert (a1 : 0 <= a <= 2001 / 1000 * u) by (unfold a; lra). pose proof (Rabs_pos X) as X0. pose proof (pow2_ge_0 X) as XX. assert (XE : Rabs X ^ 2 = X ^ 2) by apply pow2_abs.
  assert (P : Rabs (x ^ 2 - X ^ 2) <= 51 / 10 * u * X ^ 2 + 21 / 10 * eta).
  { replace (x ^ 2 - X ^ 2) with ((x - X) * ((x - X) + 2 * X)) by ring. assert (Y : Rabs ((x - X) + 2 * X) <= a * Rabs X + b + 2 * Rabs X). { eapply Rle_trans; [apply Rabs_triang|]. rewrite (Rabs_mult 2), (Rabs_pos_eq 2) by lra. lra. }
    eapply Rle_trans; [apply mult_le; [exact H|exact Y]|]. replace ((a * Rabs X + b) * (a * Rabs X + b + 2 * Rabs X)) with ((2 * a + a * a) * Rabs X ^ 2 + (1 + a) * (2 * (b * Rabs X)) + b ^ 2) by ring. rewrite XE.
    assert (C : 2 * (b * Rabs X) <= u * X ^ 2 + 201 / 100 * eta). { assert (D : 0 <= (u * Rabs X - b) ^ 2) by apply pow2_ge_0. replace ((u * Rabs X - b) ^ 2) with (u * (u * X ^ 2) - u * (2 * (b * Rabs X)) + b ^ 2) in D by (rewrite <- XE; ring). apply Rmult_le_reg_l with u; [lra|]. lra. }
    assert (aa : a * a <= 1 / 100 * u). { apply Rle_trans with (2001 / 1000 * u * (2001 / 1000 * (1 / 1000))); [apply Rmult_le_compat; lra|lra]. } assert (C1 : (2 * a + a * a) * X ^ 2 <= 405 / 100 * u * X ^ 2) by (apply Rmult_le_compat_r; lra).
    assert (uX : 0 <= u * X ^ 2) by (apply Rmult_le_pos; lra). assert (C2 : (1 + a) * (2 * (b * Rabs X)) <= 1003 / 1000 * (u * X ^ 2 + 201 / 100 * eta)). { assert (0 <= b * Rabs X) by (apply Rmult_le_pos; lra). apply Rle_trans with (1003 / 1000 * (2 * (b * Rabs X))); [apply Rmult_le_compat_r; lra|apply Rmult_le_compat_l; lra]. }
    assert (ue : u * eta <= 1 / 1000 * eta) by (apply Rmult_le_compat_r; lra). lra. }
  pose proof (rnd_err u eta B (z_rnd l) A ltac:(lra) _ _ _ P) as K. rewrite (Rabs_pos_eq (X ^ 2)) in K by exact XX. eapply Rle_trans; [exact K|]. assert (uX : 0 <= u * X ^ 2) by (apply Rmult_le_pos; lra). assert (ue : u * eta <= 1 / 1000 * eta) by (apply Rmult_le_compat_r; lra). assert (uuX : u * (u * X ^ 2) <= 1 / 1000 * (u * X ^ 2)) by (apply Rmult_le_compat_r; lra). lra.
Qed.
Lemma base_err dx dy : let s := (dx / w') ^ 2 + (dy / w') ^ 2 in let s' := z_rnd l (z_rnd l (z_rnd l (z_rnd l dx / w') ^ 2) + z_rnd l (z_rnd l (z_rnd l dy / w') ^ 2)) in 0 <= s' /\ Rabs (s' - s) <= 8 * u * s + 8 * eta.
Proof.
  intros s s'. destruct tiny as [b0 b2]. pose proof (square_err _ _ _ b0 b2 (quot_err dx)) as Ex. pose proof (square_err _ _ _ b0 b2 (quot_err dy)) as Ey. set (X := dx / w') in *. set (Y := dy / w') in *. pose proof (pow2_ge_0 X) as XX. pose proof (pow2_ge_0 Y) as YY.
  assert (R0 : z_rnd l 0 = 0). { pose proof (ar_odd _ _ _ _ A 0) as O. rewrite Ropp_0 in O. lra. } assert (Rp : forall t, 0 <= t -> 0 <= z_rnd l t) by (intros t Ht; rewrite <- R0; apply (ar_monotone _ _ _ _ A), Ht).
  set (px := z_rnd l (_ ^ 2)) in *. assert (px0 : 0 <= px) by (apply Rp, pow2_ge_0). unfold s'. set (py := z_rnd l (z_rnd l (z_rnd l dy / w') ^ 2)) in *. assert (py0 : 0 <= py) by (apply Rp, pow2_ge_0). split; [apply Rp; lra|].
  assert (P : Rabs (px + py - s) <= 62 / 10 * u * s + 64 / 10 * eta). { replace (px + py - s) with ((px - X ^ 2) + (py - Y ^ 2)) by (unfold s; ring). eapply Rle_trans; [apply Rabs_triang|]. unfold s. lra. }
  pose proof (rnd_err u eta B (z_rnd l) A ltac:(lra) _ _ _ P) as K. assert (s0 : 0 <= s) by (unfold s; lra). rewrite (Rabs_pos_eq s) in K by exact s0. eapply Rle_trans; [exact K|]. assert (us : 0 <= u * s) by (apply Rmult_le_pos; lra). assert (ue : u * eta <= 1 / 1000 * eta) by (apply Rmult_le_compat_r; lra). assert (u * (u * s) <= 1 / 1000 * (u * s)) by (apply Rmult_le_compat_r; lra). lra.
Qed.
End Base.
Lemma super_small u eta B l f_exp f_pow ee vp x0 y0 Am w p x y :
  arithmetic u eta B (z_rnd l) -> 0 < u <= 1 / 1000 -> 0 <= eta <= u -> accurate_exp f_exp ee eta -> 0 <= ee -> accurate_root f_pow vp eta -> 0 <= vp <= 1 / 2 ->
  let x0' := z_rnd l x0 in let y0' := z_rnd l y0 in let A' := z_rnd l Am in let w' := z_rnd l w in let p' := z_rnd l p in
  0 < w' -> 4 * eta <= (u * w') ^ 2 -> 0 < p' <= 1 -> let d := dist2 x0' y0' x y in let z := root_error u ee vp eta p' (power (d ^ 2 / w' ^ 2) p') in z <= 1 / 2 ->
  Rabs (fl_super l f_exp f_pow x0 y0 Am w p x y - sg_mode A' w' p' d) <= 2 * z * Rabs (sg_mode A' w' p' d) + (2 * Rabs A' + 1) * eta.
Proof.
  intros A Hu He Fe Hee Fp Hvp x0' y0' A' w' p' Hw Ew Hp dd z Hz. unfold dd in *. rewrite sg_power by exact Hw. unfold fl_super. fold A' w' p' x0' y0'.
  destruct (base_err u eta B l A Hu He w' Hw Ew (x - x0') (y - y0')) as [S0 Se]. assert (Sq : dist2 x0' y0' x y ^ 2 / w' ^ 2 = ((x - x0') / w') ^ 2 + ((y - y0') / w') ^ 2) by (rewrite dist2_sq; field; lra).
  set (s' := z_rnd l (z_rnd l (_ ^ 2) + z_rnd l (_ ^ 2))) in *. set (s := ((x - x0') / w') ^ 2 + ((y - y0') / w') ^ 2) in *. assert (Hs : 0 <= s) by (unfold s; pose proof (pow2_ge_0 ((x - x0') / w')); pose proof (pow2_ge_0 ((y - y0') / w')); lra).
  pose proof (power_close_small s s' p' (8 * u) (8 * eta) Hp Hs S0 ltac:(lra) ltac:(lra) Se) as D2. destruct (Fp s' p' S0 Hp) as [F0 F1]. pose proof (power_pos s p') as P0. pose proof (power_pos s' p') as P0'. pose proof (power_pos (8 * eta) p') as P8.
  set (t := power s p') in *. set (q := power s' p') in *. set (t' := f_pow s' p') in *. set (k := power (8 * eta) p') in *. set (d := (8 * u + 2 * vp) * t + 2 * k + eta).
  assert (D3 : Rabs (t' - t) <= d).
  { apply Rcomplements.Rabs_le_between in F1, D2. assert (ut : 0 <= u * t <= 1 / 1000 * t) by (split; [apply Rmult_le_pos; lra|apply Rmult_le_compat_r; lra]). assert (q <= 2 * t + k) by lra. assert (vq : vp * q <= vp * (2 * t + k)) by (apply Rmult_le_compat_l; lra). assert (vp * k <= 1 / 2 * k) by (apply Rmult_le_compat_r; lra). unfold d. apply Rabs_le. lra. }
  pose proof (exp_close f_exp ee eta t t' d Fe Hee F0 D3) as K. set (E := exp (- t)) in *. assert (E0 : 0 < E) by apply exp_pos. set (E2 := f_exp (- t')) in *. assert (d0 : 0 <= d) by (pose proof (Rabs_pos (t' - t)); lra).
  assert (Hzd : z = 4 * u + d + ee) by (unfold z, root_error, d, k, t; rewrite Sq; ring). clearbody z. set (h := exp d * (1 + ee)) in *.
  assert (ed : 1 <= exp d) by (pose proof (exp_ineq1_le d); lra). assert (h1 : 1 <= h) by (unfold h; nra).
  assert (Tz : (1 + 4 * u) * h <= 1 + 2 * z).
  { apply Rle_trans with (exp z); [|apply exp_small; lra]. rewrite Hzd. replace (4 * u + d + ee) with (4 * u + (d + ee)) by ring. rewrite !exp_plus. pose proof (exp_ineq1_le (4 * u)). pose proof (exp_ineq1_le ee). apply Rmult_le_compat; try lra. unfold h. apply Rmult_le_compat_l; lra. }
  assert (P1 : Rabs (A' * E2 - A' * E) <= Rabs A' * ((h - 1) * E + eta)). { replace (A' * E2 - A' * E) with (A' * (E2 - E)) by ring. rewrite Rabs_mult. apply Rmult_le_compat_l; [apply Rabs_pos|exact K]. }
  pose proof (rnd_err u eta B (z_rnd l) A ltac:(lra) _ _ _ P1) as R. eapply Rle_trans; [exact R|]. rewrite Rabs_mult, (Rabs_pos_eq E) by lra. pose proof (Rabs_pos A') as a0. set (a := Rabs A') in *.
  assert (aE : 0 <= a * E) by (apply Rmult_le_pos; lra). assert (ae : 0 <= a * eta) by (apply Rmult_le_pos; lra). replace (a * ((h - 1) * E + eta)) with ((h - 1) * (a * E) + a * eta) by ring. set (g := a * E) in *. set (e := a * eta) in *.
  assert (u * e <= 1 / 1000 * e) by (apply Rmult_le_compat_r; lra). assert ((1 + 4 * u) * h * g <= (1 + 2 * z) * g) by (apply Rmult_le_compat_r; lra). assert (0 <= u * (h * g)) by (apply Rmult_le_pos; [lra|apply Rmult_le_pos; lra]).
  replace ((2 * a + 1) * eta) with (2 * e + eta) by (unfold e; ring). lra.
Qed.
Lemma tiny_power p : 1 / 16 <= p -> power (8 * / 2 ^ 1075) p <= / 2 ^ 67.
Proof.
  intros Hp. assert (P : forall k, 0 < / 2 ^ k) by (intros; apply Rinv_0_lt_compat, pow_lt; lra). assert (E : 8 * / 2 ^ 1075 = (/ 2 ^ 67) ^ 16).
  { rewrite pow_inv, <- pow_mult. change (67 * 16)%nat with 1072%nat. change 1075%nat with (3 + 1072)%nat. rewrite pow_add, Rinv_mult. field. }
  rewrite E. pose proof (P 67%nat) as P67. set (b := / 2 ^ 67) in *. assert (b1 : b <= 1). { unfold b. rewrite <- Rinv_1. apply Rinv_le_contravar; [lra|]. apply pow_R1_Rle. lra. }
  assert (B0 : 0 < b ^ 16) by (apply pow_lt, P67). unfold power. destruct (Rlt_dec 0 (b ^ 16)); [|lra]. rewrite <- Rpower_pow by exact P67. rewrite Rpower_mult. rewrite <- (Rpower_1 b P67) at 2. unfold Rpower.
  assert (L : ln b <= 0). { rewrite <- ln_1. destruct (Req_dec b 1) as [->|N]; [lra|left; apply ln_increasing; lra]. } assert (I16 : INR 16 = 16) by (rewrite INR_IZR_INZ; reflexivity). rewrite I16. assert (0 <= (16 * p - 1) * - ln b) by (apply Rmult_le_pos; lra).
  destruct (Req_dec (16 * p * ln b) (1 * ln b)) as [->|N]; [lra|left; apply exp_increasing; lra].
Qed.
Lemma small_double l f_exp f_pow x0 y0 Am w p x y : z_rnd l = binary64 -> accurate_exp f_exp (/ 2 ^ 52) (/ 2 ^ 1075) -> accurate_root f_pow (/ 2 ^ 52) (/ 2 ^ 1075) ->
  let x0' := binary64 x0 in let y0' := binary64 y0 in let A' := binary64 Am in let w' := binary64 w in let p' := binary64 p in let d := dist2 x0' y0' x y in
  / 2 ^ 483 <= w' -> 1 / 16 <= p' <= 1 -> power (d ^ 2 / w' ^ 2) p' <= 1024 ->
  Rabs (fl_super l f_exp f_pow x0 y0 Am w p x y - sg_mode A' w' p' d) <= Rabs (sg_mode A' w' p' d) / 2 ^ 38 + (2 * Rabs A' + 1) / 2 ^ 1075.
Proof.
  intros Hl Fe Fp x0' y0' A' w' p' d Hw Hp HT. pose proof binary64_arithmetic as A. assert (P : forall k, 0 < / 2 ^ k) by (intros; apply Rinv_0_lt_compat, pow_lt; lra).
  assert (Pm : forall a b, (b <= a)%nat -> / 2 ^ a <= / 2 ^ b). { intros a b Le. apply Rinv_le_contravar; [apply pow_lt; lra|]. apply Rle_pow; [lra|exact Le]. }
  assert (U : / 2 ^ 53 <= 1 / 1000). { apply Rle_trans with (/ 2 ^ 10); [apply Pm; lia|]. replace (2 ^ 10) with 1024 by ring. lra. }
  pose proof (P 53%nat) as P53. pose proof (Pm 1075%nat 53%nat ltac:(lia)) as Pe. pose proof (P 1075%nat) as P1075. pose proof (P 52%nat) as P52. pose proof (P 483%nat) as P483.
  assert (et : 4 * / 2 ^ 1075 <= (/ 2 ^ 53 * w') ^ 2).
  { apply Rle_trans with ((/ 2 ^ 53 * / 2 ^ 483) ^ 2); [|apply pow_incr; split; [apply Rmult_le_pos; lra|apply Rmult_le_compat_l; lra]]. rewrite <- Rinv_mult, <- pow_add, pow_inv, <- pow_mult. change ((53 + 483) * 2)%nat with 1072%nat. change 1075%nat with (3 + 1072)%nat. rewrite pow_add, Rinv_mult. pose proof (P 1072%nat). replace (/ 2 ^ 3) with (1 / 8) by field. lra. }
  assert (E52 : / 2 ^ 52 = 2 * / 2 ^ 53) by (replace (2 ^ 53) with (2 * 2 ^ 52) by ring; rewrite Rinv_mult; field; apply Rgt_not_eq, pow_lt; lra). assert (E39 : / 2 ^ 39 = 16384 * / 2 ^ 53) by (replace (2 ^ 53) with (16384 * 2 ^ 39) by ring; rewrite Rinv_mult; field; apply Rgt_not_eq, pow_lt; lra).
  pose proof (power_pos (d ^ 2 / w' ^ 2) p') as T0. pose proof (tiny_power p' ltac:(lra)) as Tp. pose proof (Pm 67%nat 53%nat ltac:(lia)) as P67.
  assert (Z : root_error (/ 2 ^ 53) (/ 2 ^ 52) (/ 2 ^ 52) (/ 2 ^ 1075) p' (power (d ^ 2 / w' ^ 2) p') <= / 2 ^ 39).
  { unfold root_error. assert ((8 * / 2 ^ 53 + 2 * / 2 ^ 52) * power (d ^ 2 / w' ^ 2) p' <= (12 * / 2 ^ 53) * 1024) by (apply Rmult_le_compat; lra). lra. }
  assert (Z0 : root_error (/ 2 ^ 53) (/ 2 ^ 52) (/ 2 ^ 52) (/ 2 ^ 1075) p' (power (d ^ 2 / w' ^ 2) p') <= 1 / 2). { eapply Rle_trans; [exact Z|]. apply Rle_trans with (/ 2 ^ 1); [apply Pm; lia|]. replace (2 ^ 1) with 2 by ring. lra. }
  pose proof (super_small (/ 2 ^ 53) (/ 2 ^ 1075) (2 ^ 53) l f_exp f_pow (/ 2 ^ 52) (/ 2 ^ 52) x0 y0 Am w p x y) as K. rewrite Hl in K. cbv zeta in K. fold x0' y0' A' w' p' in K. fold d in K.
  assert (V : 0 <= / 2 ^ 52 <= 1 / 2) by lra. specialize (K A ltac:(lra) ltac:(lra) Fe ltac:(lra) Fp V ltac:(lra) et ltac:(lra) Z0). eapply Rle_trans; [exact K|]. unfold Rdiv. apply Rplus_le_compat_r. rewrite Rmult_comm. apply Rmult_le_compat_l; [apply Rabs_pos|].
  assert (E38 : / 2 ^ 38 = 2 * / 2 ^ 39) by (replace (2 ^ 39) with (2 * 2 ^ 38) by ring; rewrite Rinv_mult; field; apply Rgt_not_eq, pow_lt; lra). lra.
Qed.
Lemma root_case : accurate_root (fun s p => binary64 (power s p)) (/ 2 ^ 52) (/ 2 ^ 1075) /\ power 4 (/ 2) = 2 /\ root_error (/ 1000) 0 0 0 (/ 2) 2 = / 50.
Proof.
  split; [|split].
  - intros s p Hs Hp. pose proof binary64_arithmetic as A. pose proof (power_pos s p) as P0. split.
    + assert (Z0 : binary64 0 = 0). { pose proof (ar_odd _ _ _ _ A 0) as O. rewrite Ropp_0 in O. lra. } rewrite <- Z0. apply (ar_monotone _ _ _ _ A), P0.
    + pose proof (ar_error _ _ _ _ A (power s p)) as K. rewrite (Rabs_pos_eq (power s p)) in K by lra. assert (/ 2 ^ 53 <= / 2 ^ 52) by (apply Rinv_le_contravar; [apply pow_lt; lra|apply Rle_pow; [lra|lia]]). assert (/ 2 ^ 53 * power s p <= / 2 ^ 52 * power s p) by (apply Rmult_le_compat_r; lra). lra.
  - unfold power. destruct (Rlt_dec 0 4); [|lra]. rewrite Rpower_sqrt by lra. replace 4 with (2 * 2) by ring. apply sqrt_square. lra.
  - unfold root_error, power. destruct (Rlt_dec 0 (8 * 0)); lra.
Qed.
