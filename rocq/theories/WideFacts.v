(** One sample of a Gaussian beam in floating point (C137). *)
From Coq Require Import Reals Lra Psatz ZArith Arith Lia.
From Flocq Require Import Core.
From Verif Require Import ModeSpec FloatModel FloatSpec FloatFacts FloatFacts2 FlModeModel NarrowFacts WideSpec ModeThms.
Open Scope R_scope.

Lemma exp_near d : Rabs d <= 1 / 8 -> Rabs (exp d - 1) <= 1.15 * Rabs d.
Proof.
  intros H. assert (L := exp_ineq1_le d). assert (U := exp_ineq1_le (- d)). rewrite exp_Ropp in U. assert (P := exp_pos d). apply Rabs_le_inv in H as H'.
  assert (U' : exp d * (1 - d) <= 1). { apply Rmult_le_reg_r with (/ exp d); [apply Rinv_0_lt_compat, P|]. rewrite Rmult_1_l, (Rmult_comm (exp d)), Rmult_assoc, Rinv_r by lra. lra. }
  assert (E2 : exp d <= 8 / 7) by nra. assert (M : (exp d - 1) <= d * exp d) by lra. apply Rabs_le. split.
  - assert (A := Rle_abs (- d)). rewrite Rabs_Ropp in A. assert (B := Rabs_pos d). lra.
  - eapply Rle_trans; [exact M|]. apply Rle_trans with (Rabs d * exp d); [apply Rmult_le_compat_r; [lra|apply Rle_abs]|]. rewrite Rmult_comm. apply Rmult_le_compat_r; [apply Rabs_pos|lra].
Qed.
Section Sample.
Variables (f : R -> R) (u eta : R) (B : Z).
Hypothesis (H : arithmetic u eta B f) (HB : (2 ^ 22 <= B)%Z) (Hu : 0 <= u <= 1 / 16777216) (He : 0 <= eta <= u / 100).
Lemma step x y e k : Rabs (x - y) <= e -> Rabs x <= k -> Rabs (f x - y) <= e + u * k + eta.
Proof.
  intros D K. assert (E := ar_error _ _ _ _ H x). replace (f x - y) with ((f x - x) + (x - y)) by ring. eapply Rle_trans; [apply Rabs_triang|].
  assert (u * Rabs x <= u * k) by (apply Rmult_le_compat_l; lra). lra.
Qed.
Lemma abs_from x y e : Rabs (x - y) <= e -> Rabs x <= Rabs y + e.
Proof. intros D. replace x with ((x - y) + y) by ring. eapply Rle_trans; [apply Rabs_triang|]. lra. Qed.
Lemma coordinate x0 w x x' g : 0 < w -> 0 <= g -> 4 * (g + 2 * eta) <= u * w -> Rabs (x' - x) <= 3 * u * Rabs x + g ->
  let L := 1 + (Rabs x + Rabs x0) / w in let z := (x - x0) / w in let z' := f (f (x' - f x0) / f w) in
  1 <= L /\ Rabs z <= L /\ Rabs (z' - z) <= 8 * u * L /\ Rabs (f (z' ^ 2) - z ^ 2) <= 17.3 * u * L ^ 2.
Proof.
  intros Hw Hg Hgw Hx L z z'. set (S := Rabs x + Rabs x0) in *. assert (Ax := Rabs_pos x). assert (A0 := Rabs_pos x0). assert (S0 : 0 <= S) by (unfold S; lra).
  assert (iw : 0 < / w) by (apply Rinv_0_lt_compat, Hw). assert (uS : 0 <= u * S) by (apply Rmult_le_pos; lra). assert (uw : 0 <= u * w) by (apply Rmult_le_pos; lra).
  assert (uuS : u * (u * S) <= 1 / 16777216 * (u * S)) by (apply Rmult_le_compat_r; lra).
  assert (SL : S / w = L - 1) by (unfold L; lra). assert (L1 : 1 <= L). { assert (0 <= S / w) by (apply Rmult_le_pos; lra). lra. }
  assert (D1 : Rabs ((x' - f x0) - (x - x0)) <= 3 * (u * S) + (g + eta)).
  { assert (E := ar_error _ _ _ _ H x0). replace ((x' - f x0) - (x - x0)) with ((x' - x) + - (f x0 - x0)) by ring. eapply Rle_trans; [apply Rabs_triang|]. rewrite Rabs_Ropp. unfold S.
    assert (0 <= u * Rabs x0) by (apply Rmult_le_pos; lra). lra. }
  assert (Z0 : Rabs (x - x0) <= S) by (unfold Rminus, S; eapply Rle_trans; [apply Rabs_triang|]; rewrite Rabs_Ropp; lra).
  assert (D2 := step _ _ _ (S + (3 * (u * S) + (g + eta))) D1 ltac:(assert (Q := abs_from _ _ _ D1); lra)).
  set (n' := f (x' - f x0)) in *. assert (ug : u * (g + eta) <= 1 / 16777216 * (g + eta)) by (apply Rmult_le_compat_r; lra).
  assert (D3 : Rabs (n' - (x - x0)) <= 5 * (u * S) + 0.3 * (u * w)) by lra. clearbody n'.
  assert (W := ar_error _ _ _ _ H w). rewrite (Rabs_pos_eq w) in W by lra. set (w' := f w) in *. clearbody w'. assert (W2 : Rabs (w' - w) <= 1.25 * (u * w)) by lra.
  assert (uw1 : u * w <= 1 / 16777216 * w) by (apply Rmult_le_compat_r; lra). apply Rabs_le_inv in W2 as W3. assert (Pw : 0.999 * w <= w') by lra.
  assert (iw' : 0 < / w' <= 1.002 * / w). { split; [apply Rinv_0_lt_compat; lra|]. replace (1.002 * / w) with (/ (w / 1.002)) by (field; lra). apply Rinv_le_contravar; lra. }
  assert (D4 : Rabs (n' / w' - z) <= 6.4 * (u * L)).
  { replace (n' / w' - z) with ((n' - (x - x0) - z * (w' - w)) * / w') by (unfold z; field; lra). rewrite Rabs_mult, (Rabs_pos_eq (/ w')) by lra.
    assert (N : Rabs (n' - (x - x0) - z * (w' - w)) <= 6.3 * (u * (S + w))).
    { unfold Rminus at 1. eapply Rle_trans; [apply Rabs_triang|]. rewrite Rabs_Ropp, Rabs_mult. assert (Rabs z * w = Rabs (x - x0)). { unfold z, Rdiv. rewrite Rabs_mult, (Rabs_pos_eq (/ w)) by lra. field. lra. }
      assert (Rabs z * Rabs (w' - w) <= Rabs z * (1.25 * (u * w))) by (apply Rmult_le_compat_l; [apply Rabs_pos|exact W2]). replace (Rabs z * (1.25 * (u * w))) with (1.25 * u * (Rabs z * w)) in H1 by ring. rewrite H0 in H1.
      assert (1.25 * u * Rabs (x - x0) <= 1.25 * u * S) by (apply Rmult_le_compat_l; lra). lra. }
    apply Rle_trans with (6.3 * (u * (S + w)) * (1.002 * / w)). { apply Rmult_le_compat; [apply Rabs_pos|lra|exact N|lra]. }
    assert (EL : (S + w) * / w = L) by (unfold L; field; lra). replace (6.3 * (u * (S + w)) * (1.002 * / w)) with (6.3126 * (u * ((S + w) * / w))) by lra. rewrite EL. clearbody L. assert (0 <= u * L) by (apply Rmult_le_pos; lra). lra. }
  assert (ZL : Rabs z <= L - 1). { unfold z, Rdiv. rewrite Rabs_mult, (Rabs_pos_eq (/ w)) by lra. rewrite <- SL. apply Rmult_le_compat_r; lra. }
  assert (uL : u * L <= 1 / 16777216 * L) by (apply Rmult_le_compat_r; lra). assert (uL0 : u <= u * L) by (rewrite <- (Rmult_1_r u) at 1; apply Rmult_le_compat_l; lra).
  assert (K : Rabs (n' / w') <= 1.001 * L) by (assert (Q := abs_from _ _ _ D4); lra).
  assert (D5 := step _ _ _ _ D4 K). fold z' in D5. assert (D6 : Rabs (z' - z) <= 8 * u * L) by lra. split; [exact L1|]. split; [lra|]. split; [exact D6|].
  assert (K' : Rabs z' <= 1.001 * L) by (assert (Q := abs_from _ _ _ D6); lra). clearbody z' z.
  assert (LL : 0 <= L ^ 2) by apply pow2_ge_0. assert (uLL : u <= u * L ^ 2). { rewrite <- (Rmult_1_r u) at 1. apply Rmult_le_compat_l; [lra|]. nra. }
  assert (D7 : Rabs (z' ^ 2 - z ^ 2) <= 16.1 * (u * L ^ 2)).
  { replace (z' ^ 2 - z ^ 2) with ((z' - z) * (z' + z)) by ring. rewrite Rabs_mult. apply Rle_trans with ((8 * u * L) * (2.001 * L)).
    - apply Rmult_le_compat; try apply Rabs_pos; [exact D6|]. eapply Rle_trans; [apply Rabs_triang|]. lra.
    - replace (8 * u * L * (2.001 * L)) with (16.008 * (u * L ^ 2)) by lra. lra. }
  assert (K2 : Rabs (z' ^ 2) <= 1.003 * L ^ 2).
  { rewrite Rabs_pos_eq by apply pow2_ge_0. rewrite <- (pow2_abs z'). apply Rle_trans with ((1.001 * L) ^ 2); [apply pow_incr; split; [apply Rabs_pos|exact K']|]. replace ((1.001 * L) ^ 2) with (1.002001 * L ^ 2) by lra. lra. }
  assert (D8 := step _ _ _ _ D7 K2). eapply Rle_trans; [exact D8|]. lra.
Qed.
End Sample.
Lemma gaussian_accurate a u eta B f_exp v o x0 y0 A w x y x' y' g : arithmetic u eta B (rnd a) -> (2 ^ 22 <= B)%Z -> 0 <= u <= / 2 ^ 24 -> 0 <= eta <= u / 100 ->
  accurate_exp f_exp v o -> 0 <= v <= 1 / 8 -> 0 <= o -> 0 < w -> 0 <= g -> 4 * (g + 2 * eta) <= u * w -> eta <= u * Rabs A ->
  Rabs (x' - x) <= 3 * u * Rabs x + g -> Rabs (y' - y) <= 3 * u * Rabs y + g -> 19 * u * reach x0 y0 w x y <= 1 / 8 ->
  Rabs (fl_gaussian a f_exp x0 y0 A w x' y' - hg_mode x0 y0 A w 0 0 x y) <= (24 * u * reach x0 y0 w x y + 2 * v) * Rabs (hg_mode x0 y0 A w 0 0 x y) + 2 * (Rabs A * o + eta).
Proof.
  intros H HB Hu He HX Hv Ho Hw Hg Hgw HA Dx Dy HQ. assert (Hu' : 0 <= u <= 1 / 16777216) by (rewrite pow_inv_24 in Hu; exact Hu). clear Hu.
  destruct (coordinate (rnd a) u eta B H Hu' He x0 w x x' g Hw Hg Hgw Dx) as (Lx1 & Zx & _ & Qx). destruct (coordinate (rnd a) u eta B H Hu' He y0 w y y' g Hw Hg Hgw Dy) as (Ly1 & Zy & _ & Qy).
  assert (HM : hg_mode x0 y0 A w 0 0 x y = A * exp (- (((x - x0) / w) ^ 2 + ((y - y0) / w) ^ 2))). { unfold hg_mode. rewrite !(fun x => proj1 (hermite_low_orders x)), !Rmult_1_r. do 2 f_equal. field. lra. }
  rewrite HM. unfold reach in *. unfold fl_gaussian. cbv zeta in *.
  set (Lx := 1 + (Rabs x + Rabs x0) / w) in *. set (Ly := 1 + (Rabs y + Rabs y0) / w) in *. set (zx := (x - x0) / w) in *. set (zy := (y - y0) / w) in *.
  set (sx := rnd a (rnd a (rnd a (x' - rnd a x0) / rnd a w) ^ 2)) in *. set (sy := rnd a (rnd a (rnd a (y' - rnd a y0) / rnd a w) ^ 2)) in *.
  assert (R0 : rnd a 0 = 0) by (apply (round_zero _ u eta B H); lia).
  assert (Px : 0 <= sx) by (rewrite <- R0; apply (ar_monotone _ _ _ _ H), pow2_ge_0). assert (Py : 0 <= sy) by (rewrite <- R0; apply (ar_monotone _ _ _ _ H), pow2_ge_0).
  set (Q := Lx ^ 2 + Ly ^ 2) in *. assert (Q2 : 2 <= Q) by (unfold Q; nra). assert (uQ : u * Q <= 1 / 16777216 * Q) by (apply Rmult_le_compat_r; lra). assert (uQ2 : 2 * u <= u * Q) by nra.
  assert (T0 : zx ^ 2 + zy ^ 2 <= Q). { unfold Q. rewrite <- (pow2_abs zx), <- (pow2_abs zy). assert (Rabs zx ^ 2 <= Lx ^ 2) by (apply pow_incr; split; [apply Rabs_pos|exact Zx]). assert (Rabs zy ^ 2 <= Ly ^ 2) by (apply pow_incr; split; [apply Rabs_pos|exact Zy]). lra. }
  set (t := zx ^ 2 + zy ^ 2) in *.
  assert (D1 : Rabs ((sx + sy) - t) <= 17.3 * (u * Q)). { unfold t. replace (sx + sy - (zx ^ 2 + zy ^ 2)) with ((sx - zx ^ 2) + (sy - zy ^ 2)) by ring. eapply Rle_trans; [apply Rabs_triang|]. unfold Q. lra. }
  assert (T1 : 0 <= t) by (unfold t; assert (A1 := pow2_ge_0 zx); assert (A2 := pow2_ge_0 zy); lra).
  assert (K1 : Rabs (sx + sy) <= 1.001 * Q) by (assert (X := abs_from _ _ _ D1); rewrite (Rabs_pos_eq t) in X by exact T1; lra).
  assert (D2 := step (rnd a) u eta B H Hu' _ _ _ _ D1 K1). set (t' := rnd a (sx + sy)) in *. assert (T2 : 0 <= t') by (unfold t'; rewrite <- R0; apply (ar_monotone _ _ _ _ H); lra).
  assert (D3 : Rabs (t' - t) <= 19 * u * Q) by lra. clearbody t' t. clear D2.
  assert (D4 : Rabs (exp (- t') - exp (- t)) <= exp (- t) * (1.15 * (19 * u * Q))).
  { replace (- t') with (- t + - (t' - t)) by ring. rewrite exp_plus. replace (exp (- t) * exp (- (t' - t)) - exp (- t)) with (exp (- t) * (exp (- (t' - t)) - 1)) by ring.
    rewrite Rabs_mult, (Rabs_pos_eq (exp (- t))) by (left; apply exp_pos). apply Rmult_le_compat_l; [left; apply exp_pos|]. eapply Rle_trans; [apply exp_near; rewrite Rabs_Ropp; lra|]. rewrite Rabs_Ropp. lra. }
  assert (D5 := HX (- t') ltac:(lra)). set (X := f_exp (- t')) in *. clearbody X. set (ex := exp (- t)) in *. assert (Pe : 0 < ex) by apply exp_pos. set (ex' := exp (- t')) in *. clearbody ex ex'.
  set (k := u * Q) in *. assert (Hk : 0 <= k <= 1 / 152) by (unfold k; nra). replace (19 * u * Q) with (19 * k) in * by (unfold k; ring).
  assert (EK : ex * k <= 1 / 152 * ex) by nra. assert (EK0 : 0 <= ex * k) by nra.
  assert (E1 : ex' <= 1.15 * ex) by (apply Rabs_le_inv in D4; lra). assert (vE : v * ex' <= v * (1.15 * ex)) by (apply Rmult_le_compat_l; lra). assert (vE0 : 0 <= v * ex) by nra. assert (vE1 : v * ex <= 1 / 8 * ex) by nra.
  assert (D6 : Rabs (X - ex) <= 21.85 * (ex * k) + 1.15 * (v * ex) + o). { replace (X - ex) with ((X - ex') + (ex' - ex)) by ring. eapply Rle_trans; [apply Rabs_triang|]. lra. }
  assert (K2 : Rabs X <= 1.3 * ex + o) by (assert (Y := abs_from _ _ _ D6); rewrite (Rabs_pos_eq ex) in Y by lra; lra).
  replace (rnd a (rnd a (rnd a A * 1) * 1)) with (rnd a A) by (rewrite !Rmult_1_r, !(ar_stable _ _ _ _ H); reflexivity).
  assert (EA := ar_error _ _ _ _ H A). set (A' := rnd a A) in *. set (r := Rabs A) in *. assert (r0 : 0 <= r) by apply Rabs_pos. assert (DA : Rabs (A' - A) <= 2 * (u * r)) by lra. assert (KA := abs_from _ _ _ DA). fold r in KA. clearbody A'.
  assert (ur : u * r <= 1 / 16777216 * r) by (apply Rmult_le_compat_r; lra). assert (ur0 : 0 <= u * r) by nra.
  assert (D7 : Rabs (A' * X - A * ex) <= 2 * (u * r) * (1.3 * ex + o) + r * (21.85 * (ex * k) + 1.15 * (v * ex) + o)).
  { replace (A' * X - A * ex) with ((A' - A) * X + A * (X - ex)) by ring. eapply Rle_trans; [apply Rabs_triang|]. rewrite !Rabs_mult. fold r. apply Rplus_le_compat; apply Rmult_le_compat; try apply Rabs_pos; try lra. }
  assert (K3 : Rabs (A' * X) <= 1.001 * r * (1.3 * ex + o)). { rewrite Rabs_mult. apply Rmult_le_compat; try apply Rabs_pos; lra. }
  assert (D8 := step (rnd a) u eta B H Hu' _ _ _ _ D7 K3). eapply Rle_trans; [exact D8|]. rewrite Rabs_mult, (Rabs_pos_eq ex) by lra. fold r.
  assert (ro : 0 <= r * o) by nra. assert (uro : u * (r * o) <= 1 / 16777216 * (r * o)) by (apply Rmult_le_compat_r; lra). assert (re : 0 <= r * ex) by nra. assert (ure : 2 * (u * (r * ex)) <= k * (r * ex)) by (rewrite <- Rmult_assoc; apply Rmult_le_compat_r; lra).
  assert (vre : 0 <= v * (r * ex)) by nra. assert (kre : 0 <= k * (r * ex)) by nra.
  replace (24 * u * Q) with (24 * k) by (unfold k; ring). 
  replace (2 * (u * r) * (1.3 * ex + o)) with (2.6 * (u * (r * ex)) + 2 * (u * (r * o))) by lra. replace (r * (21.85 * (ex * k) + 1.15 * (v * ex) + o)) with (21.85 * (k * (r * ex)) + 1.15 * (v * (r * ex)) + r * o) by lra.
  replace (u * (1.001 * r * (1.3 * ex + o))) with (1.3013 * (u * (r * ex)) + 1.001 * (u * (r * o))) by lra. replace ((24 * k + 2 * v) * (r * ex)) with (24 * (k * (r * ex)) + 2 * (v * (r * ex))) by ring.
  lra.
Qed.
