(** Proofs for C132. *)
From Coq Require Import Reals Lra Lia ZArith Arith.
From Flocq Require Import Core.
From Verif Require Import FloatModel FloatSpec FloatFacts FloatFacts2 FloatFacts4 FlModeModel NarrowSpec.
Open Scope R_scope.

Lemma round_int f u eta B k : arithmetic u eta B f -> (Z.abs k <= B)%Z -> f (IZR k) = IZR k.
Proof. intros H Hk. assert (E := ar_exact _ _ _ _ H k 0 Hk ltac:(lia)). cbn [pow] in E. unfold Rdiv in E. rewrite Rinv_1, Rmult_1_r in E. exact E. Qed.
Lemma round_zero f u eta B : arithmetic u eta B f -> (0 <= B)%Z -> f 0 = 0.
Proof. intros H Hk. exact (round_int f u eta B 0 H ltac:(lia)). Qed.
Lemma round_abs f u eta B k x : arithmetic u eta B f -> (0 <= k <= B)%Z -> IZR k <= Rabs x -> IZR k <= Rabs (f x).
Proof.
  intros H Hk Hx. assert (E := round_int f u eta B k H ltac:(lia)). unfold Rabs in Hx. destruct (Rcase_abs x).
  - assert (M := ar_monotone _ _ _ _ H _ _ Hx). rewrite E, (ar_odd _ _ _ _ H) in M. eapply Rle_trans; [exact M|]. rewrite <- Rabs_Ropp. apply Rle_abs.
  - assert (M := ar_monotone _ _ _ _ H _ _ Hx). rewrite E in M. eapply Rle_trans; [exact M|]. apply Rle_abs.
Qed.
(** One squared normalised coordinate. *)
Lemma far_square f u eta B k x w : arithmetic u eta B f -> (2 ^ 22 <= B)%Z -> (0 <= k <= 1000)%Z -> f x = x -> 0 < f w -> IZR k * f w <= Rabs x ->
  IZR (k * k) <= f (f (f (x - f 0) / f w) ^ 2).
Proof.
  intros H HB Hk Hs Hw Hx. rewrite (round_zero f u eta B H ltac:(lia)), Rminus_0_r, Hs.
  assert (Hd : IZR k <= Rabs (x / f w)).
  { unfold Rdiv. rewrite Rabs_mult, (Rabs_pos_eq (/ f w)) by (left; apply Rinv_0_lt_compat; exact Hw).
    apply Rmult_le_reg_r with (f w); [exact Hw|]. rewrite Rmult_assoc, Rinv_l, Rmult_1_r by lra. exact Hx. }
  assert (Q := round_abs f u eta B k _ H ltac:(lia) Hd). set (q := f (x / f w)) in *. clearbody q.
  assert (K0 : 0 <= IZR k) by (apply IZR_le; lia).
  rewrite <- (round_int f u eta B (k * k) H) by nia. apply (ar_monotone _ _ _ _ H). rewrite mult_IZR, <- (pow2_abs q).
  cbn [pow]. rewrite Rmult_1_r. apply Rmult_le_compat; assumption.
Qed.
Lemma far_is_dark a u eta B f_exp kx ky K A w x y : arithmetic u eta B (rnd a) -> (2 ^ 22 <= B)%Z -> underflows f_exp K -> (0 <= kx <= 1000)%Z -> (0 <= ky <= 1000)%Z ->
  (K <= kx * kx + ky * ky)%Z -> rnd a x = x -> rnd a y = y -> 0 < rnd a w -> IZR kx * rnd a w <= Rabs x -> IZR ky * rnd a w <= Rabs y ->
  fl_gaussian a f_exp 0 0 A w x y = 0.
Proof.
  intros H HB HU Hkx Hky HK Sx Sy Hw Hx Hy. unfold fl_gaussian. cbv zeta.
  assert (Qx := far_square _ u eta B kx x w H HB Hkx Sx Hw Hx). assert (Qy := far_square _ u eta B ky y w H HB Hky Sy Hw Hy).
  set (qx := rnd a (rnd a (rnd a (x - rnd a 0) / rnd a w) ^ 2)) in *. set (qy := rnd a (rnd a (rnd a (y - rnd a 0) / rnd a w) ^ 2)) in *. clearbody qx qy.
  assert (Q : IZR (kx * kx + ky * ky) <= rnd a (qx + qy)).
  { rewrite <- (round_int _ u eta B (kx * kx + ky * ky) H) by nia. apply (ar_monotone _ _ _ _ H). rewrite plus_IZR. lra. }
  assert (Q' := IZR_le _ _ HK). rewrite HU by lra. rewrite Rmult_0_r. exact (round_zero _ u eta B H ltac:(lia)).
Qed.
Lemma pow_inv_22 : / 2 ^ 22 = 1 / 4194304. Proof. replace (2 ^ 22) with 4194304 by ring. lra. Qed.
Lemma pow_inv_24 : / 2 ^ 24 = 1 / 16777216. Proof. replace (2 ^ 24) with 16777216 by ring. lra. Qed.
Lemma pow_inv_20 : / 2 ^ 20 = 1 / 1048576. Proof. replace (2 ^ 20) with 1048576 by ring. lra. Qed.
Lemma tiny_split : / 2 ^ 124 = / 2 ^ 90 * (1 / 17179869184).
Proof. replace (2 ^ 124) with (2 ^ 90 * 17179869184) by ring. rewrite Rinv_mult. lra. Qed.
(** Distance of the corner after rounding against the rounded waist. *)
Lemma corner_far (u eta ps w rw : R) (n : nat) (k : Z) (x : R) : 0 <= u <= / 2 ^ 24 -> 0 <= eta <= / 2 ^ 124 -> (0 < n)%nat -> / 2 ^ 90 <= ps -> / 2 ^ 90 <= w -> (0 <= k)%Z ->
  Rabs (rw - w) <= u * Rabs w + eta -> Rabs (Rabs x - INR n / 2 * ps) <= (2 * u + u ^ 2) * (INR n / 2 * ps) + (INR n + 1) * eta ->
  IZR k * w * (1 + / 2 ^ 20) <= INR n / 2 * ps -> 0 < rw /\ IZR k * rw <= Rabs x.
Proof.
  intros Hu He Hn Hp Hw Hk Rw Hx HD. rewrite tiny_split in He. rewrite pow_inv_24 in Hu. rewrite pow_inv_20 in HD.
  assert (T0 : 0 < / 2 ^ 90) by (apply Rinv_0_lt_compat, pow_lt; lra). set (t := / 2 ^ 90) in *. clearbody t.
  assert (N1 : 1 <= INR n) by (change 1 with (INR 1); apply le_INR; lia).
  rewrite (Rabs_pos_eq w) in Rw by lra. apply Rabs_le_inv in Rw. apply Rabs_le_inv in Hx. destruct Rw as [Rw1 Rw2]. destruct Hx as [Hx _].
  assert (K0 : 0 <= IZR k) by (apply IZR_le; lia).
  assert (E1 : u * w <= 1 / 16777216 * w) by (apply Rmult_le_compat_r; lra).
  assert (E0 : 0 <= u * w) by (apply Rmult_le_pos; lra).
  split; [lra|].
  assert (W : rw <= w * (1 + 1 / 8388608)) by lra.
  assert (P : IZR k * rw <= IZR k * w * (1 + 1 / 8388608)) by (rewrite Rmult_assoc; apply Rmult_le_compat_l; assumption).
  set (D := INR n / 2 * ps) in *.
  assert (D0 : INR n / 2 * t <= D) by (unfold D; apply Rmult_le_compat_l; lra).
  assert (E2 : (INR n + 1) * eta <= (2 * INR n) * (t * (1 / 17179869184))) by (apply Rmult_le_compat; lra).
  assert (NT : 0 < INR n * t) by (apply Rmult_lt_0_compat; lra).
  assert (DD : 0 < D) by (unfold D in *; lra). clearbody D.
  assert (E3 : (2 * u + u ^ 2) * D <= 1 / 4194304 * D) by (apply Rmult_le_compat_r; nra).
  assert (Z : 0 <= IZR k * w) by (apply Rmult_le_pos; lra). set (p := IZR k * w) in *. clearbody p. lra.
Qed.
Lemma grid_stable a u eta B Ny Nx ps i j : arithmetic u eta B (rnd a) -> rnd a (fst (fl_grid a Ny Nx ps i j)) = fst (fl_grid a Ny Nx ps i j) /\ rnd a (snd (fl_grid a Ny Nx ps i j)) = snd (fl_grid a Ny Nx ps i j).
Proof. intros H. unfold fl_grid, fl_to_coordinate. cbv zeta. cbn [fst snd]. split; apply (ar_stable _ _ _ _ H). Qed.
Lemma abs_near x c e : 0 <= c -> Rabs (x - c) <= e -> Rabs (Rabs x - c) <= e.
Proof. intros Hc H. eapply Rle_trans; [|exact H]. rewrite <- (Rabs_pos_eq c) at 1 by exact Hc. apply Rabs_triang_inv2. Qed.
