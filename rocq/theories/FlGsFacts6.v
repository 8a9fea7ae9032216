(** A concrete run for C136. *)
From Coq Require Import Reals Lra Lia ZArith Arith List.
From Coquelicot Require Import Complex.
From Verif Require Import Cx Sums DFT LibModel HoloSpec AimSpec FloatModel FloatSpec FloatFacts FringeSpec FlSimModel FlSimSpec NormFacts FlSimFacts FftModel FftSpec FftFacts3 FwdModel FwdSpec FwdFacts2 FlHoloModel FlHoloSpec FlHoloFacts FlGsModel FlGsFacts5.
Import ListNotations.
Open Scope R_scope.

Lemma rsum_delta n k : rsum n (fun j => if (j =? k)%nat then 1 else 0) = if (k <? n)%nat then 1 else 0.
Proof.
  induction n as [|n IH]; [reflexivity|]. cbn [rsum]. rewrite IH. destruct (Nat.eqb_spec n k); destruct (Nat.ltb_spec k n); destruct (Nat.ltb_spec k (S n)); try lia; lra.
Qed.
Lemma norm_delta ny nx r s c : 0 <= c -> norm ny nx (fun i j => RtoC (c * (if ((i =? r) && (j =? s))%bool%nat then 1 else 0))) <= c.
Proof.
  intros Hc. unfold norm. apply Rle_trans with (sqrt (c ^ 2)); [|right; apply (sqrt_pow2 c Hc)]. apply sqrt_le_1_alt. apply Rle_trans with (rsum2 ny nx (fun i j => c ^ 2 * ((if (i =? r)%nat then 1 else 0) * (if (j =? s)%nat then 1 else 0)))).
  { right. apply rsum2_ext. intros i j _ _. rewrite Cmod_R, pow2_abs. destruct (i =? r)%nat; destruct (j =? s)%nat; cbn [andb]; ring. }
  rewrite rsum2_scal_l. assert (Q := pow2_ge_0 c). apply Rle_trans with (c ^ 2 * 1); [|lra]. apply Rmult_le_compat_l; [exact Q|]. unfold rsum2.
  rewrite (rsum_ext ny _ (fun i => (if (s <? nx)%nat then 1 else 0) * (if (i =? r)%nat then 1 else 0))).
  - rewrite rsum_scal_l, rsum_delta. destruct (s <? nx)%nat; destruct (r <? ny)%nat; lra.
  - intros i _. rewrite rsum_scal_l, rsum_delta. ring.
Qed.
Lemma default_mix : let m1 := binary32 0.4 in 0 <= m1 / binary32 (1 - m1) <= 7 / 10.
Proof.
  intros m1. destruct (mix_bounds 0.4 ltac:(lra)) as [M1 M2]. fold m1 in M1, M2. assert (P150 := inv_le 130 150 ltac:(lia)).
  assert (E1 := ar_error _ _ _ _ binary32_arithmetic 0.4). fold m1 in E1. rewrite (Rabs_pos_eq 0.4) in E1 by lra. assert (Y := Rle_abs (m1 - 0.4)). assert (E2 := ar_error _ _ _ _ binary32_arithmetic (1 - m1)).
  set (m2 := binary32 (1 - m1)) in *. assert (Z := Rle_abs (- (m2 - (1 - m1)))). rewrite Rabs_Ropp in Z. set (e5 := / 2 ^ 150) in *. clearbody e5 m1 m2. rewrite (Rabs_pos_eq (1 - m1)) in E2 by lra.
  assert (A : m1 <= 0.401) by lra. assert (/ 2 ^ 24 * (1 - m1) <= / 2 ^ 24 * 1) by (apply Rmult_le_compat_l; lra). assert (B : 0.598 <= m2) by lra. assert (I : 0 < / m2 <= / 0.598) by (split; [apply Rinv_0_lt_compat; lra|apply Rinv_le_contravar; lra]).
  unfold Rdiv. split; [apply Rmult_le_pos; lra|]. apply Rle_trans with (0.401 * / 0.598); [apply Rmult_le_compat; lra|lra].
Qed.
Lemma gs_mraf_case : let E := fun _ _ : nat => RtoC 1 in let T := fun i j : nat => if ((i =? 300) && (j =? 700))%bool%nat then 1 else 0 in let u0 := fun i j => INR (i + j) / 3000 in
  let F := fun _ _ : nat => numpy_ifft2 single double (rounded_table binary64) (direct double (rounded_table binary64)) [30; 36]%nat [40; 48]%nat in
  let G := fun _ _ : nat => numpy_fft2 single double (rounded_forward_table binary64) (direct double (rounded_forward_table binary64)) [30; 36]%nat [40; 48]%nat in let q := rounded_polar binary32 in
  sqrt (image_error 1080 1920 E T (fl_gs_array single q F G 1080 1920 E T u0 200)) <= sqrt (image_error 1080 1920 E T (fl_gs_array single q F G 1080 1920 E T u0 0)) + 1 / 249 /\
  let w := fun _ j : nat => Nat.even j in let m1 := binary32 0.4 in let m2 := binary32 (1 - m1) in let T' := fun i j => m1 / m2 * T i j in let W := fun i j => if w i j then RtoC 1 else RtoC 0 in
  sqrt (window_error 1080 1920 E (fun i j => if w i j then 1 else 0) T' (fl_mraf_array single q F G 1080 1920 E T W 0.4 u0 200)) <=
  sqrt (window_error 1080 1920 E (fun i j => if w i j then 1 else 0) T' (fl_mraf_array single q F G 1080 1920 E T W 0.4 u0 0)) + 1 / 110.
Proof.
  intros E T u0 F G q.
  assert (FA : Forall (fun r => 2 <= r)%nat ([30; 36] ++ [40; 48])%nat) by (repeat constructor; lia).
  assert (L1 : (1080 <= 4096)%nat) by (apply Nat.leb_le; reflexivity). assert (L2 : (1920 <= 4096)%nat) by (apply Nat.leb_le; reflexivity).
  assert (HE : forall i j, (i < 1080)%nat -> (j < 1920)%nat -> E i j = (RtoC 1 * cis 0)%C /\ 0 <= 1) by (intros; split; [unfold E; rewrite cis_0; ring|lra]).
  assert (HT : forall i j, (i < 1080)%nat -> (j < 1920)%nat -> 0 <= T i j) by (intros i j _ _; unfold T; destruct ((i =? 300) && (j =? 700))%bool%nat; lra).
  assert (NE : norm 1080 1920 E / sqrt (INR (1080 * 1920)) = 1).
  { unfold E. rewrite norm_const by lra. rewrite Rmult_1_r. apply Rinv_r. apply Rgt_not_eq. apply sqrt_lt_R0. apply lt_0_INR. apply Nat.mul_pos_pos; apply Nat.ltb_lt; reflexivity. }
  assert (NT : forall c, 0 <= c -> norm 1080 1920 (fun i j => RtoC (c * T i j)) <= c) by (intros; apply norm_delta; assumption).
  assert (K : INR (Z.to_nat 200 - Z.to_nat 0) = 200) by (rewrite INR_IZR_INZ; f_equal; vm_compute; reflexivity).
  split.
  - assert (R := gs_single _ _ [30; 36]%nat [40; 48]%nat E (fun _ _ => 1) 0 T u0 0 200 rounded_table_good rounded_forward_good FA L1 L2 HE HT ltac:(lia)). cbv zeta in R. change (size [30; 36]%nat) with 1080%nat in R. change (size [40; 48]%nat) with 1920%nat in R. rewrite K, NE in R.
    eapply Rle_trans; [exact R|]. apply Rplus_le_compat_l. assert (N1 := NT 1 ltac:(lra)). replace (norm 1080 1920 (fun i j => RtoC (1 * T i j))) with (norm 1080 1920 (fun i j => RtoC (T i j))) in N1 by (apply norm_ext; intros; rewrite Rmult_1_l; reflexivity).
    set (n1 := norm 1080 1920 (fun i j => RtoC (T i j))) in *. clearbody n1. clear - N1. lra.
  - intros w m1 m2 T' W.
    assert (R := mraf_single _ _ [30; 36]%nat [40; 48]%nat E (fun _ _ => 1) 0 T W w 0.4 u0 0 200 rounded_table_good rounded_forward_good FA L1 L2 HE HT ltac:(intros; reflexivity) ltac:(lra) ltac:(lia)). cbv zeta in R. change (size [30; 36]%nat) with 1080%nat in R. change (size [40; 48]%nat) with 1920%nat in R. rewrite K, NE in R.
    eapply Rle_trans; [exact R|]. apply Rplus_le_compat_l. destruct default_mix as [X0 X1]. assert (N1 := NT _ X0).
    match type of N1 with ?n <= ?x => match goal with |- context[norm 1080 1920 ?f] => change (norm 1080 1920 f <= x) in N1; set (n1 := norm 1080 1920 f) in * end; set (xx := x) in * end. clearbody n1 xx. clear - N1 X1. lra.
Qed.
