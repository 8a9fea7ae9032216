(** Rounding errors of one iteration of Gerchberg-Saxton (C136). *)
From Coq Require Import Reals Lra Psatz ZArith Arith List Lia FunctionalExtensionality.
From Coquelicot Require Import Complex.
From Verif Require FlLcosFacts.
From Verif Require Import Cx Sums DFT PyBase ProfileModel SlmModel LibModel SimModel HoloSpec HoloFacts FloatModel FloatSpec FloatFacts FringeSpec FlSimModel FlSimSpec NormFacts FftFacts2 FlHoloModel FlHoloSpec FlHoloFacts FlGsModel.
Open Scope R_scope.

Lemma norm_two ny nx f g h : (forall i j, (i < ny)%nat -> (j < nx)%nat -> Cmod (f i j) <= Cmod (g i j) + Cmod (h i j)) -> norm ny nx f <= norm ny nx g + norm ny nx h.
Proof.
  intros H. eapply Rle_trans; [apply (norm_mod ny nx f (fun i j => Cmod (g i j) + Cmod (h i j)) H)|].
  { intros i j. assert (A := Cmod_ge_0 (g i j)). assert (B := Cmod_ge_0 (h i j)). lra. }
  assert (M := minkowski ny nx (fun i j => RtoC (Cmod (g i j))) (fun i j => RtoC (Cmod (h i j)))).
  assert (Q : forall k, norm ny nx (fun i j => RtoC (Cmod (k i j))) = norm ny nx k). { intros k. unfold norm. f_equal. apply rsum2_ext. intros i j _ _. rewrite Cmod_R, Rabs_pos_eq by apply Cmod_ge_0. reflexivity. }
  rewrite !Q in M. eapply Rle_trans; [|exact M]. right. apply norm_ext. intros i j _ _. rewrite RtoC_plus. reflexivity.
Qed.
Lemma norm_diff ny nx f g h : norm ny nx (fun i j => f i j - h i j)%C <= norm ny nx (fun i j => f i j - g i j)%C + norm ny nx (fun i j => g i j - h i j)%C.
Proof. apply norm_two. intros i j _ _. replace (f i j - h i j)%C with ((f i j - g i j) + (g i j - h i j))%C by ring. apply Cmod_triangle. Qed.
Lemma norm_sym ny nx f g : norm ny nx (fun i j => f i j - g i j)%C = norm ny nx (fun i j => g i j - f i j)%C.
Proof. unfold norm. f_equal. apply rsum2_ext. intros i j _ _. rewrite <- Cmod_opp. do 2 f_equal. ring. Qed.
Lemma norm_le_pt ny nx f g : (forall i j, (i < ny)%nat -> (j < nx)%nat -> Cmod (f i j) <= Cmod (g i j)) -> norm ny nx f <= norm ny nx g.
Proof. intros H. unfold norm. apply sqrt_le_1_alt, rsum2_le. intros i j Hi Hj. apply pow_incr. split; [apply Cmod_ge_0|apply H; assumption]. Qed.
(** Errors proportional to a field, plus a constant. *)
Lemma norm_prop ny nx f g k c : 0 <= k -> 0 <= c -> (forall i j, (i < ny)%nat -> (j < nx)%nat -> Cmod (f i j) <= k * Cmod (g i j) + c) -> norm ny nx f <= k * norm ny nx g + sqrt (INR (ny * nx)) * c.
Proof.
  intros Hk Hc H. rewrite <- (norm_const ny nx c Hc). rewrite <- (Rabs_pos_eq k Hk) at 1. rewrite <- norm_scal. apply norm_two. intros i j Hi Hj. rewrite Cmod_mult, !Cmod_R, !Rabs_pos_eq by assumption. rewrite (Rmult_comm _ k). apply H; assumption.
Qed.
Lemma ifft2_norm' ny nx f : (0 < ny)%nat -> (0 < nx)%nat -> sqrt (INR (ny * nx)) * norm ny nx (ifft2 ny nx f) = norm ny nx f.
Proof.
  intros Hy Hx. assert (Py : 0 < sqrt (INR ny)) by (apply sqrt_lt_R0, lt_0_INR, Hy). assert (Px : 0 < sqrt (INR nx)) by (apply sqrt_lt_R0, lt_0_INR, Hx).
  rewrite ifft2_norm by assumption. rewrite mult_INR, sqrt_mult by apply pos_INR. field. lra.
Qed.
Lemma fft2_norm ny nx f : (0 < ny)%nat -> (0 < nx)%nat -> norm ny nx (fft2 ny nx f) = sqrt (INR (ny * nx)) * norm ny nx f.
Proof.
  intros Hy Hx. rewrite <- (ifft2_norm' ny nx (fft2 ny nx f) Hy Hx). f_equal. apply norm_ext. intros i j Hi Hj. apply ifft2_fft2; assumption.
Qed.
Section Step.
Context (a : fpu) (u eta : R) (B : Z) (v : R).
Hypothesis H : arithmetic u eta B (rnd a).
Hypothesis Hu : 0 <= u <= 1 / 8.
Hypothesis He : 0 <= eta.
Hypothesis HA : FringeSpec.accurate a v.
Hypothesis Huv : u <= v.
Hypothesis Hv : v <= / 16.

Lemma cis_near phi : Cmod (fl_cis a phi - cis phi)%C <= 3 / 2 * v.
Proof.
  destruct HA as [AC AS]. apply FlLcosFacts.Cmod_square; [lra| |]; unfold fl_cis, cis; cbn [fst snd Cminus Cplus Copp].
  - exact (AC phi).
  - exact (AS phi).
Qed.
Lemma modulation_near z phi w : Cmod (cis phi - w)%C <= v -> Cmod (fl_cmul a z (fl_cis a phi) - z * w)%C <= 7 * v * Cmod z + 5 * eta.
Proof.
  intros Hw. assert (C1 := cis_near phi). assert (Z := Cmod_ge_0 z).
  assert (M := FlLcosFacts.cmul_near a u eta B H Hu He z (fl_cis a phi)).
  assert (L : Cmod (fl_cis a phi) <= 1 + 3 / 2 * v). { replace (fl_cis a phi) with ((fl_cis a phi - cis phi) + cis phi)%C by ring. eapply Rle_trans; [apply Cmod_triangle|]. rewrite Cmod_cis. lra. }
  replace (fl_cmul a z (fl_cis a phi) - z * w)%C with ((fl_cmul a z (fl_cis a phi) - z * fl_cis a phi) + (z * (fl_cis a phi - cis phi) + z * (cis phi - w)))%C by ring.
  eapply Rle_trans; [apply Cmod_triangle|]. assert (T2 := Cmod_triangle (z * (fl_cis a phi - cis phi))%C (z * (cis phi - w))%C). rewrite !Cmod_mult in T2.
  set (p := Cmod (fl_cis a phi)) in *. set (q := Cmod (fl_cis a phi - cis phi)%C) in *. set (s := Cmod (cis phi - w)%C) in *. set (y := Cmod z) in *.
  assert (P0 : 0 <= p) by apply Cmod_ge_0. clearbody p q s y.
  assert (S1 : u * (y * p) <= v * (y * (1 + 3 / 2 * v))) by (apply Rmult_le_compat; try lra; [apply Rmult_le_pos; lra|apply Rmult_le_compat_l; lra]).
  assert (S2 : y * q <= y * (3 / 2 * v)) by (apply Rmult_le_compat_l; lra). assert (S3 : y * s <= y * v) by (apply Rmult_le_compat_l; lra).
  assert (S4 : v * (y * (1 + 3 / 2 * v)) <= v * (y * (1 + 3 / 32))) by (apply Rmult_le_compat_l; [lra|]; apply Rmult_le_compat_l; lra).
  assert (VY : 0 <= v * y) by (apply Rmult_le_pos; lra).
  eapply Rle_trans; [apply Rplus_le_compat; [exact M|exact T2]|]. lra.
Qed.
Lemma modulation_rep z w : representable (rnd a) (fl_cmul a z w).
Proof. split; cbn [fst snd fl_cmul]; apply (ar_stable _ _ _ _ H). Qed.
End Step.
