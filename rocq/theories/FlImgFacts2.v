(** The image field after rounding: the whole propagation (C135). *)
From Coq Require Import Reals Lra Psatz ZArith Arith List Bool Lia FunctionalExtensionality.
From Coquelicot Require Import Complex.
From Verif Require Import Cx Sums DFT PyBase ProfileModel SlmModel LibModel DmdModel SimModel SimSpec SimFacts SimFacts2 FloatModel FloatSpec FloatFacts FloatLink FlSimModel FlSimSpec NormFacts FlSimFacts FlSimLink FlLcosFacts FlImgFacts.
Open Scope R_scope.

Lemma fp_norm ny nx ps f : 0 < ps -> sqrt (field_power ny nx (ps ^ 2) f) = ps * norm ny nx f.
Proof. intros P. rewrite sqrt_field_power by (apply pow2_ge_0). rewrite sqrt_pow2 by lra. ring. Qed.
Lemma pad_minus py px ny nx f g i j : pad_fun py px ny nx (fun k l => f k l - g k l)%C i j = (pad_fun py px ny nx f i j - pad_fun py px ny nx g i j)%C.
Proof. unfold pad_fun. destruct (_ && _)%bool; [reflexivity|ring]. Qed.
(** The product of beam and state. *)
Lemma product_near a u eta B ny nx E S' : arithmetic u eta B (rnd a) -> 0 <= u <= 1 / 8 -> 0 <= eta ->
  norm ny nx (fun i j => fl_cmul a (E i j) (S' i j) - E i j * S' i j)%C <= 4 * u * norm ny nx (fun i j => E i j * S' i j)%C + sqrt (INR (ny * nx)) * (5 * eta).
Proof.
  intros H Hu He. eapply Rle_trans; [apply (norm_mod ny nx _ (fun i j => 4 * u * (Cmod (E i j) * Cmod (S' i j)) + 5 * eta))|].
  - intros i j _ _. apply (FlLcosFacts.cmul_near a u eta B H Hu He).
  - intros i j. assert (0 <= Cmod (E i j) * Cmod (S' i j)) by (apply Rmult_le_pos; apply Cmod_ge_0). assert (0 <= u * (Cmod (E i j) * Cmod (S' i j))) by (apply Rmult_le_pos; lra). lra.
  - rewrite (norm_ext ny nx _ (fun i j => RtoC (Cmod (E i j * S' i j)) * RtoC (4 * u) + RtoC (5 * eta))%C) by (intros; rewrite Cmod_mult, <- RtoC_mult, <- RtoC_plus; f_equal; ring).
    eapply Rle_trans; [apply minkowski|]. rewrite norm_scal, (Rabs_pos_eq (4 * u)), norm_const by lra. apply Rplus_le_compat_r. right. f_equal. unfold norm. f_equal. apply rsum2_ext. intros i j _ _. rewrite Cmod_R, Rabs_pos_eq by apply Cmod_ge_0. reflexivity.
Qed.
Lemma image_error_raw a u eta u' eta' B B' F e d Ny Nx py px ps sf E St St' :
  arithmetic u eta B (rnd a) -> (2 ^ 22 <= B)%Z -> arithmetic u' eta' B' (dbl a) -> (2 ^ 40 <= B')%Z -> 0 <= u <= 1 / 8 -> 0 <= eta -> u' <= u -> eta' <= eta ->
  let ny := (py + Ny + py)%nat in let nx := (px + Nx + px)%nat in let N := INR (ny * nx) in
  (0 < Ny)%nat -> (0 < Nx)%nat -> (Z.of_nat (ny * nx) <= 2 ^ 40)%Z -> 0 < ps -> 0 < sf -> far_from_underflow u eta ny nx ps sf ->
  0 <= e -> 0 <= d -> accurate a e d ny nx (F ny nx) ->
  sqrt (field_power ny nx (sf ^ 2 / N / ps ^ 2) (fun i j => fl_to_image a F ny nx ps sf (fl_output a py px Ny Nx E St') i j - exact_of ny nx ps sf (pad_fun py px Ny Nx (fun k l => E k l * St k l)) i j)%C) <=
  ((1 + e) * (1 + 4 * u) ^ 6 - 1) * sqrt (field_power Ny Nx (ps ^ 2) (fun i j => E i j * St' i j)%C) + sqrt (field_power Ny Nx (ps ^ 2) (fun i j => E i j * (St' i j - St i j))%C)
  + (1 + e) * (1 + 4 * u) ^ 5 * (ps * sqrt N * (d + 5 * eta) + 2 * (sf / ps) * eta).
Proof.
  intros H HB H' HB' Hu He Hu' He' ny nx N Hny Hnx HN Hps Hsf FU Pe Pd HF.
  assert (ny0 : (0 < ny)%nat) by (unfold ny; lia). assert (nx0 : (0 < nx)%nat) by (unfold nx; lia).
  assert (N1 : 1 <= N) by (unfold N; change 1 with (INR 1); apply le_INR; nia).
  set (out := fl_output a py px Ny Nx E St'). set (z := pad_fun py px Ny Nx (fun k l => E k l * St k l)%C).
  assert (HR := output_representable a u eta B py px Ny Nx E St' H HB). fold out in HR.
  assert (I1 := image_field a u eta u' eta' B B' H HB H' HB' Hu He Hu' He' ny nx ps sf ny0 nx0 HN Hps Hsf FU F e d out Pe Pd HF (fun i j _ _ => HR i j)).
  assert (SN : 0 < sqrt N) by (apply sqrt_lt_R0; lra). assert (SS : sqrt N * sqrt N = N) by (apply sqrt_sqrt; lra).
  set (A := sf ^ 2 / N / ps ^ 2). assert (PA : 0 < A) by (unfold A; apply Rmult_lt_0_compat; [apply Rmult_lt_0_compat; [apply pow_lt, Hsf|apply Rinv_0_lt_compat; lra]|apply Rinv_0_lt_compat, pow_lt, Hps]).
  assert (Qp : 0 < sf / ps) by (apply Rmult_lt_0_compat; [exact Hsf|apply Rinv_0_lt_compat, Hps]).
  assert (SA : sqrt A = sf / ps * / sqrt N).
  { apply sqrt_lem_1; [lra|apply Rmult_le_pos; [lra|left; apply Rinv_0_lt_compat, SN]|]. unfold A. replace (sf / ps * / sqrt N * (sf / ps * / sqrt N)) with (sf ^ 2 / (sqrt N * sqrt N) / ps ^ 2) by (field; split; lra). rewrite SS. reflexivity. }
  assert (I2 : sqrt (field_power ny nx A (fun i j => exact_of ny nx ps sf out i j - exact_of ny nx ps sf z i j)%C) = ps * norm Ny Nx (fun i j => fl_cmul a (E i j) (St' i j) - E i j * St i j)%C).
  { rewrite <- fp_norm by exact Hps. rewrite <- (pad_power py px Ny Nx). fold ny nx. rewrite <- (exact_power B' HB' ny nx ps sf ny0 nx0 HN Hps Hsf). f_equal. unfold field_power. f_equal. apply rsum2_ext. intros i j _ _. f_equal. f_equal.
    unfold exact_of. replace (shifted ny nx (pad_fun py px Ny Nx (fun i0 j0 => fl_cmul a (E i0 j0) (St' i0 j0) - E i0 j0 * St i0 j0)%C)) with (shifted ny nx (fun k l => out k l - z k l)%C).
    { rewrite shifted_minus. ring. }
    f_equal. apply functional_extensionality. intros k. apply functional_extensionality. intros l. symmetry. apply pad_minus. }
  assert (EP : forall g, sqrt (field_power ny nx A g) = sqrt A * norm ny nx g) by (intros g; rewrite sqrt_field_power by lra; ring).
  rewrite !EP in I2. rewrite EP.
  assert (S3 := exact_power B' HB' ny nx ps sf ny0 nx0 HN Hps Hsf out). fold N in S3. fold A in S3. rewrite EP in S3. assert (PO : field_power ny nx (ps ^ 2) out = field_power Ny Nx (ps ^ 2) (fun i j => fl_cmul a (E i j) (St' i j))) by apply pad_power. rewrite PO, fp_norm in S3 by exact Hps. clear PO.
  unfold exact_of in S3 at 1. rewrite norm_scal in S3. fold N in I1, S3.
  assert (PK : 0 < N * ps ^ 2 / sf) by (apply Rmult_lt_0_compat; [apply Rmult_lt_0_compat; [lra|apply pow_lt, Hps]|apply Rinv_0_lt_compat, Hsf]). rewrite Rabs_pos_eq in S3 by lra.
  assert (AK : sqrt A * (N * ps ^ 2 / sf) = ps * sqrt N). { rewrite SA. assert (Q : N * / sqrt N = sqrt N) by (apply Rmult_eq_reg_r with (sqrt N); [rewrite Rmult_assoc, Rinv_l by lra; lra|lra]). rewrite <- Q at 2. field. repeat split; lra. }
  assert (AN : sqrt A * sqrt N = sf / ps) by (rewrite SA; field; split; lra).
  set (K := N * ps ^ 2 / sf) in *. set (n0 := norm ny nx (shifted ny nx out)) in *. clearbody n0.
  assert (NN : sqrt (INR (Ny * Nx)) <= sqrt N) by (apply sqrt_le_1_alt, le_INR; unfold ny, nx; nia).
  assert (PN := product_near a u eta B Ny Nx E St' H Hu He). 
  rewrite !fp_norm by exact Hps. set (p' := norm Ny Nx (fun i j => E i j * St' i j)%C) in *. assert (P' : 0 <= p') by apply norm_ge_0.
  set (q := norm Ny Nx (fun i j => fl_cmul a (E i j) (St' i j) - E i j * St' i j)%C) in *.
  assert (q1 : q <= 4 * u * p' + sqrt N * (5 * eta)) by (assert (sqrt (INR (Ny * Nx)) * (5 * eta) <= sqrt N * (5 * eta)) by (apply Rmult_le_compat_r; lra); lra).
  assert (O1 : norm Ny Nx (fun i j => fl_cmul a (E i j) (St' i j)) <= q + p').
  { rewrite (norm_ext Ny Nx _ (fun i j => (fl_cmul a (E i j) (St' i j) - E i j * St' i j) + E i j * St' i j)%C) by (intros; ring). apply minkowski. }
  set (dd := norm Ny Nx (fun i j => E i j * (St' i j - St i j))%C).
  assert (O2 : norm Ny Nx (fun i j => fl_cmul a (E i j) (St' i j) - E i j * St i j)%C <= q + dd).
  { rewrite (norm_ext Ny Nx _ (fun i j => (fl_cmul a (E i j) (St' i j) - E i j * St' i j) + E i j * (St' i j - St i j))%C) by (intros; ring). apply minkowski. }
  set (o1 := norm Ny Nx (fun i j => fl_cmul a (E i j) (St' i j))) in *. set (o2 := norm Ny Nx (fun i j => fl_cmul a (E i j) (St' i j) - E i j * St i j)%C) in *.
  assert (T : sqrt A * norm ny nx (fun i j => fl_to_image a F ny nx ps sf out i j - exact_of ny nx ps sf z i j)%C <=
     sqrt A * norm ny nx (fun i j => fl_to_image a F ny nx ps sf out i j - exact_of ny nx ps sf out i j)%C + ps * o2).
  { rewrite <- I2, <- Rmult_plus_distr_l. apply Rmult_le_compat_l; [apply sqrt_pos|]. rewrite (norm_ext ny nx _ (fun i j => (fl_to_image a F ny nx ps sf out i j - exact_of ny nx ps sf out i j) + (exact_of ny nx ps sf out i j - exact_of ny nx ps sf z i j))%C) by (intros; ring). apply minkowski. }
  eapply Rle_trans; [exact T|]. apply (Rmult_le_compat_l (sqrt A) _ _ (sqrt_pos A)) in I1.
  eapply Rle_trans; [apply Rplus_le_compat; [exact I1|apply Rmult_le_compat_l; [lra|exact O2]]|].
  assert (V5 := pow_ge_1 (4 * u) 5 ltac:(lra)). set (c := (1 + 4 * u) ^ 5) in *. replace ((1 + 4 * u) ^ 6) with (c * (1 + 4 * u)) by (unfold c; ring). clearbody c.
  replace (sqrt A * (((1 + e) * c - 1) * (K * n0) + c * (K * d) + 2 * sqrt N * eta)) with (((1 + e) * c - 1) * (sqrt A * (n0 * K)) + c * (sqrt A * K * d) + 2 * (sqrt A * sqrt N) * eta) by ring.
  replace (K * n0) with (n0 * K) in S3 by ring. rewrite ?(Rmult_comm K n0) in S3. rewrite S3, AK, AN.
  assert (W0 : 0 <= (1 + e) * c - 1) by nra.
  assert (W1 : ((1 + e) * c - 1) * (ps * o1) <= ((1 + e) * c - 1) * (ps * (4 * u * p' + sqrt N * (5 * eta) + p'))) by (apply Rmult_le_compat_l; [exact W0|apply Rmult_le_compat_l; lra]).
  assert (W2 : ps * (q + dd) <= ps * (4 * u * p' + sqrt N * (5 * eta) + dd)) by (apply Rmult_le_compat_l; lra).
  assert (X1 : 0 <= ps * sqrt N) by (apply Rmult_le_pos; lra). assert (X2 : 0 <= ps * sqrt N * d) by (apply Rmult_le_pos; assumption). assert (X3 : 0 <= ps * sqrt N * eta) by (apply Rmult_le_pos; assumption). assert (X4 : 0 <= sf / ps * eta) by (apply Rmult_le_pos; lra).
  assert (X5 : 0 <= e * c) by (apply Rmult_le_pos; lra). assert (X6 : 0 <= e * c * (ps * sqrt N * d)) by (apply Rmult_le_pos; assumption).
  assert (X7 : sf / ps * eta <= (1 + e) * c * (sf / ps * eta)) by nra.
  replace (((1 + e) * (c * (1 + 4 * u)) - 1) * (ps * p') + ps * dd + (1 + e) * c * (ps * sqrt N * (d + 5 * eta) + 2 * (sf / ps) * eta)) with
    (((1 + e) * c - 1) * (ps * (4 * u * p' + sqrt N * (5 * eta) + p')) + ps * (4 * u * p' + sqrt N * (5 * eta) + dd) + (c * (ps * sqrt N * d) + e * c * (ps * sqrt N * d) + 2 * ((1 + e) * c * (sf / ps * eta)))) by ring.
  lra.
Qed.
