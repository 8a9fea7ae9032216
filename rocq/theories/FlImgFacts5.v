(** The image of an LCOS and of switched mirrors after rounding (C135). *)
From Coq Require Import Reals Lra Psatz ZArith Arith List Bool Lia.
From Coquelicot Require Import Complex.
From Verif Require HoloFacts2 FlLcosFacts.
From Verif Require Import Cx Sums DFT PyBase ProfileModel SlmModel LibModel DmdModel SimModel SimSpec SimFacts SimFacts2 DmdSpec DmdThms FloatModel FloatSpec FloatFacts FringeSpec FlSimModel FlSimSpec NormFacts FlSimFacts FlSimLink FlLcosModel FftModel FftSpec FftFacts3 FwdModel FwdSpec FlHoloModel FlHoloSpec FlHoloFacts4 FlImgFacts2 FlImgFacts3 FlImgFacts4.
Open Scope R_scope.

(** Any device whose state has modulus at most one, read with an error of at most b. *)
Lemma states_image a u eta u' eta' B B' F e d h dev m arg E St St' b m' I :
  arithmetic u eta B (rnd a) -> (2 ^ 22 <= B)%Z -> arithmetic u' eta' B' (dbl a) -> (2 ^ 40 <= B')%Z -> 0 <= u <= 1 / 8 -> 0 <= eta -> u' <= u -> eta' <= eta ->
  let s := dev_slm dev in let ny := NY s m in let nx := NX s m in let ps := pixel_size s in let sf := scaling_factor s in let N := INR (ny * nx) in
  full_state dev St -> (forall i j, (i < s_Ny s)%nat -> (j < s_Nx s)%nat -> Cmod (St i j) <= 1 /\ Cmod (St' i j - St i j)%C <= b) -> 0 <= b ->
  full_input h s arg E -> propagate_to_image h dev m arg = (m', Ok tt) -> field_is (f_image m') ny nx I ->
  (0 < s_Ny s)%nat -> (0 < s_Nx s)%nat -> (Z.of_nat (ny * nx) <= 2 ^ 40)%Z -> 0 < ps -> 0 < sf -> far_from_underflow u eta ny nx ps sf ->
  0 <= e -> 0 <= d -> FlSimSpec.accurate a e d ny nx (F ny nx) ->
  let image := fl_to_image a F ny nx ps sf (fl_output a (Z.to_nat (pad_y m)) (Z.to_nat (pad_x m)) (s_Ny s) (s_Nx s) E St') in
  sqrt (field_power ny nx (sf ^ 2 / N / ps ^ 2) (fun i j => image i j - I i j)%C) <=
  (((1 + e) * (1 + 4 * u) ^ 6 - 1) * (1 + b) + b) * sqrt (field_power (s_Ny s) (s_Nx s) (ps ^ 2) E)
  + (1 + e) * (1 + 4 * u) ^ 5 * (ps * sqrt N * (d + 5 * eta) + 2 * (sf / ps) * eta).
Proof.
  intros H HB H' HB' Hu He Hu' He' s ny nx ps sf N FS V Hb FI HP HI Hy Hx HN Hps Hsf FU Pe Pd HF image.
  eapply Rle_trans; [apply (image_error a u eta u' eta' B B' F e d h dev m arg E St St' m' I H HB H' HB' Hu He Hu' He' FI FS HP HI Hy Hx HN Hps Hsf FU Pe Pd HF)|].
  fold s ps sf ny nx N. apply Rplus_le_compat_r. rewrite !fp_norm by exact Hps.
  assert (S1 : norm (s_Ny s) (s_Nx s) (fun i j => E i j * St' i j)%C <= (1 + b) * norm (s_Ny s) (s_Nx s) E).
  { rewrite <- (Rabs_pos_eq (1 + b)) by lra. rewrite <- norm_scal. unfold norm. apply sqrt_le_1_alt. apply rsum2_le. intros i j Hi Hj. destruct (V i j Hi Hj) as (V1 & V2). rewrite !Cmod_mult, !Cmod_R. apply pow_incr. split; [apply Rmult_le_pos; apply Cmod_ge_0|]. apply Rmult_le_compat_l; [apply Cmod_ge_0|].
    rewrite (Rabs_pos_eq (1 + b)) by lra. replace (St' i j) with ((St' i j - St i j) + St i j)%C by ring. eapply Rle_trans; [apply Cmod_triangle|]. lra. }
  assert (S2 : norm (s_Ny s) (s_Nx s) (fun i j => E i j * (St' i j - St i j))%C <= b * norm (s_Ny s) (s_Nx s) E).
  { rewrite <- (Rabs_pos_eq b) by lra. rewrite <- norm_scal. unfold norm. apply sqrt_le_1_alt. apply rsum2_le. intros i j Hi Hj. destruct (V i j Hi Hj) as (_ & V2). rewrite !Cmod_mult, !Cmod_R. apply pow_incr. split; [apply Rmult_le_pos; apply Cmod_ge_0|]. apply Rmult_le_compat_l; [apply Cmod_ge_0|].
    rewrite (Rabs_pos_eq b) by lra. exact V2. }
  assert (W : 0 <= (1 + e) * (1 + 4 * u) ^ 6 - 1) by (assert (Q := pow_ge_1 (4 * u) 6 ltac:(lra)); nra). set (ee := (1 + e) * (1 + 4 * u) ^ 6 - 1) in *. clearbody ee.
  set (n := norm (s_Ny s) (s_Nx s) E) in *. replace ((ee * (1 + b) + b) * (ps * n)) with (ee * (ps * ((1 + b) * n)) + ps * (b * n)) by ring.
  apply Rplus_le_compat; [apply Rmult_le_compat_l; [exact W|]|]; apply Rmult_le_compat_l; lra.
Qed.
(** An LCOS whose phases are bounded. *)
Lemma lcos_image a u eta u' eta' v B B' F e d h l m arg E phi m' I :
  arithmetic u eta B (rnd a) -> (2 ^ 22 <= B)%Z -> arithmetic u' eta' B' (dbl a) -> (2 ^ 40 <= B')%Z -> 0 <= u <= 1 / 8 -> 0 <= eta -> u' <= u -> eta' <= eta ->
  FringeSpec.accurate a v -> u <= v -> eta <= v ->
  let s := l_slm l in let ny := NY s m in let nx := NX s m in let ps := pixel_size s in let sf := scaling_factor s in let N := INR (ny * nx) in
  l_state l = LReal (s_Ny s) (s_Nx s) phi -> (forall i j, (i < s_Ny s)%nat -> (j < s_Nx s)%nat -> Rabs (phi i j) <= 7) ->
  full_input h s arg E -> propagate_to_image h (DevLcos l) m arg = (m', Ok tt) -> field_is (f_image m') ny nx I ->
  (0 < s_Ny s)%nat -> (0 < s_Nx s)%nat -> (Z.of_nat (ny * nx) <= 2 ^ 40)%Z -> 0 < ps -> 0 < sf -> far_from_underflow u eta ny nx ps sf ->
  0 <= e -> 0 <= d -> FlSimSpec.accurate a e d ny nx (F ny nx) ->
  let image := fl_to_image a F ny nx ps sf (fl_output a (Z.to_nat (pad_y m)) (Z.to_nat (pad_x m)) (s_Ny s) (s_Nx s) E (fun i j => fl_phase_factor a (phi i j))) in
  sqrt (field_power ny nx (sf ^ 2 / N / ps ^ 2) (fun i j => image i j - I i j)%C) <=
  (((1 + e) * (1 + 4 * u) ^ 6 - 1) * (1 + 27 / 2 * v) + 27 / 2 * v) * sqrt (field_power (s_Ny s) (s_Nx s) (ps ^ 2) E)
  + (1 + e) * (1 + 4 * u) ^ 5 * (ps * sqrt N * (d + 5 * eta) + 2 * (sf / ps) * eta).
Proof.
  intros H HB H' HB' Hu He Hu' He' HA Huv Hev s ny nx ps sf N LS V FI HP HI Hy Hx HN Hps Hsf FU Pe Pd HF image.
  assert (FS := HoloFacts2.lcos_full_state l phi LS).
  assert (VV : forall i j, (i < s_Ny s)%nat -> (j < s_Nx s)%nat -> Cmod (cis (- phi i j)) <= 1 /\ Cmod (fl_phase_factor a (phi i j) - cis (- phi i j))%C <= 27 / 2 * v).
  { intros i j Hi Hj. split; [rewrite Cmod_cis; lra|]. exact (FlLcosFacts.factor_accurate a u eta B H Hu v (phi i j) HA Huv Hev (V i j Hi Hj)). }
  exact (states_image a u eta u' eta' B B' F e d h (DevLcos l) m arg E _ _ (27 / 2 * v) m' I H HB H' HB' Hu He Hu' He' FS VV ltac:(lra) FI HP HI Hy Hx HN Hps Hsf FU Pe Pd HF).
Qed.
