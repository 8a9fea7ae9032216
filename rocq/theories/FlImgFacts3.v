(** The image field after rounding: simulations and holograms (C135). *)
From Coq Require Import Reals Lra Psatz ZArith Arith List Bool Lia FunctionalExtensionality.
From Coquelicot Require Import Complex.
From Verif Require Import Cx Sums DFT PyBase ProfileModel SlmModel LibModel DmdModel SimModel SimSpec SimFacts SimFacts2 DmdSpec DmdThms AmpFacts4 FloatModel FloatSpec FloatFacts FloatLink FlSimModel FlSimSpec NormFacts FlSimFacts FlSimLink FftModel FftSpec FftFacts3 FwdModel FwdSpec FlHoloModel FlHoloSpec FlHoloFacts4 FlImgFacts FlImgFacts2.
Open Scope R_scope.

(** A simulation in floating point with the state St', against the model with the state St. *)
Lemma image_error a u eta u' eta' B B' F e d h dev m arg E St St' m' I :
  arithmetic u eta B (rnd a) -> (2 ^ 22 <= B)%Z -> arithmetic u' eta' B' (dbl a) -> (2 ^ 40 <= B')%Z -> 0 <= u <= 1 / 8 -> 0 <= eta -> u' <= u -> eta' <= eta ->
  let s := dev_slm dev in let ny := NY s m in let nx := NX s m in let ps := pixel_size s in let sf := scaling_factor s in let N := INR (ny * nx) in
  full_input h s arg E -> full_state dev St -> propagate_to_image h dev m arg = (m', Ok tt) -> field_is (f_image m') ny nx I ->
  (0 < s_Ny s)%nat -> (0 < s_Nx s)%nat -> (Z.of_nat (ny * nx) <= 2 ^ 40)%Z -> 0 < ps -> 0 < sf -> far_from_underflow u eta ny nx ps sf ->
  0 <= e -> 0 <= d -> accurate a e d ny nx (F ny nx) ->
  let image := fl_to_image a F ny nx ps sf (fl_output a (Z.to_nat (pad_y m)) (Z.to_nat (pad_x m)) (s_Ny s) (s_Nx s) E St') in
  sqrt (field_power ny nx (sf ^ 2 / N / ps ^ 2) (fun i j => image i j - I i j)%C) <=
  ((1 + e) * (1 + 4 * u) ^ 6 - 1) * sqrt (field_power (s_Ny s) (s_Nx s) (ps ^ 2) (fun i j => E i j * St' i j)%C)
  + sqrt (field_power (s_Ny s) (s_Nx s) (ps ^ 2) (fun i j => E i j * (St' i j - St i j))%C)
  + (1 + e) * (1 + 4 * u) ^ 5 * (ps * sqrt N * (d + 5 * eta) + 2 * (sf / ps) * eta).
Proof.
  intros H HB H' HB' Hu He Hu' He' s ny nx ps sf N FI FS HP HI Hy Hx HN Hps Hsf FU Pe Pd HF image.
  destruct (propagate_inv h dev m arg E St m' FI FS HP) as (Py & Px & _ & _ & _ & _ & _ & Hi). fold s ny nx in Hi.
  destruct (field_is_inj _ _ _ _ _ _ _ HI Hi) as (_ & _ & EI).
  set (py := Z.to_nat (pad_y m)) in *. set (px := Z.to_nat (pad_x m)) in *.
  assert (Ey : ny = (py + s_Ny s + py)%nat) by (unfold ny, NY, py; lia). assert (Ex : nx = (px + s_Nx s + px)%nat) by (unfold nx, NX, px; lia).
  assert (R := image_error_raw a u eta u' eta' B B' F e d (s_Ny s) (s_Nx s) py px ps sf E St St' H HB H' HB' Hu He Hu' He'). cbv zeta in R. rewrite <- Ey, <- Ex in R. specialize (R Hy Hx HN Hps Hsf FU Pe Pd HF).
  eapply Rle_trans; [|exact R]. right. f_equal. unfold field_power. f_equal. apply rsum2_ext. intros i j Hi' Hj'. f_equal. f_equal. fold image. f_equal. f_equal. rewrite EI by assumption. unfold exact_of, shifted. f_equal.
  f_equal. unfold norm_of. fold N ps sf. assert (EN : N = IZR (sim_Nx s m * sim_Ny s m)).
  { unfold N. rewrite INR_IZR_INZ. f_equal. unfold ny, nx, NY, NX, sim_Nx, sim_Ny in *. rewrite Nat2Z.inj_mul, !Z2Nat.id by lia. ring. }
  rewrite <- EN. reflexivity.
Qed.
(** Grey levels within b of the exact ones. *)
Lemma levels_image a u eta u' eta' B B' F e d h dm m arg E g X r b m' I :
  arithmetic u eta B (rnd a) -> (2 ^ 22 <= B)%Z -> arithmetic u' eta' B' (dbl a) -> (2 ^ 40 <= B')%Z -> 0 <= u <= 1 / 8 -> 0 <= eta -> u' <= u -> eta' <= eta ->
  let s := d_slm dm in let ny := NY s m in let nx := NX s m in let ps := pixel_size s in let sf := scaling_factor s in let N := INR (ny * nx) in
  d_state dm = DFloat (s_Ny s) (s_Nx s) g -> (forall i j, in_array dm i j -> g i j = Fin (r i j) /\ Rabs (r i j) <= 1 /\ Rabs (X i j - r i j) <= b) -> 0 <= b ->
  full_input h s arg E -> propagate_to_image h (DevDmd dm) m arg = (m', Ok tt) -> field_is (f_image m') ny nx I ->
  (0 < s_Ny s)%nat -> (0 < s_Nx s)%nat -> (Z.of_nat (ny * nx) <= 2 ^ 40)%Z -> 0 < ps -> 0 < sf -> far_from_underflow u eta ny nx ps sf ->
  0 <= e -> 0 <= d -> accurate a e d ny nx (F ny nx) ->
  let image := fl_to_image a F ny nx ps sf (fl_output a (Z.to_nat (pad_y m)) (Z.to_nat (pad_x m)) (s_Ny s) (s_Nx s) E (fun i j => RtoC (X i j))) in
  sqrt (field_power ny nx (sf ^ 2 / N / ps ^ 2) (fun i j => image i j - I i j)%C) <=
  (((1 + e) * (1 + 4 * u) ^ 6 - 1) * (1 + b) + b) * sqrt (field_power (s_Ny s) (s_Nx s) (ps ^ 2) E)
  + (1 + e) * (1 + 4 * u) ^ 5 * (ps * sqrt N * (d + 5 * eta) + 2 * (sf / ps) * eta).
Proof.
  intros H HB H' HB' Hu He Hu' He' s ny nx ps sf N DS V Hb FI HP HI Hy Hx HN Hps Hsf FU Pe Pd HF image.
  assert (FS : full_state (DevDmd dm) (fun i j => RtoC (xr_val (g i j)))).
  { apply (state_float_in dm (s_Ny s) (s_Nx s) g r DS eq_refl eq_refl). intros i j Hi Hj. apply V. split; assumption. }
  eapply Rle_trans; [apply (image_error a u eta u' eta' B B' F e d h (DevDmd dm) m arg E _ (fun i j => RtoC (X i j)) m' I H HB H' HB' Hu He Hu' He' FI FS HP HI Hy Hx HN Hps Hsf FU Pe Pd HF)|].
  change (dev_slm (DevDmd dm)) with s. fold ps sf ny nx N. apply Rplus_le_compat_r. rewrite !fp_norm by exact Hps.
  assert (S1 : norm (s_Ny s) (s_Nx s) (fun i j => E i j * RtoC (X i j))%C <= (1 + b) * norm (s_Ny s) (s_Nx s) E).
  { rewrite <- (Rabs_pos_eq (1 + b)) by lra. rewrite <- norm_scal. unfold norm. apply sqrt_le_1_alt. apply rsum2_le. intros i j Hi Hj. destruct (V i j (conj Hi Hj)) as (_ & V1 & V2). rewrite !Cmod_mult, !Cmod_R. apply pow_incr. split; [apply Rmult_le_pos; [apply Cmod_ge_0|apply Rabs_pos]|]. apply Rmult_le_compat_l; [apply Cmod_ge_0|].
    rewrite (Rabs_pos_eq (1 + b)) by lra. replace (X i j) with ((X i j - r i j) + r i j) by ring. eapply Rle_trans; [apply Rabs_triang|]. lra. }
  assert (S2 : norm (s_Ny s) (s_Nx s) (fun i j => E i j * (RtoC (X i j) - RtoC (xr_val (g i j))))%C <= b * norm (s_Ny s) (s_Nx s) E).
  { rewrite <- (Rabs_pos_eq b) by lra. rewrite <- norm_scal. unfold norm. apply sqrt_le_1_alt. apply rsum2_le. intros i j Hi Hj. destruct (V i j (conj Hi Hj)) as (V0 & _ & V2). rewrite V0. cbn [xr_val]. rewrite <- RtoC_minus, !Cmod_mult, !Cmod_R. apply pow_incr. split; [apply Rmult_le_pos; [apply Cmod_ge_0|apply Rabs_pos]|]. apply Rmult_le_compat_l; [apply Cmod_ge_0|].
    rewrite (Rabs_pos_eq b) by lra. exact V2. }
  assert (W : 0 <= (1 + e) * (1 + 4 * u) ^ 6 - 1) by (assert (Q := pow_ge_1 (4 * u) 6 ltac:(lra)); nra). set (ee := (1 + e) * (1 + 4 * u) ^ 6 - 1) in *. clearbody ee.
  set (n := norm (s_Ny s) (s_Nx s) E) in *. replace ((ee * (1 + b) + b) * (ps * n)) with (ee * (ps * ((1 + b) * n)) + ps * (b * n)) by ring.
  apply Rplus_le_compat; [apply Rmult_le_compat_l; [exact W|]|]; apply Rmult_le_compat_l; lra.
Qed.
