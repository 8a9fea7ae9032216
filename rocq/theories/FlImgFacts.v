(** The image field after rounding (C135). *)
From Coq Require Import Reals Lra Psatz ZArith Arith List Bool Lia FunctionalExtensionality.
From Coquelicot Require Import Complex.
From Verif Require Import Cx Sums DFT PyBase ProfileModel SlmModel LibModel DmdModel SimModel SimSpec SimFacts2 FloatModel FloatSpec FloatFacts FlSimModel FlSimSpec NormFacts FlSimFacts FlSimLink FlLcosFacts.
Open Scope R_scope.

Section Image.
Variables (a : fpu) (u eta u' eta' : R) (B B' : Z).
Hypotheses (H : arithmetic u eta B (rnd a)) (HB : (2 ^ 22 <= B)%Z) (H' : arithmetic u' eta' B' (dbl a)) (HB' : (2 ^ 40 <= B')%Z).
Hypotheses (Hu : 0 <= u <= 1 / 8) (He : 0 <= eta) (Hu' : u' <= u) (He' : eta' <= eta).
Variables (ny nx : nat) (ps sf : R).
Let N := INR (ny * nx).
Hypotheses (Hny : (0 < ny)%nat) (Hnx : (0 < nx)%nat) (HN : (Z.of_nat (ny * nx) <= 2 ^ 40)%Z) (Hps : 0 < ps) (Hsf : 0 < sf) (FU : far_from_underflow u eta ny nx ps sf).
Let K := N * ps ^ 2 / sf.
Let A := sf ^ 2 / N / ps ^ 2.
Definition shifted (g : nat -> nat -> C) (i j : nat) : C := fftshift2 ny nx (ifft2 ny nx (ifftshift2 ny nx g)) i j.
Definition exact_of (g : nat -> nat -> C) (i j : nat) : C := (shifted g i j * RtoC K)%C.
Let N1 : 1 <= N. Proof. unfold N. change 1 with (INR 1). apply le_INR. nia. Qed.
Let PK : 0 < K. Proof. unfold K. apply Rmult_lt_0_compat; [apply Rmult_lt_0_compat; [lra|apply pow_lt, Hps]|apply Rinv_0_lt_compat, Hsf]. Qed.
Let PA : 0 < A. Proof. unfold A. apply Rmult_lt_0_compat; [apply Rmult_lt_0_compat; [apply pow_lt, Hsf|apply Rinv_0_lt_compat; lra]|apply Rinv_0_lt_compat, pow_lt, Hps]. Qed.

Lemma shifted_minus f g i j : shifted (fun k l => f k l - g k l)%C i j = (shifted f i j - shifted g i j)%C.
Proof. unfold shifted, fftshift2. rewrite <- ifft2_minus. reflexivity. Qed.
Lemma exact_power g : sqrt (field_power ny nx A (exact_of g)) = sqrt (field_power ny nx (ps ^ 2) g).
Proof.
  rewrite <- (exact_image (2 ^ 40) ltac:(lia) ny nx ps sf Hny Hnx HN Hps Hsf g). fold N. fold K. fold A. rewrite sqrt_field_power by lra.
  unfold exact_of. rewrite norm_scal, Rabs_pos_eq by lra. fold (shifted g). change (fftshift2 ny nx (ifft2 ny nx (ifftshift2 ny nx g))) with (shifted g). ring.
Qed.
(** The transform and the multiplication by the factor. *)
Lemma image_field F e d out : 0 <= e -> 0 <= d -> accurate a e d ny nx (F ny nx) -> (forall i j, (i < ny)%nat -> (j < nx)%nat -> representable (rnd a) (out i j)) ->
  norm ny nx (fun i j => fl_to_image a F ny nx ps sf out i j - exact_of out i j)%C <=
  ((1 + e) * (1 + 4 * u) ^ 5 - 1) * (K * norm ny nx (shifted out)) + (1 + 4 * u) ^ 5 * (K * d) + 2 * sqrt N * eta.
Proof.
  intros Pe Pd HF HR. pose proof (factor_near a u eta u' eta' B B' H H' HB' Hu He Hu' He' ny nx ps sf Hny Hnx HN Hps Hsf FU) as K1. fold N in K1. fold K in K1. unfold fl_to_image.
  set (Kh := rnd a (fl_norm_factor a ny nx ps sf)) in *. clearbody Kh.
  set (y0 := shifted out). set (y1 := fftshift2 ny nx (F ny nx (ifftshift2 ny nx out))).
  assert (V4 := pow_ge_1 (4 * u) 4 ltac:(lra)). set (c := (1 + 4 * u) ^ 4) in *. assert (C5 : (1 + 4 * u) ^ 5 = c * (1 + 4 * u)) by (unfold c; ring). rewrite C5. clearbody c.
  unfold near in K1. rewrite (Rabs_pos_eq K), Rplus_0_r in K1 by lra.
  assert (D1 : norm ny nx (fun i j => y1 i j - y0 i j)%C <= e * norm ny nx y0 + d).
  { unfold y0, y1. change (fun i j => fftshift2 ny nx (F ny nx (ifftshift2 ny nx out)) i j - shifted out i j)%C with (fftshift2 ny nx (fun i j => F ny nx (ifftshift2 ny nx out) i j - ifft2 ny nx (ifftshift2 ny nx out) i j)%C).
    rewrite norm_shift. change (shifted out) with (fftshift2 ny nx (ifft2 ny nx (ifftshift2 ny nx out))). rewrite norm_shift. apply HF. intros i j Hi Hj. unfold ifftshift2. apply HR; apply Nat.mod_upper_bound; lia. }
  set (n0 := norm ny nx y0) in *. assert (P0 : 0 <= n0) by apply norm_ge_0.
  assert (D1' : norm ny nx y1 <= (1 + e) * n0 + d).
  { rewrite (norm_ext ny nx y1 (fun i j => (y1 i j - y0 i j) + y0 i j)%C) by (intros; ring). eapply Rle_trans; [apply minkowski|]. fold n0. lra. }
  set (n1 := norm ny nx y1) in *. assert (P1 : 0 <= n1) by apply norm_ge_0.
  (* the rounded product *)
  assert (D2 : norm ny nx (fun i j => fl_cmul a (y1 i j) (RtoC Kh) - y1 i j * RtoC Kh)%C <= u * (Rabs Kh * n1) + 2 * sqrt N * eta).
  { rewrite (norm_ext ny nx _ (fun i j => (rnd a (fst (y1 i j * RtoC Kh)%C), rnd a (snd (y1 i j * RtoC Kh)%C)) - y1 i j * RtoC Kh)%C) by (intros; rewrite (FlSimFacts.cmul_real a u eta B H HB); reflexivity).
    eapply Rle_trans; [apply (round_norm a u eta B H Hu He)|]. rewrite norm_scal. fold n1. apply Rle_refl. }
  assert (Kb : Rabs Kh <= c * K). { replace Kh with ((Kh - K) + K) by ring. eapply Rle_trans; [apply Rabs_triang|]. rewrite (Rabs_pos_eq K) by lra. lra. }
  (* the factor *)
  assert (D3 : norm ny nx (fun i j => y1 i j * RtoC Kh - y0 i j * RtoC K)%C <= Rabs Kh * (e * n0 + d) + (c - 1) * K * n0).
  { rewrite (norm_ext ny nx _ (fun i j => (y1 i j - y0 i j) * RtoC Kh + y0 i j * RtoC (Kh - K))%C) by (intros; rewrite RtoC_minus; ring).
    eapply Rle_trans; [apply minkowski|]. rewrite !norm_scal. fold n0. apply Rplus_le_compat; [apply Rmult_le_compat_l; [apply Rabs_pos|exact D1]|apply Rmult_le_compat_r; [exact P0|exact K1]]. }
  rewrite (norm_ext ny nx _ (fun i j => (fl_cmul a (y1 i j) (RtoC Kh) - y1 i j * RtoC Kh) + (y1 i j * RtoC Kh - y0 i j * RtoC K))%C) by (intros; unfold exact_of; change (shifted out i j) with (y0 i j); change (fftshift2 ny nx (F ny nx (ifftshift2 ny nx out)) i j) with (y1 i j); ring).
  eapply Rle_trans; [apply minkowski|]. eapply Rle_trans; [apply Rplus_le_compat; [exact D2|exact D3]|].
  assert (Q0 : 0 <= e * n0 + d) by (assert (0 <= e * n0) by (apply Rmult_le_pos; assumption); lra).
  assert (Q1 : Rabs Kh * (e * n0 + d) <= c * K * (e * n0 + d)) by (apply Rmult_le_compat_r; assumption).
  assert (Q2 : Rabs Kh * n1 <= c * K * ((1 + e) * n0 + d)) by (apply Rmult_le_compat; try assumption; apply Rabs_pos).
  assert (Q3 : u * (Rabs Kh * n1) <= u * (c * K * ((1 + e) * n0 + d))) by (apply Rmult_le_compat_l; [lra|exact Q2]).
  assert (Q4 : 0 <= c * K * ((1 + e) * n0 + d)). { apply Rmult_le_pos; [apply Rmult_le_pos; lra|]. assert (0 <= e * n0) by (apply Rmult_le_pos; assumption). lra. }
  assert (Q5 : 0 <= u * (c * K * ((1 + e) * n0 + d))) by (apply Rmult_le_pos; lra).
  replace (((1 + e) * (c * (1 + 4 * u)) - 1) * (K * n0) + c * (1 + 4 * u) * (K * d)) with (4 * (u * (c * K * ((1 + e) * n0 + d))) + c * K * (e * n0 + d) + (c - 1) * K * n0) by ring. lra.
Qed.
End Image.
