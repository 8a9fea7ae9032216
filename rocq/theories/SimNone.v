(** Powers of a simulation without results (C10). *)
From Coq Require Import Reals Lra ZArith Arith List Bool Lia.
From Coquelicot Require Import Complex.
From Verif Require Import Cx Sums PyBase ProfileModel SlmModel LibModel DmdModel SimModel SimSpec.
Open Scope R_scope.

Lemma rsum_nonneg n (f : nat -> R) : (forall i, (i < n)%nat -> 0 <= f i) -> 0 <= rsum n f.
Proof. induction n as [|n IH]; intros H; cbn [rsum]; [lra|]. assert (0 <= f n) by (apply H; lia). assert (0 <= rsum n f) by (apply IH; intros; apply H; lia). lra. Qed.
Lemma intensity_sum_nonneg t : 0 <= tsum (intensity t).
Proof.
  destruct t as [z|ny nx f]; cbn [intensity tmap tsum]; [pose proof (pow2_ge_0 (fst z)); pose proof (pow2_ge_0 (snd z)); lra|].
  unfold rsum2. apply rsum_nonneg. intros i _. apply rsum_nonneg. intros j _. pose proof (pow2_ge_0 (fst (f i j))). pose proof (pow2_ge_0 (snd (f i j))). lra.
Qed.
Lemma power_none o a : 0 <= a -> (power (option_map intensity o) (Ok a) = Err TypeError <-> o = None) /\ (o <> None -> exists P, power (option_map intensity o) (Ok a) = Ok P /\ 0 <= P).
Proof.
  intros Ha. destruct o as [t|]; cbn [option_map power rbind].
  - split; [split; discriminate|]. intros _. eexists. split; [reflexivity|]. apply Rmult_le_pos; [apply intensity_sum_nonneg|exact Ha].
  - split; [tauto|]. intros H. contradiction H; reflexivity.
Qed.
Lemma powers_without_result s m :
  (get_input_power s m = Err TypeError <-> f_input m = None) /\ (f_input m <> None -> exists P, get_input_power s m = Ok P /\ 0 <= P) /\
  (get_output_power s m = Err TypeError <-> f_output m = None) /\ (f_output m <> None -> exists P, get_output_power s m = Ok P /\ 0 <= P) /\
  (f_image m = None -> exists e, get_image_plane_power s m = Err e) /\
  (forall P, image_plane_pixel_area s m = Ok P -> (get_image_plane_power s m = Err TypeError <-> f_image m = None)).
Proof.
  assert (A : 0 <= fourier_plane_pixel_area s) by (unfold fourier_plane_pixel_area; nra).
  destruct (power_none (f_input m) _ A) as [I1 I2]. destruct (power_none (f_output m) _ A) as [O1 O2].
  repeat (split; [assumption|]). split.
  - intros H. unfold get_image_plane_power, power, image_plane_intensity. rewrite H. cbn [option_map]. destruct (image_plane_pixel_area s m); cbn [rbind]; eauto.
  - intros P HP. unfold get_image_plane_power, power, image_plane_intensity. rewrite HP. cbn [rbind]. destruct (f_image m); cbn [option_map]; split; intros; congruence.
Qed.
