(** Proofs for C159. *)
From Coq Require Import Reals Lra ZArith Arith List Bool Lia FunctionalExtensionality.
From Coquelicot Require Import Complex.
From Verif Require Import Cx Sums DFT PyBase ProfileModel SlmModel LibModel DmdModel SimModel SimSpec DmdSpec GridFacts SimFacts SimFacts2 NanModel NanSpec NanFacts NanBeamModel NanBeamSpec.
Open Scope R_scope.

Lemma same_code h dev m input : n_propagate h dev m input =
  match profile_to_tensor_c h (dev_slm dev) input true with Err e => (m, Err e) | Ok inp => b_propagate dev m (tmap Some inp) end.
Proof. reflexivity. Qed.
Lemma acts_tensor dev K : acts dev K -> exists S, n_state_tensor dev = Ok (T2 (s_Ny (dev_slm dev)) (s_Nx (dev_slm dev)) S) /\
  forall i j, (i < s_Ny (dev_slm dev))%nat -> (j < s_Nx (dev_slm dev))%nat -> S i j = K i j.
Proof.
  destruct dev as [s|d|l]; cbn [acts n_state_tensor dev_slm]; [intros []| |].
  - destruct (d_state d) as [ny nx f|ny nx f]; intros (-> & -> & E); eexists; (split; [reflexivity|]); intros i j Hi Hj; cbv beta.
    + rewrite E. reflexivity.
    + destruct (Nat.ltb_spec i (s_Ny (d_slm d))); [|lia]. destruct (Nat.ltb_spec j (s_Nx (d_slm d))); [|lia]. cbn [andb]. rewrite E. destruct (f i j); reflexivity.
  - cbn [state_tensor]. destruct (l_state l) as [ny nx f|ny nx f]; intros (-> & -> & E); eexists; (split; [reflexivity|]); intros i j Hi Hj; cbv beta; rewrite E; f_equal.
    + destruct (f i j) as [a b]. unfold cexp, Ci, Copp, Cmult. cbn [fst snd]. replace (- 0 * a - - (1) * b) with b by ring. replace (- 0 * b + - (1) * a) with (- a) by ring.
      rewrite cos_neg, sin_neg. apply injective_projections; cbn; ring.
    + unfold cexp, Ci, Copp, Cmult, RtoC. cbn [fst snd]. replace (- 0 * f i j - - (1) * 0) with 0 by ring. replace (- 0 * 0 + - (1) * f i j) with (- f i j) by ring.
      rewrite cos_neg, sin_neg, exp_0. apply injective_projections; cbn; ring.
Qed.
Lemma bad_beam dev m F K py px i0 j0 : acts dev K -> (i0 < s_Ny (dev_slm dev))%nat -> (j0 < s_Nx (dev_slm dev))%nat -> F i0 j0 = None ->
  n_pad_y m = Z.of_nat py -> n_pad_x m = Z.of_nat px -> scaling_factor (dev_slm dev) <> 0 -> pixel_size (dev_slm dev) <> 0 ->
  exists m', b_propagate dev m (T2 (s_Ny (dev_slm dev)) (s_Nx (dev_slm dev)) F) = (m', Ok tt) /\ n_pad_x m' = n_pad_x m /\ n_pad_y m' = n_pad_y m /\ lost (dev_slm dev) py px F K m'.
Proof.
  intros HS Hi Hj Hb Hy Hx Hsf Hps. destruct (acts_tensor dev K HS) as (S & ES & EK). unfold b_propagate. cbv zeta. rewrite Hy, Hx, n_tf_pad_pos.
  rewrite ES. cbn [rbind]. rewrite tmap2_same. set (s := dev_slm dev) in *. set (P := fun i j => n_mul _ _).
  assert (EP : forall i j, (i < s_Ny s)%nat -> (j < s_Nx s)%nat -> P i j = match F i j, K i j with Some a, Some b => Some (a * b)%C | _, _ => None end).
  { intros i j Hi' Hj'. unfold P. rewrite !tget_T2 by assumption. rewrite EK by assumption. reflexivity. }
  rewrite n_tf_pad_pos. destruct (Req_EM_T (scaling_factor s) 0) as [E|_]; [contradiction|].
  eexists. split; [reflexivity|]. cbn [n_fields n_pad_x n_pad_y]. split; [congruence|]. split; [congruence|].
  set (ny := (py + s_Ny s + py)%nat). set (nx := (px + s_Nx s + px)%nat).
  assert (EN : P i0 j0 = None) by (rewrite EP by assumption; rewrite Hb; reflexivity).
  set (Q := n_pad_fun py px (s_Ny s) (s_Nx s) P). set (B := n_pad_fun py px (s_Ny s) (s_Nx s) F).
  assert (EQ : Q (py + i0)%nat (px + j0)%nat = None) by (unfold Q; rewrite n_pad_in by assumption; exact EN).
  assert (EB : B (py + i0)%nat (px + j0)%nat = None) by (unfold B; rewrite n_pad_in by assumption; exact Hb).
  assert (Iy : (py + i0 < ny)%nat) by (unfold ny; lia). assert (Ix : (px + j0 < nx)%nat) by (unfold nx; lia).
  assert (AI : allb2 (fun i j => isome (ifftshift2 ny nx Q i j)) ny nx = false).
  { apply (bad_some ny nx (ifftshift2 ny nx Q) (shift_idx ny (py + i0)) (shift_idx nx (px + j0))); [apply shift_idx_lt; lia|apply shift_idx_lt; lia|].
    unfold ifftshift2. rewrite !ishift_shift by assumption. exact EQ. }
  unfold lost. cbn [n_input n_output n_image n_fields]. fold ny nx. split; [|split; [|split; [|split; [|split]]]].
  - cbn [holds]. split; [reflexivity|]. split; [reflexivity|]. intros i j _ _. apply pad_entry. reflexivity.
  - cbn [holds]. split; [reflexivity|]. split; [reflexivity|]. intros i j _ _. apply pad_entry. exact EP.
  - cbn [n_to_image tmap holds]. split; [reflexivity|]. split; [reflexivity|]. intros i j _ _. unfold fftshift2, oifft2. rewrite AI. reflexivity.
  - unfold n_input_power, n_power. cbn [rbind n_input n_fields n_intensity tmap n_sum].
    rewrite (bad_some2 ny nx _ (py + i0)%nat (px + j0)%nat); [reflexivity|exact Iy|exact Ix|]. rewrite EB. reflexivity.
  - unfold n_output_power, n_power. cbn [rbind n_output n_fields n_intensity tmap n_sum].
    rewrite (bad_some2 ny nx _ (py + i0)%nat (px + j0)%nat); [reflexivity|exact Iy|exact Ix|]. rewrite EQ. reflexivity.
  - unfold n_image_power, n_power, n_image_area. unfold n_Nx, n_Ny. cbn [n_pad_x n_pad_y n_fields]. rewrite Hx, Hy.
    destruct (Z.eqb_spec ((Z.of_nat (s_Nx s) + 2 * Z.of_nat px) * (Z.of_nat (s_Ny s) + 2 * Z.of_nat py)) 0) as [E|_]; [nia|].
    destruct (Req_EM_T (pixel_size s) 0); [contradiction|]. cbn [rbind n_image n_fields n_to_image tmap n_intensity n_sum].
    rewrite (bad_some2 ny nx _ (py + i0)%nat (px + j0)%nat); [reflexivity|exact Iy|exact Ix|]. unfold fftshift2, oifft2. rewrite AI. reflexivity.
Qed.
(** A result depends on the paddings of the simulation only, not on earlier results. *)
Lemma beam_next_run dev m F : snd (b_propagate dev (n_new (n_pad_x m) (n_pad_y m)) F) = Ok tt ->
  b_propagate dev m F = b_propagate dev (n_new (n_pad_x m) (n_pad_y m)) F.
Proof.
  unfold b_propagate. cbv zeta. cbn [n_new n_pad_x n_pad_y n_output n_image].
  destruct (n_tf_pad (n_pad_y m) (n_pad_x m) F) as [fin|e]; [|discriminate]. destruct (let! st := n_state_tensor dev in tmap2 n_mul F st) as [out|e]; [|discriminate].
  destruct (n_tf_pad (n_pad_y m) (n_pad_x m) out) as [fout|e]; [|discriminate]. destruct (Req_EM_T (scaling_factor (dev_slm dev)) 0); [discriminate|]. intros _. reflexivity.
Qed.
