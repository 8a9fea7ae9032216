(** Proofs for C133. *)
From Coq Require Import Reals Lra ZArith Arith List Bool Lia FunctionalExtensionality.
From Coquelicot Require Import Complex.
From Verif Require Import Cx Sums DFT PyBase ProfileModel SlmModel LibModel DmdModel SimModel SimSpec DmdSpec GridFacts SimFacts SimFacts2 NanModel NanSpec.
Open Scope R_scope.

Lemma tmap_T2 {A B} (k : A -> B) ny nx f : tmap k (T2 ny nx f) = T2 ny nx (fun i j => k (f i j)). Proof. reflexivity. Qed.
Lemma tget_tmap {A B} (k : A -> B) (t : tensor A) i j : tget (tmap k t) i j = k (tget t i j).
Proof. destruct t; reflexivity. Qed.
Lemma tshape_tmap {A B} (k : A -> B) (t : tensor A) : tshape (tmap k t) = tshape t.
Proof. destruct t; reflexivity. Qed.
Lemma bc2_tmap {A B A' B'} (k : A -> A') (l : B -> B') a b : bc2 (tmap k a) (tmap l b) = bc2 a b.
Proof. unfold bc2. rewrite !tshape_tmap. reflexivity. Qed.
Lemma mk_tmap {A B} (k : A -> B) s f : mk s (fun i j => k (f i j)) = tmap k (mk s f).
Proof. destruct s; reflexivity. Qed.
Lemma lift_mul a b : tmap2 n_mul (tmap Some a) (tmap Some b) = rmap (tmap Some) (tmap2 Cmult a b).
Proof.
  unfold tmap2. rewrite bc2_tmap. destruct (bc2 a b) as [s|e]; [|reflexivity]. cbn [rbind rmap]. rewrite <- mk_tmap. f_equal. f_equal.
  extensionality i. extensionality j. rewrite !tget_tmap. reflexivity.
Qed.
Lemma lift_pad py px t : n_tf_pad py px (tmap Some t) = rmap (tmap Some) (tf_pad py px t).
Proof.
  destruct t as [z|ny nx f]; [reflexivity|]. cbn [tmap n_tf_pad tf_pad]. destruct (py <? 0)%Z; [reflexivity|]. destruct (px <? 0)%Z; [reflexivity|].
  cbv zeta. cbn [rmap tmap]. f_equal. f_equal. extensionality i. extensionality j. unfold n_pad_fun, pad_fun. destruct (_ && _)%bool; reflexivity.
Qed.
Lemma all_some {A} ny nx (f : nat -> nat -> A) : allb2 (fun i j => isome (Some (f i j))) ny nx = true.
Proof. apply allb2_true. reflexivity. Qed.
Lemma lift_image t : n_to_image (tmap Some t) = tmap Some (to_image t).
Proof.
  destruct t as [z|ny nx f]; [reflexivity|]. cbn [tmap n_to_image to_image]. f_equal. extensionality i. extensionality j. unfold fftshift2, oifft2.
  assert (E : allb2 (fun i j => isome (ifftshift2 ny nx (fun i j => Some (f i j)) i j)) ny nx = true) by (apply allb2_true; reflexivity).
  rewrite E. reflexivity.
Qed.
Lemma lift_state dev : state_tensor dev <> Err EUnmodelled -> n_state_tensor dev = rmap (tmap Some) (state_tensor dev).
Proof.
  intros H. destruct dev as [s|d|l]; [reflexivity| |destruct l as [s [?|?]]; reflexivity].
  cbn [n_state_tensor state_tensor] in *. destruct (d_state d) as [ny nx f|ny nx f]; [reflexivity|].
  destruct (allb2 (fun i j => xr_fin (f i j)) ny nx) eqn:E; [|congruence]. cbn [rmap tmap]. f_equal. f_equal. extensionality i. extensionality j.
  destruct (Nat.ltb i ny && Nat.ltb j nx)%bool eqn:L; [|reflexivity]. apply andb_prop in L. destruct L as [L1 L2]. apply Nat.ltb_lt in L1. apply Nat.ltb_lt in L2.
  assert (V := allb2_inv _ _ _ E i j L1 L2). cbn beta in V. destruct (f i j); try discriminate. reflexivity.
Qed.
Lemma agree h dev n m input : same_results n m -> state_tensor dev <> Err EUnmodelled ->
  snd (n_propagate h dev n input) = snd (propagate_to_image h dev m input) /\ same_results (fst (n_propagate h dev n input)) (fst (propagate_to_image h dev m input)).
Proof.
  intros (H1 & H2 & H3 & H4 & H5) HU. unfold n_propagate, propagate_to_image. cbv zeta. rewrite H1, H2.
  destruct (profile_to_tensor_c h (dev_slm dev) input true) as [inp|e]; [|split; [reflexivity|repeat split; assumption]].
  rewrite lift_pad. destruct (tf_pad (pad_y m) (pad_x m) inp) as [fin|e]; cbn [rmap]; [|split; [reflexivity|repeat split; assumption]].
  rewrite lift_state by exact HU. destruct (state_tensor dev) as [st|e]; cbn [rmap rbind]; [|split; [reflexivity|repeat split; assumption]].
  rewrite lift_mul. destruct (tmap2 Cmult inp st) as [out|e]; cbn [rmap]; [|split; [reflexivity|repeat split; assumption]].
  rewrite lift_pad. destruct (tf_pad (pad_y m) (pad_x m) out) as [fout|e]; cbn [rmap]; [|split; [reflexivity|repeat split; assumption]].
  destruct (Req_EM_T (scaling_factor (dev_slm dev)) 0); [split; [reflexivity|repeat split; assumption]|].
  split; [reflexivity|]. cbn [fst]. split; [exact H1|]. split; [exact H2|]. split; [reflexivity|]. split; [reflexivity|].
  cbn [n_image n_fields f_image with_fields option_map]. rewrite lift_image. unfold n_Nx, n_Ny, sim_Nx, sim_Ny. rewrite H1, H2. f_equal. destruct (to_image fout); reflexivity.
Qed.
Lemma lift_sum t : n_sum (n_intensity (tmap Some t)) = Some (tsum (intensity t)).
Proof. destruct t as [z|ny nx f]; [reflexivity|]. cbn [tmap n_intensity n_sum option_map]. rewrite all_some. reflexivity. Qed.
Lemma agree_powers s n m : same_results n m -> n_input_power s n = rmap Some (get_input_power s m) /\ n_output_power s n = rmap Some (get_output_power s m) /\
  n_image_power s n = rmap Some (get_image_plane_power s m).
Proof.
  intros (H1 & H2 & H3 & H4 & H5). unfold n_input_power, n_output_power, n_image_power, get_input_power, get_output_power, get_image_plane_power, n_power, power.
  rewrite H3, H4, H5. unfold input_intensity, output_intensity, image_plane_intensity. cbn [rbind]. split; [|split].
  - destruct (f_input m) as [t|]; [|reflexivity]. cbn [option_map]. rewrite lift_sum. reflexivity.
  - destruct (f_output m) as [t|]; [|reflexivity]. cbn [option_map]. rewrite lift_sum. reflexivity.
  - unfold n_image_area, image_plane_pixel_area, n_Nx, n_Ny, sim_Nx, sim_Ny. rewrite H1, H2. destruct (_ =? 0)%Z; [reflexivity|]. destruct (Req_EM_T (pixel_size s) 0); [reflexivity|].
    cbn [rbind]. destruct (f_image m) as [t|]; [|reflexivity]. cbn [option_map]. rewrite lift_sum. reflexivity.
Qed.
Lemma agree_block d n m r : same_results n m -> snd (n_block d n r) = snd (block_zeroth_order d m r) /\ same_results (fst (n_block d n r)) (fst (block_zeroth_order d m r)).
Proof.
  intros HS. assert (HS' := HS). destruct HS' as (H1 & H2 & H3 & H4 & H5). unfold n_block, block_zeroth_order. cbv zeta. rewrite H4, H5.
  destruct (f_output m) as [o|] eqn:E4; cbn [option_map]; [|split; [reflexivity|exact HS]].
  unfold image_plane_padded_grid, n_Nx, n_Ny, sim_Nx, sim_Ny. rewrite H1, H2. destruct (image_grid_of _ _ _ _) as [x y].
  destruct (f_image m) as [img|] eqn:E5; cbn [option_map]; [|split; [reflexivity|exact HS]].
  set (p := match x with T0 a => T0 (a, tget y 0 0) | T2 ny nx f => T2 ny nx (fun i j => (f i j, tget y i j)) end).
  set (q := match r with Some r => Fin r | None => _ end).
  assert (L : tmap2 (fun (p : R * R) z => if below (fst p ^ 2 + snd p ^ 2) q then Some (RtoC 0) else z) p (tmap Some img)
    = rmap (tmap Some) (tmap2 (fun (p : R * R) z => if below (fst p ^ 2 + snd p ^ 2) q then RtoC 0 else z) p img)).
  { unfold tmap2. replace (bc2 p (tmap Some img)) with (bc2 p img) by (unfold bc2; rewrite tshape_tmap; reflexivity). destruct (bc2 p img) as [sh|e]; [|reflexivity].
    cbn [rbind rmap]. rewrite <- mk_tmap. f_equal. f_equal. extensionality i. extensionality j. rewrite tget_tmap. destruct (below _ _); reflexivity. }
  rewrite L. destruct (tmap2 _ p img) as [img'|e]; cbn [rmap]; [|split; [reflexivity|exact HS]].
  split; [reflexivity|]. cbn [fst]. split; [exact H1|]. split; [exact H2|]. split; [exact H3|]. split; [|reflexivity].
  cbn [n_output n_fields f_output with_fields option_map]. first [exact H4|reflexivity].
Qed.
Lemma bad_some ny nx (f : arr) i j : (i < ny)%nat -> (j < nx)%nat -> f i j = None -> allb2 (fun i j => isome (f i j)) ny nx = false.
Proof.
  intros Hi Hj E. destruct (allb2 _ ny nx) eqn:A; [|reflexivity]. assert (V := allb2_inv _ _ _ A i j Hi Hj). cbn beta in V. rewrite E in V. discriminate.
Qed.
Lemma bad_some2 {A} ny nx (f : nat -> nat -> option A) i j : (i < ny)%nat -> (j < nx)%nat -> f i j = None -> allb2 (fun i j => isome (f i j)) ny nx = false.
Proof.
  intros Hi Hj E. destruct (allb2 _ ny nx) eqn:A0; [|reflexivity]. assert (V := allb2_inv _ _ _ A0 i j Hi Hj). cbn beta in V. rewrite E in V. discriminate.
Qed.
Lemma n_tf_pad_pos py px ny nx f : n_tf_pad (Z.of_nat py) (Z.of_nat px) (T2 ny nx f) = Ok (T2 (py + ny + py)%nat (px + nx + px)%nat (n_pad_fun py px ny nx f)).
Proof.
  cbn [n_tf_pad]. destruct (Z.ltb_spec (Z.of_nat py) 0); [lia|]. destruct (Z.ltb_spec (Z.of_nat px) 0); [lia|]. cbv zeta. rewrite !Nat2Z.id. reflexivity.
Qed.
Lemma n_pad_in py px ny nx (f : arr) i j : (i < ny)%nat -> (j < nx)%nat -> n_pad_fun py px ny nx f (py + i)%nat (px + j)%nat = f i j.
Proof.
  intros Hi Hj. unfold n_pad_fun. destruct (Nat.leb_spec py (py + i)); [|lia]. destruct (Nat.ltb_spec (py + i) (py + ny)); [|lia].
  destruct (Nat.leb_spec px (px + j)); [|lia]. destruct (Nat.ltb_spec (px + j) (px + nx)); [|lia]. cbn [andb]. f_equal; lia.
Qed.
Lemma pad_entry s py px (f g : arr) i j : (forall i j, (i < s_Ny s)%nat -> (j < s_Nx s)%nat -> f i j = g i j) -> entry s py px g i j (n_pad_fun py px (s_Ny s) (s_Nx s) f i j).
Proof.
  intros E. split.
  - intros i' j' (-> & -> & Hi & Hj). rewrite n_pad_in by assumption. apply E; assumption.
  - intros N. unfold n_pad_fun. destruct (Nat.leb_spec py i); [|reflexivity]. destruct (Nat.ltb_spec i (py + s_Ny s)); [|reflexivity].
    destruct (Nat.leb_spec px j); [|reflexivity]. destruct (Nat.ltb_spec j (px + s_Nx s)); [|reflexivity].
    exfalso. apply (N (i - py)%nat (j - px)%nat). unfold mirror_of. lia.
Qed.
Lemma bad_state h d m a F g py px i0 j0 : full_input h (d_slm d) a F -> d_state d = DFloat (s_Ny (d_slm d)) (s_Nx (d_slm d)) g -> in_array d i0 j0 -> not_finite (g i0 j0) ->
  n_pad_y m = Z.of_nat py -> n_pad_x m = Z.of_nat px -> scaling_factor (d_slm d) <> 0 -> pixel_size (d_slm d) <> 0 ->
  exists m', n_propagate h (DevDmd d) m a = (m', Ok tt) /\ n_pad_x m' = n_pad_x m /\ n_pad_y m' = n_pad_y m /\ spoilt (d_slm d) py px F g m'.
Proof.
  intros HF HS [Hi Hj] Hb Hy Hx Hsf Hps. unfold n_propagate. cbv zeta. cbn [dev_slm]. unfold full_input in HF. rewrite HF. rewrite tmap_T2, Hy, Hx, n_tf_pad_pos.
  cbn [n_state_tensor]. rewrite HS. cbn [rbind]. rewrite tmap2_same. set (P := fun i j => n_mul _ _).
  assert (EP : forall i j, (i < s_Ny (d_slm d))%nat -> (j < s_Nx (d_slm d))%nat -> P i j = match g i j with Fin r => Some (F i j * RtoC r)%C | _ => None end).
  { intros i j Hi' Hj'. unfold P. rewrite !tget_T2 by assumption. destruct (Nat.ltb_spec i (s_Ny (d_slm d))); [|lia]. destruct (Nat.ltb_spec j (s_Nx (d_slm d))); [|lia].
    cbn [andb]. destruct (g i j); reflexivity. }
  rewrite n_tf_pad_pos. destruct (Req_EM_T (scaling_factor (d_slm d)) 0) as [E|_]; [contradiction|].
  eexists. split; [reflexivity|]. cbn [n_fields n_pad_x n_pad_y]. split; [congruence|]. split; [congruence|].
  set (ny := (py + s_Ny (d_slm d) + py)%nat). set (nx := (px + s_Nx (d_slm d) + px)%nat).
  assert (EN : P i0 j0 = None) by (rewrite EP by assumption; destruct (g i0 j0) as [r| | |]; [destruct (Hb r); reflexivity|reflexivity..]).
  set (Q := n_pad_fun py px (s_Ny (d_slm d)) (s_Nx (d_slm d)) P).
  assert (EQ : Q (py + i0)%nat (px + j0)%nat = None) by (unfold Q; rewrite n_pad_in by assumption; exact EN).
  assert (Iy : (py + i0 < ny)%nat) by (unfold ny; lia). assert (Ix : (px + j0 < nx)%nat) by (unfold nx; lia).
  assert (AI : allb2 (fun i j => isome (ifftshift2 ny nx Q i j)) ny nx = false).
  { apply (bad_some ny nx (ifftshift2 ny nx Q) (shift_idx ny (py + i0)) (shift_idx nx (px + j0))); [apply shift_idx_lt; lia|apply shift_idx_lt; lia|].
    unfold ifftshift2. rewrite !ishift_shift by assumption. exact EQ. }
  unfold spoilt. cbn [n_input n_output n_image n_fields]. fold ny nx. split; [|split; [|split; [|split; [|split]]]].
  - cbn [holds]. split; [reflexivity|]. split; [reflexivity|]. intros i j _ _. apply pad_entry. reflexivity.
  - cbn [holds]. split; [reflexivity|]. split; [reflexivity|]. intros i j _ _. apply pad_entry. exact EP.
  - cbn [n_to_image tmap holds]. split; [reflexivity|]. split; [reflexivity|]. intros i j _ _. unfold fftshift2, oifft2. rewrite AI. reflexivity.
  - unfold n_input_power, n_power. cbn [rbind n_input n_fields]. f_equal.
    replace (n_pad_fun py px (s_Ny (d_slm d)) (s_Nx (d_slm d)) (fun i j => Some (F i j))) with (fun i j => Some (pad_fun py px (s_Ny (d_slm d)) (s_Nx (d_slm d)) F i j)).
    2:{ extensionality i. extensionality j. unfold n_pad_fun, pad_fun. destruct (_ && _)%bool; reflexivity. }
    rewrite <- tmap_T2, lift_sum. cbn [option_map]. f_equal. unfold power_of, fourier_plane_pixel_area. rewrite Rmult_comm. f_equal. cbn [intensity tmap tsum].
    unfold ny, nx. rewrite (rsum2_pad py px (s_Ny (d_slm d)) (s_Nx (d_slm d)) F (fun z => fst z ^ 2 + snd z ^ 2)) by (cbn; ring).
    apply rsum2_ext. intros i j _ _. rewrite <- cnorm2_Cmod. reflexivity.
  - unfold n_output_power, n_power. cbn [rbind n_output n_fields n_intensity tmap n_sum].
    rewrite (bad_some2 ny nx _ (py + i0)%nat (px + j0)%nat); [reflexivity|exact Iy|exact Ix|]. rewrite EQ. reflexivity.
  - unfold n_image_power, n_power, n_image_area. unfold n_Nx, n_Ny. cbn [n_pad_x n_pad_y n_fields]. rewrite Hx, Hy.
    destruct (Z.eqb_spec ((Z.of_nat (s_Nx (d_slm d)) + 2 * Z.of_nat px) * (Z.of_nat (s_Ny (d_slm d)) + 2 * Z.of_nat py)) 0) as [E|_]; [nia|].
    destruct (Req_EM_T (pixel_size (d_slm d)) 0); [contradiction|]. cbn [rbind n_image n_fields n_to_image tmap n_intensity n_sum].
    rewrite (bad_some2 ny nx _ (py + i0)%nat (px + j0)%nat); [reflexivity|exact Iy|exact Ix|]. unfold fftshift2, oifft2. rewrite AI. reflexivity.
Qed.
