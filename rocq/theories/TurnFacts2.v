(** Reflected set-ups: patterns, holograms, simulations (C154). *)
From Coq Require Import Reals Lra ZArith Arith List Bool Lia FunctionalExtensionality.
From Coquelicot Require Import Complex.
From Verif Require Import Cx Sums DFT PyBase ProfileModel SlmModel LibModel DmdModel SimModel TurnSpec DmdFacts2 AmpFacts AmpFacts2 RankFacts TurnFacts.
Import ListNotations.
Open Scope R_scope.

(** ** Gratings and patches *)
Lemma grating_of_turned h h' d amp amp' pin pin' pout pout' m kw kw' u :
  turned_arg h h' amp amp' -> turned_arg h h' pin pin' -> turned_arg h h' pout pout' -> turned_kw h h' kw kw' ->
  grating_of h' (turned_dmd d) amp' pin' pout' m kw' (flip u) = rmap turned_state (grating_of h d amp pin pout m kw u).
Proof.
  intros Ha Hi Ho (Er & EN & Es & Hw & Hin). unfold grating_of. cbn [turned_dmd d_slm d_neg d_p d_theta].
  rewrite (tensor_r_turned _ _ _ _ _ _ Ha). destruct (profile_to_tensor_r h (d_slm d) amp true) as [A|]; cbn [rmap rbind]; [|reflexivity].
  rewrite (tensor_r_turned _ _ _ _ _ _ Hi). destruct (profile_to_tensor_r h (d_slm d) pin true) as [B|]; cbn [rmap rbind]; [|reflexivity].
  rewrite (tensor_r_turned _ _ _ _ _ _ Ho). destruct (profile_to_tensor_r h (d_slm d) pout true) as [D|]; cbn [rmap rbind]; [|reflexivity].
  rewrite fourier_grid_turned. destruct (fourier_grid_form (d_slm d)) as (ny & nx & a & b & ->). rewrite (surjective_pairing (turned_grid _)).
  rewrite (raw_turned _ _ _ _ Hw), (raw_turned _ _ _ _ Hin), tmap_turned, (grating_turned (d_neg d) (tmap Fin A) B D (T2 ny nx a) (T2 ny nx b) (d_p d) (d_theta d) eq_refl m kw kw' _ _ u Er EN Es).
  destruct (calculate_dmd_grating _ _ _ _ _ _ _ _ _ _ _ _ _) as [g|]; cbn [rmap rbind]; [apply to_dstate_turned|reflexivity].
Qed.
Theorem set_turned h h' d amp amp' pin pin' pout pout' m kw kw' u :
  turned_arg h h' amp amp' -> turned_arg h h' pin pin' -> turned_arg h h' pout pout' -> turned_kw h h' kw kw' ->
  set_dmd_grating_state h' (turned_dmd d) amp' pin' pout' m kw' (flip u) =
  (turned_dmd (fst (set_dmd_grating_state h d amp pin pout m kw u)), snd (set_dmd_grating_state h d amp pin pout m kw u)).
Proof.
  intros Ha Hi Ho Hk. unfold set_dmd_grating_state. rewrite (grating_of_turned h h' d amp amp' pin pin' pout pout' m kw kw' u Ha Hi Ho Hk).
  destruct (grating_of h d amp pin pout m kw u); reflexivity.
Qed.
Lemma masked_turned old new mask mask' ny nx : (forall i j, mask' i j = mask j i) ->
  masked_assign (turned_state old) (turned_state new) mask' nx ny = option_map turned_state (masked_assign old new mask ny nx).
Proof.
  intros H. destruct old as [a b f|a b f], new as [a' b' g|a' b' g]; cbn [turned_state masked_assign]; rewrite (andb_comm (Nat.eqb b nx)), (andb_comm (Nat.eqb b' nx));
    destruct ((Nat.eqb a ny && Nat.eqb b nx) && (Nat.eqb a' ny && Nat.eqb b' nx)); cbn [option_map turned_state]; try reflexivity; f_equal; f_equal; apply fun2_ext; intros i j; unfold flip; rewrite H; reflexivity.
Qed.
Theorem patch_turned h h' d ci cj amp amp' pin pin' pout pout' diam m kw kw' u :
  turned_arg h h' amp amp' -> turned_arg h h' pin pin' -> turned_arg h h' pout pout' -> turned_kw h h' kw kw' ->
  circular_patch h' (turned_dmd d) cj ci amp' pin' pout' diam m kw' (flip u) =
  (turned_dmd (fst (circular_patch h d ci cj amp pin pout diam m kw u)), snd (circular_patch h d ci cj amp pin pout diam m kw u)).
Proof.
  intros Ha Hi Ho Hk. unfold circular_patch. rewrite (grating_of_turned h h' d amp amp' pin pin' pout pout' m kw kw' u Ha Hi Ho Hk).
  destruct (grating_of h d amp pin pout m kw u) as [new|]; cbn [rmap]; [|reflexivity]. cbn [fourier_plane_pixel_grid turned_dmd d_slm d_state turned_slm s_Nx s_Ny].
  unfold fourier_plane_pixel_grid, mesh_ij. cbv zeta. cbn [turned_slm s_Nx s_Ny].
  set (I := map IZR (arange 0 (Z.of_nat (s_Ny (d_slm d))))). set (J := map IZR (arange 0 (Z.of_nat (s_Nx (d_slm d))))).
  set (mask := fun i j => circular_mask ci cj diam (tget (T2 (length I) (length J) (fun i _ : nat => nth i I 0)) i j) (tget (T2 (length I) (length J) (fun _ j : nat => nth j J 0)) i j)).
  rewrite (masked_turned (d_state d) new mask).
  - destruct (masked_assign (d_state d) new mask _ _); reflexivity.
  - intros i j. unfold mask, circular_mask. cbn [tget]. rewrite Rplus_comm. reflexivity.
Qed.

(** ** Holograms of the DMD *)
Lemma xmax_comm a b : xmax a b = xmax b a.
Proof. destruct a, b; cbn [xmax]; try reflexivity. rewrite Rmax_comm. reflexivity. Qed.
Lemma xmax_assoc a b c : xmax a (xmax b c) = xmax (xmax a b) c.
Proof. destruct a, b, c; cbn [xmax]; try reflexivity. rewrite Rmax_assoc. reflexivity. Qed.
Lemma xmax_minf a : xmax MInf a = a.
Proof. destruct a; reflexivity. Qed.
Lemma xmax1_const n : xmax1 (fun _ => MInf) n = MInf.
Proof. induction n as [|n IH]; [reflexivity|]. cbn [xmax1]. rewrite IH. reflexivity. Qed.
Lemma xmax1_max f g n : xmax1 (fun i => xmax (f i) (g i)) n = xmax (xmax1 f n) (xmax1 g n).
Proof.
  induction n as [|n IH]; [reflexivity|]. cbn [xmax1]. rewrite IH, <- !xmax_assoc. f_equal. rewrite !xmax_assoc. f_equal. apply xmax_comm.
Qed.
Lemma xmax1_swap f n m : xmax1 (fun i => xmax1 (fun j => f i j) m) n = xmax1 (fun j => xmax1 (fun i => f i j) n) m.
Proof.
  induction n as [|n IH]; cbn [xmax1]; [symmetry; apply xmax1_const|]. rewrite IH, xmax1_max. reflexivity.
Qed.
Lemma reduce_max_turned t : reduce_max (turned t) = reduce_max t.
Proof. destruct t as [a|ny nx f]; [reflexivity|]. cbn [turned reduce_max]. rewrite !xmax2_xmax1. apply xmax1_swap. Qed.
Lemma calc_turned input target window : calc_amp_phase (turned input) (turned target) (option_map turned window) =
  rmap (fun q => match q with (a, i, o, e) => (turned a, turned i, turned o, e) end) (calc_amp_phase input target window).
Proof.
  destruct target as [t|ny nx t]; [reflexivity|]. cbn [turned calc_amp_phase]. rewrite target_fp_flip.
  change (T2 nx ny (flip (target_fp ny nx t))) with (turned (T2 ny nx (target_fp ny nx t))). set (fp := T2 ny nx (target_fp ny nx t)).
  assert (E : match option_map turned window with None => Ok (turned fp) | Some w => tmap2 Cmult (turned fp) w end =
              rmap turned match window with None => Ok fp | Some w => tmap2 Cmult fp w end).
  { destruct window; cbn [option_map]; [apply tmap2_turned|reflexivity]. }
  rewrite E. destruct (match window with None => Ok fp | Some w => tmap2 Cmult fp w end) as [q|]; cbn [rmap rbind]; [|reflexivity].
  rewrite !tmap_turned, tmap2_turned. destruct (tmap2 safe_ratio _ _) as [r|]; cbn [rmap rbind]; [|reflexivity]. rewrite reduce_max_turned, tmap_turned. reflexivity.
Qed.
Theorem dmd_state_turned h h' d input input' target target' m window window' kw kw' u :
  turned_arg h h' input input' -> turned_arg h h' target target' -> turned_opt h h' window window' -> turned_kw h h' kw kw' ->
  calculate_dmd_state h' (turned_dmd d) input' target' m window' kw' (flip u) =
  (turned_dmd (fst (calculate_dmd_state h d input target m window kw u)), snd (calculate_dmd_state h d input target m window kw u)).
Proof.
  intros Hi Ht Hw (Er & EN & Es & Hk & Hin). unfold calculate_dmd_state. cbv zeta. cbn [turned_dmd d_slm d_neg d_p d_theta].
  set (new := rbind (profile_to_tensor_c h (d_slm d) input true) _). set (new' := rbind (profile_to_tensor_c h' (turned_slm (d_slm d)) input' true) _).
  assert (E : new' = rmap (fun q => (turned_state (fst q), snd q)) new).
  { unfold new, new'. clear new new'.
    rewrite (tensor_c_turned _ _ _ _ _ _ Hi). destruct (profile_to_tensor_c h (d_slm d) input true) as [A|]; cbn [rmap rbind]; [|reflexivity].
    rewrite (tensor_c_turned _ _ _ _ _ _ Ht). destruct (profile_to_tensor_c h (d_slm d) target false) as [B|]; cbn [rmap rbind]; [|reflexivity].
    assert (Ew : match window' with None => Ok None | Some w => let! w := profile_to_tensor_c h' (turned_slm (d_slm d)) w true in Ok (Some w) end =
                 rmap (option_map turned) match window with None => Ok None | Some w => let! w := profile_to_tensor_c h (d_slm d) w true in Ok (Some w) end).
    { destruct window as [w|], window' as [w'|]; cbn [turned_opt] in Hw; try contradiction; [|reflexivity]. rewrite (tensor_c_turned _ _ _ _ _ _ Hw).
      destruct (profile_to_tensor_c h (d_slm d) w true); reflexivity. }
    rewrite Ew. destruct (match window with None => Ok None | Some w => let! w := profile_to_tensor_c h (d_slm d) w true in Ok (Some w) end) as [W|]; cbn [rmap rbind]; [|reflexivity].
    rewrite calc_turned. destruct (calc_amp_phase A B W) as [[[[am pi] po] one]|]; cbn [rmap rbind]; [|reflexivity].
    rewrite fourier_grid_turned. destruct (fourier_grid_form (d_slm d)) as (ny & nx & a & b & ->). rewrite (surjective_pairing (turned_grid _)).
    assert (Em : match m with
                 | MIfta => match k_window kw' with None => Err KeyError | Some w => let! w := profile_to_tensor_c h' (turned_slm (d_slm d)) w false in Ok (Some (turned A), Some w) end
                 | _ => Ok (raw_tensor (k_input kw'), raw_tensor (k_window kw'))
                 end = rmap (fun q => (option_map turned (fst q), option_map turned (snd q)))
                 match m with
                 | MIfta => match k_window kw with None => Err KeyError | Some w => let! w := profile_to_tensor_c h (d_slm d) w false in Ok (Some A, Some w) end
                 | _ => Ok (raw_tensor (k_input kw), raw_tensor (k_window kw))
                 end).
    { assert (R : Ok (raw_tensor (k_input kw'), raw_tensor (k_window kw')) = rmap (fun q => (option_map turned (fst q), option_map turned (snd q))) (Ok (raw_tensor (k_input kw), raw_tensor (k_window kw)))).
      { cbn [rmap fst snd]. rewrite (raw_turned _ _ _ _ Hk), (raw_turned _ _ _ _ Hin). reflexivity. }
      destruct m; try exact R. destruct (k_window kw) as [w|], (k_window kw') as [w'|]; cbn [turned_opt] in Hk; try contradiction; [|reflexivity].
      rewrite (tensor_c_turned _ _ _ _ _ _ Hk). destruct (profile_to_tensor_c h (d_slm d) w false); reflexivity. }
    rewrite Em. clear Em Ew.
    destruct (match m with
              | MIfta => match k_window kw with None => Err KeyError | Some w => let! w := profile_to_tensor_c h (d_slm d) w false in Ok (Some A, Some w) end
              | _ => Ok (raw_tensor (k_input kw), raw_tensor (k_window kw))
              end) as [[inp win]|]; cbn [rmap rbind fst snd]; [|reflexivity].
    rewrite (grating_turned (d_neg d) am pi po (T2 ny nx a) (T2 ny nx b) (d_p d) (d_theta d) eq_refl m kw kw' _ _ u Er EN Es).
    destruct (calculate_dmd_grating _ _ _ _ _ _ _ _ _ _ _ _ _) as [g|]; cbn [rmap rbind]; [|reflexivity]. rewrite to_dstate_turned. destruct (to_dstate g); reflexivity. }
  rewrite E. destruct new as [[st one]|]; cbn [rmap fst snd]; [|reflexivity]. unfold scaling_factor. cbn [turned_slm wavelength focal_length pixel_size s_Nx s_Ny].
  destruct (Req_EM_T (wavelength (d_slm d) * focal_length (d_slm d)) 0); [reflexivity|]. cbn [fst snd].
  replace (pixel_size (d_slm d) ^ 2 / (wavelength (d_slm d) * focal_length (d_slm d)) * INR (s_Ny (d_slm d)) * INR (s_Nx (d_slm d)))
    with (pixel_size (d_slm d) ^ 2 / (wavelength (d_slm d) * focal_length (d_slm d)) * INR (s_Nx (d_slm d)) * INR (s_Ny (d_slm d))) by ring. reflexivity.
Qed.
(** The first order: (x, y) goes to (-y, -x). *)
Lemma xdiv_neg a b : xdiv (Fin (- a)) (Fin b) = xneg (xdiv (Fin a) (Fin b)).
Proof.
  cbn [xdiv]. destruct (Req_EM_T b 0).
  - destruct (Rlt_dec 0 (- a)), (Rlt_dec (- a) 0), (Rlt_dec 0 a), (Rlt_dec a 0); cbn [xneg]; try reflexivity; exfalso; lra.
  - cbn [xneg]. f_equal. field. assumption.
Qed.
Theorem origin_turned d : first_order_origin (turned_dmd d) = (xneg (snd (first_order_origin d)), xneg (fst (first_order_origin d))).
Proof.
  unfold first_order_origin, scaling_factor. cbn [turned_dmd d_theta d_slm d_p turned_slm wavelength focal_length fst snd].
  replace (- (PI / 2) - d_theta d) with (- (PI / 2 + d_theta d)) by ring. rewrite cos_neg, sin_neg, cos_plus, sin_plus, cos_PI2, sin_PI2, <- !xdiv_neg. f_equal; f_equal; f_equal; ring.
Qed.

(** ** Holograms of the LCOS *)
Lemma lcos_array_turned m input target win kw kw' u : lk_N kw' = lk_N kw -> lk_mix kw' = lk_mix kw ->
  calculate_lcos_hologram m (turned input) (turned target) (option_map turned win) kw' (flip u) = rmap turned_lstate (calculate_lcos_hologram m input target win kw u).
Proof.
  intros EN Em. unfold calculate_lcos_hologram. rewrite EN, Em. destruct m; [| |reflexivity].
  - destruct input as [z|ny nx F]; [reflexivity|]. destruct target as [t|a b T]; [reflexivity|]. change (T2 b a (flip T)) with (turned (T2 a b T)). cbn [turned].
    change (T2 b a (flip T)) with (turned (T2 a b T)). rewrite stretch_turned. destruct (stretch ny nx (T2 a b T)) as [T'|]; cbn [option_map]; [|reflexivity]. rewrite gs_array_flip. reflexivity.
  - destruct input as [z|ny nx F]; [reflexivity|]. destruct target as [t|a b T]; [reflexivity|]. destruct win as [[w|c e W]|]; [reflexivity| |reflexivity]. cbn [turned option_map].
    change (T2 b a (flip T)) with (turned (T2 a b T)). change (T2 e c (flip W)) with (turned (T2 c e W)). rewrite !stretch_turned.
    destruct (stretch ny nx (T2 a b T)) as [T'|]; cbn [option_map]; [|reflexivity]. destruct (stretch ny nx (T2 c e W)) as [W'|]; cbn [option_map]; [|reflexivity].
    rewrite mraf_array_flip. reflexivity.
Qed.
Theorem hologram_turned h h' l input input' target target' m kw kw' u :
  turned_arg h h' input input' -> turned_arg h h' target target' -> turned_lkw h h' kw kw' ->
  calculate_hologram h' (turned_lcos l) input' target' m kw' (flip u) =
  (turned_lcos (fst (calculate_hologram h l input target m kw u)), snd (calculate_hologram h l input target m kw u)).
Proof.
  intros Hi Ht (EN & Em & Hw). unfold calculate_hologram. cbv zeta. cbn [turned_lcos l_slm].
  rewrite (tensor_c_turned _ _ _ _ _ _ Hi). destruct (profile_to_tensor_c h (l_slm l) input true) as [A|]; cbn [rmap rbind]; [|reflexivity].
  rewrite (tensor_r_turned _ _ _ _ _ _ Ht). destruct (profile_to_tensor_r h (l_slm l) target false) as [B|]; cbn [rmap rbind]; [|reflexivity].
  set (w := match m with MMraf => match lk_window kw with None => Err KeyError | Some w => let! w := profile_to_tensor_c h (l_slm l) w false in Ok (Some w) end | _ => Ok (raw_tensor (lk_window kw)) end).
  assert (E : match m with MMraf => match lk_window kw' with None => Err KeyError | Some w => let! w := profile_to_tensor_c h' (turned_slm (l_slm l)) w false in Ok (Some w) end | _ => Ok (raw_tensor (lk_window kw')) end =
              rmap (option_map turned) w).
  { unfold w. destruct m; cbn [rmap]; [rewrite (raw_turned _ _ _ _ Hw); reflexivity| |rewrite (raw_turned _ _ _ _ Hw); reflexivity].
    destruct (lk_window kw) as [v|], (lk_window kw') as [v'|]; cbn [turned_opt] in Hw; try contradiction; [|reflexivity]. rewrite (tensor_c_turned _ _ _ _ _ _ Hw).
    destruct (profile_to_tensor_c h (l_slm l) v false); reflexivity. }
  rewrite E. destruct w as [win|]; cbn [rmap rbind]; [|reflexivity]. rewrite (lcos_array_turned m A B win kw kw' u EN Em). destruct (calculate_lcos_hologram m A B win kw u); reflexivity.
Qed.

(** ** Simulations *)
Lemma state_tensor_turned v : state_tensor (turned_dev v) = rmap turned (state_tensor v).
Proof.
  destruct v as [s|d|l]; cbn [turned_dev state_tensor turned_dmd d_state turned_lcos l_state]; [reflexivity| |].
  - destruct (d_state d) as [ny nx f|ny nx f]; cbn [turned_state]; [reflexivity|]. change (fun i j => xr_fin (flip f i j)) with (flip (fun i j => xr_fin (f i j))). rewrite allb2_flip.
    destruct (allb2 _ ny nx); reflexivity.
  - destruct (l_state l) as [ny nx f|ny nx f]; reflexivity.
Qed.
Lemma dev_slm_turned v : dev_slm (turned_dev v) = turned_slm (dev_slm v).
Proof. destruct v; reflexivity. Qed.
Lemma tf_pad_turned py px t : tf_pad px py (turned t) = rmap turned (tf_pad py px t).
Proof.
  destruct t as [a|ny nx f]; [reflexivity|]. cbn [turned tf_pad]. destruct (px <? 0)%Z, (py <? 0)%Z; cbn [rmap turned]; try reflexivity. f_equal. f_equal. apply fun2_ext. intros i j.
  unfold flip, pad_fun. set (P := Nat.leb (Z.to_nat px) i). set (Q := Nat.ltb i (Z.to_nat px + nx)). set (P' := Nat.leb (Z.to_nat py) j). set (Q' := Nat.ltb j (Z.to_nat py + ny)). destruct P, Q, P', Q'; reflexivity.
Qed.
Lemma to_image_turned t : to_image (turned t) = turned (to_image t).
Proof. destruct t as [a|ny nx f]; [reflexivity|]. cbn [turned to_image]. rewrite ifftshift2_flip, ifft2_flip, fftshift2_flip. reflexivity. Qed.
Lemma sizes_turned s m : (sim_Nx (turned_slm s) (turned_sim m) * sim_Ny (turned_slm s) (turned_sim m) = sim_Nx s m * sim_Ny s m)%Z.
Proof. unfold sim_Nx, sim_Ny. cbn [turned_slm turned_sim s_Nx s_Ny pad_x pad_y]. apply Z.mul_comm. Qed.
Theorem propagate_turned h h' v m input input' : turned_arg h h' input input' ->
  propagate_to_image h' (turned_dev v) (turned_sim m) input' = (turned_sim (fst (propagate_to_image h v m input)), snd (propagate_to_image h v m input)).
Proof.
  intros Hi. unfold propagate_to_image. cbv zeta. rewrite dev_slm_turned, (tensor_c_turned _ _ _ _ _ _ Hi). destruct (profile_to_tensor_c h (dev_slm v) input true) as [A|]; cbn [rmap]; [|reflexivity].
  cbn [turned_sim pad_x pad_y]. rewrite tf_pad_turned. destruct (tf_pad (pad_y m) (pad_x m) A) as [fi|]; cbn [rmap]; [|reflexivity].
  rewrite state_tensor_turned. destruct (state_tensor v) as [st|]; cbn [rmap rbind]; [|reflexivity]. rewrite tmap2_turned. destruct (tmap2 Cmult A st) as [o|]; cbn [rmap]; [|reflexivity].
  rewrite tf_pad_turned. destruct (tf_pad (pad_y m) (pad_x m) o) as [fo|]; cbn [rmap]; [|reflexivity]. unfold scaling_factor. cbn [turned_slm wavelength focal_length].
  destruct (Req_EM_T (wavelength (dev_slm v) * focal_length (dev_slm v)) 0); [reflexivity|]. cbn [fst snd]. unfold with_fields, turned_sim at 4. cbn [pad_x pad_y f_input f_output f_image option_map turned_sim].
  rewrite to_image_turned, tmap_turned, <- (sizes_turned (dev_slm v) m). reflexivity.
Qed.
Lemma tsum_turned t : tsum (turned t) = tsum t.
Proof. destruct t as [a|ny nx f]; [reflexivity|]. apply rsum2_flip. Qed.
Lemma power_turned o a : power (option_map turned o) a = power o a.
Proof. unfold power. destruct a; cbn [rbind]; [|reflexivity]. destruct o; cbn [option_map]; [|reflexivity]. rewrite tsum_turned. reflexivity. Qed.
Lemma intensity_turned o : option_map intensity (option_map turned o) = option_map turned (option_map intensity o).
Proof. destruct o as [t|]; [|reflexivity]. cbn [option_map]. unfold intensity. rewrite tmap_turned. reflexivity. Qed.
Theorem powers_turned s m : get_input_power (turned_slm s) (turned_sim m) = get_input_power s m /\ get_output_power (turned_slm s) (turned_sim m) = get_output_power s m /\
  get_image_plane_power (turned_slm s) (turned_sim m) = get_image_plane_power s m.
Proof.
  assert (E : image_plane_pixel_area (turned_slm s) (turned_sim m) = image_plane_pixel_area s m).
  { unfold image_plane_pixel_area. rewrite sizes_turned. reflexivity. }
  unfold get_input_power, get_output_power, get_image_plane_power, input_intensity, output_intensity, image_plane_intensity. rewrite E.
  cbn [turned_sim f_input f_output f_image]. rewrite !intensity_turned, !power_turned. repeat split.
Qed.
Lemma below_turned ny nx X Y img rr :
  tmap2 (fun (p : R * R) z => if below (fst p ^ 2 + snd p ^ 2) rr then RtoC 0 else z)
    (T2 nx ny (fun i j => (- flip Y i j, tget (T2 nx ny (fun i j => - flip X i j)) i j))) (turned img) =
  rmap turned (tmap2 (fun (p : R * R) z => if below (fst p ^ 2 + snd p ^ 2) rr then RtoC 0 else z) (T2 ny nx (fun i j => (X i j, tget (T2 ny nx Y) i j))) img).
Proof.
  unfold tmap2, bc2. cbn [tshape]. rewrite tshape_turned. change (S2 nx ny) with (turned_shape (S2 ny nx)). rewrite bshape_turned.
  destruct (bshape (S2 ny nx) (tshape img)) as [s|]; [|reflexivity]. cbn [option_map rbind rmap]. rewrite <- mk_turned. f_equal. f_equal. apply fun2_ext. intros i j.
  rewrite tget_turned. unfold flip. cbn [tget fst snd].
  replace ((- Y (if Nat.eqb ny 1 then 0%nat else j) (if Nat.eqb nx 1 then 0%nat else i)) ^ 2 +
           (- X (if Nat.eqb ny 1 then 0%nat else if Nat.eqb ny 1 then 0%nat else j) (if Nat.eqb nx 1 then 0%nat else if Nat.eqb nx 1 then 0%nat else i)) ^ 2)
    with (X (if Nat.eqb ny 1 then 0%nat else j) (if Nat.eqb nx 1 then 0%nat else i) ^ 2 +
          Y (if Nat.eqb ny 1 then 0%nat else if Nat.eqb ny 1 then 0%nat else j) (if Nat.eqb nx 1 then 0%nat else if Nat.eqb nx 1 then 0%nat else i) ^ 2); [reflexivity|].
  destruct (Nat.eqb ny 1), (Nat.eqb nx 1); ring.
Qed.
Theorem block_turned d m r : block_zeroth_order (turned_dmd d) (turned_sim m) r = (turned_sim (fst (block_zeroth_order d m r)), snd (block_zeroth_order d m r)).
Proof.
  unfold block_zeroth_order. cbv zeta. cbn [turned_dmd d_slm d_p]. rewrite padded_image_turned.
  assert (F : exists ny nx X Y, image_plane_padded_grid (d_slm d) m = (T2 ny nx X, T2 ny nx Y)) by (eexists; eexists; eexists; eexists; reflexivity).
  destruct F as (ny & nx & X & Y & ->). unfold turned_grid. cbn [fst snd turned tmap]. unfold scaling_factor. cbn [turned_slm wavelength focal_length].
  destruct m as [px py fi fo fm]. cbn [f_output f_image f_input turned_sim]. destruct fo as [o|]; cbn [option_map]; [|reflexivity]. destruct fm as [img|]; cbn [option_map]; [|reflexivity].
  rewrite below_turned. destruct (tmap2 _ _ img); reflexivity.
Qed.

(** ** Turning twice, and reflecting a profile with the library. *)
Theorem turned_dmd_twice d : turned_dmd (turned_dmd d) = d.
Proof.
  destruct d as [[a b c e f] p th n st]. unfold turned_dmd, turned_slm. cbn [d_slm d_p d_theta d_neg d_state wavelength focal_length s_Nx s_Ny pixel_size].
  replace (- (PI / 2) - (- (PI / 2) - th)) with th by ring. destruct st; reflexivity.
Qed.
Theorem reflected_prof h p : (forall x y, exists v, func h p x y = Ok v) -> turned_prof h h p (p_rotate (p_rescale_x p (-1)) (- (PI / 2))).
Proof.
  intros H. split; [reflexivity|]. intros x y. destruct (H x y) as [v E]. exists v. split; [exact E|]. unfold p_rotate, p_rescale_x. cbn [func].
  destruct (Req_EM_T (-1) 0); [lra|]. rewrite <- E, cos_neg, sin_neg, cos_PI2, sin_PI2. f_equal; field.
Qed.
(** A set-up that is its own reflection: the pattern is its own reflection. *)
Theorem symmetric_setup h d input target m window kw u : turned_dmd d = d -> turned_arg h h input input -> turned_arg h h target target -> turned_opt h h window window ->
  turned_kw h h kw kw -> flip u = u ->
  turned_dmd (fst (calculate_dmd_state h d input target m window kw u)) = fst (calculate_dmd_state h d input target m window kw u).
Proof.
  intros Hd Hi Ht Hw Hk Hu. assert (E := dmd_state_turned h h d input input target target m window window kw kw u Hi Ht Hw Hk). rewrite Hd, Hu in E.
  rewrite E at 2. reflexivity.
Qed.
