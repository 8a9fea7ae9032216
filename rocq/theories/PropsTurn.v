(** Reflection of the whole set-up in the diagonal of the panel (C154). *)
From Coq Require Import Reals Lra ZArith List Bool.
From Coquelicot Require Import Complex.
From Verif Require Import Cx PyBase ProfileModel SlmModel LibModel DmdModel SimModel TurnSpec TurnFacts TurnFacts2.
Import ListNotations.
Open Scope R_scope.

Theorem C154_grids : forall s m,
  fourier_plane_grid (turned_slm s) = turned_grid (fourier_plane_grid s) /\ image_plane_grid (turned_slm s) = turned_grid (image_plane_grid s) /\
  fourier_plane_padded_grid (turned_slm s) (turned_sim m) = turned_grid (fourier_plane_padded_grid s m) /\
  image_plane_padded_grid (turned_slm s) (turned_sim m) = turned_grid (image_plane_padded_grid s m).
Proof. exact (fun s m => conj (fourier_grid_turned s) (conj (image_plane_turned s) (conj (padded_fourier_turned s m) (padded_image_turned s m)))). Qed.
Print Assumptions C154_grids.
Theorem C154_gratings : forall h h' d amp amp' pin pin' pout pout' m kw kw' u,
  turned_arg h h' amp amp' -> turned_arg h h' pin pin' -> turned_arg h h' pout pout' -> turned_kw h h' kw kw' ->
  set_dmd_grating_state h' (turned_dmd d) amp' pin' pout' m kw' (flip u) =
    (turned_dmd (fst (set_dmd_grating_state h d amp pin pout m kw u)), snd (set_dmd_grating_state h d amp pin pout m kw u)) /\
  forall ci cj diam, circular_patch h' (turned_dmd d) cj ci amp' pin' pout' diam m kw' (flip u) =
    (turned_dmd (fst (circular_patch h d ci cj amp pin pout diam m kw u)), snd (circular_patch h d ci cj amp pin pout diam m kw u)).
Proof.
  exact (fun h h' d amp amp' pin pin' pout pout' m kw kw' u Ha Hi Ho Hk => conj (set_turned h h' d amp amp' pin pin' pout pout' m kw kw' u Ha Hi Ho Hk)
    (fun ci cj diam => patch_turned h h' d ci cj amp amp' pin pin' pout pout' diam m kw kw' u Ha Hi Ho Hk)).
Qed.
Print Assumptions C154_gratings.
(** The reflected hologram, and the same efficiency factor (or exception). *)
Theorem C154_dmd_holograms : forall h h' d input input' target target' m window window' kw kw' u,
  turned_arg h h' input input' -> turned_arg h h' target target' -> turned_opt h h' window window' -> turned_kw h h' kw kw' ->
  calculate_dmd_state h' (turned_dmd d) input' target' m window' kw' (flip u) =
  (turned_dmd (fst (calculate_dmd_state h d input target m window kw u)), snd (calculate_dmd_state h d input target m window kw u)).
Proof. exact dmd_state_turned. Qed.
Print Assumptions C154_dmd_holograms.
Theorem C154_origin : forall d, first_order_origin (turned_dmd d) = (xneg (snd (first_order_origin d)), xneg (fst (first_order_origin d))).
Proof. exact origin_turned. Qed.
Print Assumptions C154_origin.
Theorem C154_lcos_holograms : forall h h' l input input' target target' m kw kw' u,
  turned_arg h h' input input' -> turned_arg h h' target target' -> turned_lkw h h' kw kw' ->
  calculate_hologram h' (turned_lcos l) input' target' m kw' (flip u) =
  (turned_lcos (fst (calculate_hologram h l input target m kw u)), snd (calculate_hologram h l input target m kw u)).
Proof. exact hologram_turned. Qed.
Print Assumptions C154_lcos_holograms.
Theorem C154_simulations : forall h h' v d m input input' r, turned_arg h h' input input' ->
  propagate_to_image h' (turned_dev v) (turned_sim m) input' = (turned_sim (fst (propagate_to_image h v m input)), snd (propagate_to_image h v m input)) /\
  block_zeroth_order (turned_dmd d) (turned_sim m) r = (turned_sim (fst (block_zeroth_order d m r)), snd (block_zeroth_order d m r)) /\
  get_input_power (turned_slm (dev_slm v)) (turned_sim m) = get_input_power (dev_slm v) m /\
  get_output_power (turned_slm (dev_slm v)) (turned_sim m) = get_output_power (dev_slm v) m /\
  get_image_plane_power (turned_slm (dev_slm v)) (turned_sim m) = get_image_plane_power (dev_slm v) m.
Proof. exact (fun h h' v d m input input' r Hi => conj (propagate_turned h h' v m input input' Hi) (conj (block_turned d m r) (powers_turned (dev_slm v) m))). Qed.
Print Assumptions C154_simulations.
(** Reflecting twice changes nothing, and every profile with a value everywhere can be reflected with the library: p.rescale_x(-1).rotate(-pi/2). *)
Theorem C154_reflection : (forall d, turned_dmd (turned_dmd d) = d) /\
  forall h p, (forall x y, exists v, func h p x y = Ok v) -> turned_prof h h p (p_rotate (p_rescale_x p (-1)) (- (PI / 2))).
Proof. exact (conj turned_dmd_twice reflected_prof). Qed.
Print Assumptions C154_reflection.
(** A beam, a target and a panel that are symmetric give a symmetric pattern. *)
Theorem C154_symmetric : forall h d input target m window kw u, turned_dmd d = d -> turned_arg h h input input -> turned_arg h h target target -> turned_opt h h window window ->
  turned_kw h h kw kw -> flip u = u ->
  turned_dmd (fst (calculate_dmd_state h d input target m window kw u)) = fst (calculate_dmd_state h d input target m window kw u).
Proof. exact symmetric_setup. Qed.
Print Assumptions C154_symmetric.
(** A Gaussian beam anywhere and its reflection. *)
Example C154_gaussian : forall h x0 y0 a w, getR h w <> 0 -> turned_arg h h (AProf (PHG x0 y0 a w 0 0)) (AProf (p_rotate (p_rescale_x (PHG x0 y0 a w 0 0) (-1)) (- (PI / 2)))).
Proof.
  intros h x0 y0 a w Hw. apply taProf, reflected_prof. intros x y. cbn [func]. destruct (Req_EM_T (getR h w) 0); [contradiction|]. eexists. reflexivity.
Qed.
(** A square panel with the grating along -45 degrees, a plane wave, and a symmetric target. *)
Example C154_square : forall h u, flip u = u -> let d := dmd_new 1 1 4 (- (PI / 4)) 3 3 1 false in let t := T2 3 3 (fun i j => INR (i * j)) in
  turned_dmd (fst (calculate_dmd_state h d (AConstR (T0 1)) (AConstR t) MRandom None no_kwargs u)) = fst (calculate_dmd_state h d (AConstR (T0 1)) (AConstR t) MRandom None no_kwargs u).
Proof.
  intros h u Hu d t. apply symmetric_setup.
  - unfold d, turned_dmd, dmd_new, turned_slm. cbn [d_slm d_p d_theta d_neg d_state wavelength focal_length s_Nx s_Ny pixel_size all_mirrors turned_state].
    replace (- (PI / 2) - - (PI / 4)) with (- (PI / 4)) by field. reflexivity.
  - exact (taConstR h h (T0 1)).
  - replace (AConstR t) with (AConstR (turned t)) at 2; [apply taConstR|]. f_equal. unfold t, turned, flip. f_equal. apply AmpFacts2.fun2_ext. intros i j. rewrite Nat.mul_comm. reflexivity.
  - exact I.
  - repeat split.
  - exact Hu.
Qed.
