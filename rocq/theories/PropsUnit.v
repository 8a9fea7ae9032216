(** C151: similar set-ups behave alike: only ratios of lengths and wavelength times focal length matter. *)
From Coq Require Import Reals Lra ZArith List.
From Coquelicot Require Import Complex.
From Verif Require Import Cx PyBase ProfileModel SlmModel LibModel DmdModel SimModel SimFacts SimFacts2 SimFacts3 SimExamples UnitSpec UnitFacts UnitFacts2.
Open Scope R_scope.

Theorem C151_profiles c h h' p p' : 0 < c -> enlarged c h h' p p' -> forall x y, func h' p' (c * x) (c * y) = func h p x y.
Proof. exact (enlarged_func c h h' p p'). Qed.
Print Assumptions C151_profiles.

Theorem C151_grids c b s s' m : c <> 0 -> similar c b s s' ->
  fourier_plane_grid s' = zoom c (fourier_plane_grid s) /\ image_plane_grid s' = zoom b (image_plane_grid s) /\
  fourier_plane_padded_grid s' m = zoom c (fourier_plane_padded_grid s m) /\ image_plane_padded_grid s' m = zoom b (image_plane_padded_grid s m).
Proof.
  exact (fun Hc Hs => conj (fourier_grid_zoom c b s s' Hs) (conj (image_plane_zoom c b s s' Hc Hs) (conj (padded_fourier_zoom c b s s' m Hs) (padded_image_zoom c b s s' m Hc Hs)))).
Qed.
Print Assumptions C151_grids.

Theorem C151_coordinates c b s s' : c <> 0 -> similar c b s s' -> forall i j x y,
  pixel_to_coord s' i j = (c * fst (pixel_to_coord s i j), c * snd (pixel_to_coord s i j)) /\ coord_to_pixel s' (c * x) (c * y) = coord_to_pixel s x y.
Proof. exact (coords_zoom c b s s'). Qed.
Print Assumptions C151_coordinates.

Theorem C151_set_grating c b h h' d d' kw kw' amp amp' pin pin' pout pout' m u : 0 < c -> similar_dmd c b d d' -> enlarged_kw b h h' kw kw' ->
  enlarged_arg c h h' amp amp' -> enlarged_arg c h h' pin pin' -> enlarged_arg c h h' pout pout' ->
  similar_dmd c b (fst (set_dmd_grating_state h d amp pin pout m kw u)) (fst (set_dmd_grating_state h' d' amp' pin' pout' m kw' u)) /\
  snd (set_dmd_grating_state h' d' amp' pin' pout' m kw' u) = snd (set_dmd_grating_state h d amp pin pout m kw u).
Proof. exact (fun Hc Hd Hk => set_grating_zoom c b h h' d d' kw kw' Hc Hd Hk amp amp' pin pin' pout pout' m u). Qed.
Print Assumptions C151_set_grating.

Theorem C151_circular_patch c b h h' d d' kw kw' i j amp amp' pin pin' pout pout' di m u : 0 < c -> similar_dmd c b d d' -> enlarged_kw b h h' kw kw' ->
  enlarged_arg c h h' amp amp' -> enlarged_arg c h h' pin pin' -> enlarged_arg c h h' pout pout' ->
  similar_dmd c b (fst (circular_patch h d i j amp pin pout di m kw u)) (fst (circular_patch h' d' i j amp' pin' pout' di m kw' u)) /\
  snd (circular_patch h' d' i j amp' pin' pout' di m kw' u) = snd (circular_patch h d i j amp pin pout di m kw u).
Proof. exact (fun Hc Hd Hk => patch_zoom c b h h' d d' kw kw' Hc Hd Hk i j amp amp' pin pin' pout pout' di m u). Qed.
Print Assumptions C151_circular_patch.

Theorem C151_dmd_state c b h h' d d' kw kw' input input' target target' m win win' u : 0 < c -> 0 < b -> similar_dmd c b d d' -> enlarged_kw b h h' kw kw' ->
  enlarged_arg c h h' input input' -> enlarged_arg b h h' target target' -> enlarged_opt c h h' win win' ->
  similar_dmd c b (fst (calculate_dmd_state h d input target m win kw u)) (fst (calculate_dmd_state h' d' input' target' m win' kw' u)) /\
  xtimes (c / b) (snd (calculate_dmd_state h d input target m win kw u)) (snd (calculate_dmd_state h' d' input' target' m win' kw' u)).
Proof. exact (fun Hc Hb Hd Hk => dmd_state_zoom c b h h' d d' kw kw' Hc Hb Hd Hk input input' target target' m win win' u). Qed.
Print Assumptions C151_dmd_state.

Theorem C151_origin c b d d' : 0 < c -> 0 < b -> similar_dmd c b d d' ->
  first_order_origin d' = (xlonger b (fst (first_order_origin d)), xlonger b (snd (first_order_origin d))).
Proof. exact (fun Hc Hb Hd => origin_zoom c b d d' Hc Hb Hd). Qed.
Print Assumptions C151_origin.

Theorem C151_hologram c b h h' l l' input input' target target' m kw kw' u : 0 < c -> 0 < b -> similar_lcos c b l l' -> enlarged_lkw b h h' kw kw' ->
  enlarged_arg c h h' input input' -> enlarged_arg b h h' target target' ->
  similar_lcos c b (fst (calculate_hologram h l input target m kw u)) (fst (calculate_hologram h' l' input' target' m kw' u)) /\
  snd (calculate_hologram h' l' input' target' m kw' u) = snd (calculate_hologram h l input target m kw u).
Proof. exact (hologram_zoom c b h h' l l' input input' target target' m kw kw' u). Qed.
Print Assumptions C151_hologram.

Theorem C151_propagate c b h h' v v' m m' a a' : 0 < c -> 0 < b -> similar_dev c b v v' -> similar_sim (c / b) m m' -> enlarged_arg c h h' a a' ->
  similar_sim (c / b) (fst (propagate_to_image h v m a)) (fst (propagate_to_image h' v' m' a')) /\
  snd (propagate_to_image h' v' m' a') = snd (propagate_to_image h v m a).
Proof. exact (propagate_zoom c b h h' v v' m m' a a'). Qed.
Print Assumptions C151_propagate.

Theorem C151_block c b d d' m m' r : 0 < c -> 0 < b -> similar_dmd c b d d' -> similar_sim (c / b) m m' ->
  similar_sim (c / b) (fst (block_zeroth_order d m r)) (fst (block_zeroth_order d' m' (option_map (Rmult b) r))) /\
  snd (block_zeroth_order d' m' (option_map (Rmult b) r)) = snd (block_zeroth_order d m r).
Proof. exact (block_zoom c b d d' m m' r). Qed.
Print Assumptions C151_block.

Theorem C151_powers c b s s' m m' : 0 < c -> 0 < b -> similar c b s s' -> similar_sim (c / b) m m' ->
  times (c ^ 2) (get_input_power s m) (get_input_power s' m') /\ times (c ^ 2) (get_output_power s m) (get_output_power s' m') /\
  times (c ^ 2) (get_image_plane_power s m) (get_image_plane_power s' m').
Proof. exact (powers_zoom c b s s' m m'). Qed.
Print Assumptions C151_powers.

(** Constructors: other units (wavelength, focal length and pixel size), another focal length, another split of wavelength times focal length. *)
Theorem C151_units c wl fl per th nx ny ps neg : similar_dmd c c (dmd_new wl fl per th nx ny ps neg) (dmd_new (c * wl) (c * fl) per th nx ny (c * ps) neg).
Proof. exact (new_units c wl fl per th nx ny ps neg). Qed.
Print Assumptions C151_units.
Theorem C151_focal_length b wl fl per th nx ny ps neg : similar_dmd 1 b (dmd_new wl fl per th nx ny ps neg) (dmd_new wl (b * fl) per th nx ny ps neg).
Proof. exact (new_focal b wl fl per th nx ny ps neg). Qed.
Print Assumptions C151_focal_length.
Theorem C151_product wl fl wl' fl' per th nx ny ps neg : wl' * fl' = wl * fl -> similar_dmd 1 1 (dmd_new wl fl per th nx ny ps neg) (dmd_new wl' fl' per th nx ny ps neg).
Proof. exact (new_product wl fl wl' fl' per th nx ny ps neg). Qed.
Print Assumptions C151_product.
Theorem C151_same_arguments h a : enlarged_arg 1 h h a a.
Proof. exact (enlarged_arg_one h a). Qed.
Print Assumptions C151_same_arguments.
Theorem C151_lcos_units c wl fl nx ny ps :
  similar_lcos c c (lcos_new {| wavelength := wl; focal_length := fl; s_Nx := nx; s_Ny := ny; pixel_size := ps |})
                   (lcos_new {| wavelength := c * wl; focal_length := c * fl; s_Nx := nx; s_Ny := ny; pixel_size := c * ps |}).
Proof. exact (lcos_units c wl fl nx ny ps). Qed.
Print Assumptions C151_lcos_units.

(** A rotated, shifted product of a Hermite-Gaussian beam and a circular window, in millimetres and in micrometres; the window is neither 0 nor 1 throughout. *)
Example C151_profile_case : enlarged 1000 mm_heap um_heap mm_prof um_prof /\ func mm_heap (PCirc 0%nat 1%nat 3%nat) 9 0 = Ok (VR 1) /\ func mm_heap (PCirc 0%nat 1%nat 3%nat) 10 5 = Ok (VR 0).
Proof. exact (conj mm_um (conj (proj1 mm_circ) (proj2 (proj2 mm_circ)))). Qed.
(** The example DMD of SimExamples in units a thousand times smaller runs, and a simulation starts in similar states. *)
Example C151_device_case : similar_dmd 1000 1000 ex_dmd (with_state (dmd_new 2000 3000 4 1 3 2 500 false) (d_state ex_dmd)) /\ similar_sim (1000 / 1000) ex_sim ex_sim /\
  enlarged_arg 1000 ex_heap ex_heap ex_input ex_input /\ (exists m', propagate_to_image ex_heap (DevDmd ex_dmd) ex_sim ex_input = (m', Ok tt)).
Proof.
  split; [repeat split; cbn; lra|]. split; [repeat split|]. split; [constructor|].
  exact (proj1 (proj2 (ex_runs (DevDmd ex_dmd) _ (state_bool ex_dmd _ eq_refl) eq_refl))).
Qed.
