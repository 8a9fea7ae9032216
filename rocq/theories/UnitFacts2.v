(** Similar set-ups: patterns, holograms, simulations (C151). *)
From Coq Require Import Reals Lra ZArith Arith List Bool Lia FunctionalExtensionality.
From Coquelicot Require Import Complex.
From Verif Require Import Cx Sums DFT PyBase ProfileModel SlmModel LibModel DmdModel SimModel UnitSpec DmdFacts2 AmpFacts2 UnitFacts.
Import ListNotations.
Open Scope R_scope.

(** ** Gratings *)
Lemma grating_phase_zoom c x y th p : 0 < c -> grating_phase (c * x) (c * y) th (c * p) = grating_phase x y th p.
Proof.
  intros Hc. unfold grating_phase. transitivity ((c * (2 * PI)) / (c * p) * (cos th * x + sin th * y)); [unfold Rdiv; ring|].
  rewrite div_scale by lra. reflexivity.
Qed.
Lemma grating_tensor_zoom {A} c (px px' : xr -> R -> R -> R -> R -> nat -> nat -> A) amp pin pout x y :
  (forall a i o x y k l, px' a i o (c * x) (c * y) k l = px a i o x y k l) ->
  grating_tensor px' amp pin pout (tmap (fun v => c * v) x) (tmap (fun v => c * v) y) = grating_tensor px amp pin pout x y.
Proof.
  intros H. unfold grating_tensor. rewrite !tshape_tmap. destruct (bc_all _ _); cbn [rbind]; [|reflexivity]. f_equal. f_equal.
  apply fun2_ext. intros i j. rewrite !tget_tmap. apply H.
Qed.
Lemma guard_zoom {A} c p (bad px : xr -> R -> R -> R -> R -> nat -> nat -> A) : 0 < c -> guard_p (c * p) bad px = guard_p p bad px.
Proof. intros Hc. unfold guard_p. apply if_zero_zoom, Hc. Qed.
Section Zoom.
Variables (c : R) (neg : bool) (amp : tensor xr) (pin pout x y : tensor R) (p theta : R).
Hypothesis Hc : 0 < c.
Lemma ideal_zoom : grating_ideal neg amp pin pout (tmap (fun v => c * v) x) (tmap (fun v => c * v) y) (c * p) theta = grating_ideal neg amp pin pout x y p theta.
Proof.
  unfold grating_ideal. rewrite guard_zoom by exact Hc. apply grating_tensor_zoom. intros. unfold guard_p. destruct (Req_EM_T p 0); [reflexivity|].
  unfold px_ideal. rewrite grating_phase_zoom by exact Hc. reflexivity.
Qed.
Lemma simple_zoom : grating_simple neg amp pin pout (tmap (fun v => c * v) x) (tmap (fun v => c * v) y) (c * p) theta = grating_simple neg amp pin pout x y p theta.
Proof.
  unfold grating_simple. rewrite guard_zoom by exact Hc. apply grating_tensor_zoom. intros. unfold guard_p. destruct (Req_EM_T p 0); [reflexivity|].
  unfold px_simple, px_ideal. rewrite grating_phase_zoom by exact Hc. reflexivity.
Qed.
Lemma random_zoom r u : grating_random neg amp pin pout (tmap (fun v => c * v) x) (tmap (fun v => c * v) y) (c * p) theta r u = grating_random neg amp pin pout x y p theta r u.
Proof.
  unfold grating_random. rewrite guard_zoom by exact Hc. apply grating_tensor_zoom. intros. unfold guard_p. destruct (Req_EM_T p 0); [reflexivity|].
  unfold px_random, random_duty. rewrite grating_phase_zoom by exact Hc. reflexivity.
Qed.
Lemma dmd_grating_zoom m kw kw' inp win u : k_r kw' = k_r kw -> k_N kw' = k_N kw -> k_s kw' = k_s kw ->
  calculate_dmd_grating m neg amp pin pout (tmap (fun v => c * v) x) (tmap (fun v => c * v) y) (c * p) theta kw' inp win u =
  calculate_dmd_grating m neg amp pin pout x y p theta kw inp win u.
Proof.
  intros Er EN Es. unfold calculate_dmd_grating. rewrite Er, EN, Es.
  destruct m; [rewrite ideal_zoom|rewrite simple_zoom|rewrite random_zoom|unfold grating_ifta; rewrite ideal_zoom|]; reflexivity.
Qed.
End Zoom.

(** ** DMD methods *)
Section Dmd.
Variables (c b : R) (h h' : heap) (d d' : dmd) (kw kw' : kwargs).
Hypothesis (Hc : 0 < c) (Hb : 0 < b) (Hd : similar_dmd c b d d') (Hk : enlarged_kw b h h' kw kw').
Lemma grating_of_zoom amp amp' pin pin' pout pout' m u : enlarged_arg c h h' amp amp' -> enlarged_arg c h h' pin pin' -> enlarged_arg c h h' pout pout' ->
  grating_of h' d' amp' pin' pout' m kw' u = grating_of h d amp pin pout m kw u.
Proof.
  intros Ha Hi Ho. destruct Hd as (Hs & Ep & Et & En & _). destruct Hk as (Er & EN & Es & Ew & Ei). unfold grating_of.
  rewrite (tensor_r_fourier c b h h' _ _ amp amp' Hc Hs Ha), (tensor_r_fourier c b h h' _ _ pin pin' Hc Hs Hi), (tensor_r_fourier c b h h' _ _ pout pout' Hc Hs Ho).
  rewrite (fourier_grid_zoom _ _ _ _ Hs). destruct (fourier_plane_grid (d_slm d)) as [x y]. unfold zoom. cbn [fst snd].
  rewrite (raw_enlarged _ _ _ _ _ Ew), Ei, Ep, Et, En.
  destruct (profile_to_tensor_r h (d_slm d) amp true); cbn [rbind]; [|reflexivity]. destruct (profile_to_tensor_r h (d_slm d) pin true); cbn [rbind]; [|reflexivity].
  destruct (profile_to_tensor_r h (d_slm d) pout true); cbn [rbind]; [|reflexivity].
  rewrite (dmd_grating_zoom c _ _ _ _ _ _ _ _ Hc m kw kw') by assumption. reflexivity.
Qed.
Lemma similar_with st : similar_dmd c b (with_state d st) (with_state d' st).
Proof. destruct Hd as (Hs & Ep & Et & En & _). repeat split; try assumption; apply Hs. Qed.
Theorem set_grating_zoom amp amp' pin pin' pout pout' m u : enlarged_arg c h h' amp amp' -> enlarged_arg c h h' pin pin' -> enlarged_arg c h h' pout pout' ->
  similar_dmd c b (fst (set_dmd_grating_state h d amp pin pout m kw u)) (fst (set_dmd_grating_state h' d' amp' pin' pout' m kw' u)) /\
  snd (set_dmd_grating_state h' d' amp' pin' pout' m kw' u) = snd (set_dmd_grating_state h d amp pin pout m kw u).
Proof.
  intros Ha Hi Ho. unfold set_dmd_grating_state. rewrite (grating_of_zoom amp amp' pin pin' pout pout' m u Ha Hi Ho).
  destruct (grating_of h d amp pin pout m kw u); cbn [fst snd]; split; try reflexivity; [apply similar_with|exact Hd].
Qed.
Theorem patch_zoom i j amp amp' pin pin' pout pout' di m u : enlarged_arg c h h' amp amp' -> enlarged_arg c h h' pin pin' -> enlarged_arg c h h' pout pout' ->
  similar_dmd c b (fst (circular_patch h d i j amp pin pout di m kw u)) (fst (circular_patch h' d' i j amp' pin' pout' di m kw' u)) /\
  snd (circular_patch h' d' i j amp' pin' pout' di m kw' u) = snd (circular_patch h d i j amp pin pout di m kw u).
Proof.
  intros Ha Hi Ho. unfold circular_patch. rewrite (grating_of_zoom amp amp' pin pin' pout pout' m u Ha Hi Ho).
  destruct (grating_of h d amp pin pout m kw u); cbn [fst snd]; [|split; [exact Hd|reflexivity]].
  destruct Hd as ((Ex & Ey & _) & _ & _ & _ & Es). unfold fourier_plane_pixel_grid. rewrite Ex, Ey, Es.
  destruct (mesh_ij _ _) as [ii jj]. destruct (masked_assign _ _ _ _ _); cbn [fst snd]; split; try reflexivity; [apply similar_with|exact Hd].
Qed.
Theorem dmd_state_zoom input input' target target' m win win' u :
  enlarged_arg c h h' input input' -> enlarged_arg b h h' target target' -> enlarged_opt c h h' win win' ->
  similar_dmd c b (fst (calculate_dmd_state h d input target m win kw u)) (fst (calculate_dmd_state h' d' input' target' m win' kw' u)) /\
  xtimes (c / b) (snd (calculate_dmd_state h d input target m win kw u)) (snd (calculate_dmd_state h' d' input' target' m win' kw' u)).
Proof.
  intros Hi Ht Hw. assert (Hd0 := Hd). destruct Hd as (Hs & Ep & Et & En & _). destruct Hk as (Er & EN & Es & Ew & Ei). unfold calculate_dmd_state. cbv zeta.
  rewrite (tensor_c_fourier c b h h' _ _ input input' Hc Hs Hi), (tensor_c_image c b h h' _ _ target target' Hc Hb Hs Ht).
  assert (Eww : match win' with None => Ok None | Some w => let! w := profile_to_tensor_c h' (d_slm d') w true in Ok (Some w) end =
                match win with None => Ok None | Some w => let! w := profile_to_tensor_c h (d_slm d) w true in Ok (Some w) end).
  { destruct win as [w|], win' as [w'|]; cbn [enlarged_opt] in Hw; try contradiction; [|reflexivity].
    rewrite (tensor_c_fourier c b h h' _ _ w w' Hc Hs Hw). reflexivity. }
  rewrite Eww. clear Eww. rewrite (fourier_grid_zoom _ _ _ _ Hs). destruct (fourier_plane_grid (d_slm d)) as [x y]. unfold zoom. cbn [fst snd].
  set (K := fun (inp : tensor C) => match m with
    | MIfta => match k_window kw with None => Err KeyError | Some w => let! w := profile_to_tensor_c h (d_slm d) w false in Ok (Some inp, Some w) end
    | _ => Ok (raw_tensor (k_input kw), raw_tensor (k_window kw)) end).
  assert (EK : forall inp, match m with
    | MIfta => match k_window kw' with None => Err KeyError | Some w => let! w := profile_to_tensor_c h' (d_slm d') w false in Ok (Some inp, Some w) end
    | _ => Ok (raw_tensor (k_input kw'), raw_tensor (k_window kw')) end = K inp).
  { intros inp. unfold K. destruct m; try (rewrite (raw_enlarged _ _ _ _ _ Ew), Ei; reflexivity).
    destruct (k_window kw) as [w|], (k_window kw') as [w'|]; cbn [enlarged_opt] in Ew; try contradiction; [|reflexivity].
    rewrite (tensor_c_image c b h h' _ _ w w' Hc Hb Hs Ew). reflexivity. }
  rewrite Ep, Et, En.
  destruct (profile_to_tensor_c h (d_slm d) input true) as [inp|]; cbn [rbind]; [|split; [exact Hd0|reflexivity]].
  destruct (profile_to_tensor_c h (d_slm d) target false) as [tg|]; cbn [rbind]; [|split; [exact Hd0|reflexivity]].
  destruct (match win with None => _ | Some w => _ end) as [wn|]; cbn [rbind]; [|split; [exact Hd0|reflexivity]].
  destruct (calc_amp_phase inp tg wn) as [[[[am pi] po] one]|]; cbn [rbind]; [|split; [exact Hd0|reflexivity]].
  rewrite EK. fold (K inp). destruct (K inp) as [[ip wi]|]; cbn [rbind]; [|split; [exact Hd0|reflexivity]].
  rewrite (dmd_grating_zoom c _ _ _ _ _ _ _ _ Hc m kw kw') by assumption.
  destruct (calculate_dmd_grating m (d_neg d) am pi po x y (d_p d) (d_theta d) kw ip wi u) as [g|]; cbn [rbind]; [|split; [exact Hd0|reflexivity]].
  destruct (to_dstate g) as [st|]; cbn [rbind]; [|split; [exact Hd0|reflexivity]].
  rewrite (similar_scale _ _ _ _ Hs), if_zero_zoom by nra. destruct Hs as (Ex & Ey & Eps & _). rewrite Ex, Ey, Eps.
  destruct (Req_EM_T (scaling_factor (d_slm d)) 0) as [|NZ]; cbn [fst snd]; (split; [apply similar_with|]); [reflexivity|].
  unfold py_div. destruct one as [r| | |]; cbn [xtimes]; try (field; lra); [|reflexivity].
  destruct (Req_EM_T r 0); [reflexivity|]. cbn [xtimes]. field. repeat split; try assumption; lra.
Qed.
Theorem origin_zoom : first_order_origin d' = (xlonger b (fst (first_order_origin d)), xlonger b (snd (first_order_origin d))).
Proof.
  destruct Hd as (Hs & Ep & Et & _). unfold first_order_origin. cbn [fst snd]. rewrite Et, Ep, (similar_scale _ _ _ _ Hs).
  assert (K : forall t, xdiv (Fin (t * (c * b * scaling_factor (d_slm d)))) (Fin (c * d_p d)) = xlonger b (xdiv (Fin (t * scaling_factor (d_slm d))) (Fin (d_p d)))).
  { intros t. cbn [xdiv]. rewrite if_zero_zoom by exact Hc. destruct (Req_EM_T (d_p d) 0) as [|NZ].
    - assert (0 < c * b) by nra. set (v := scaling_factor (d_slm d)). replace (t * (c * b * v)) with ((c * b) * (t * v)) by ring. set (w := t * v).
      destruct (Rlt_dec 0 (c * b * w)), (Rlt_dec 0 w); try reflexivity; try (exfalso; nra).
      destruct (Rlt_dec (c * b * w) 0), (Rlt_dec w 0); try reflexivity; exfalso; nra.
    - cbn [xlonger]. f_equal. field. split; [assumption|lra]. }
  rewrite !K. reflexivity.
Qed.
End Dmd.

(** ** Holograms *)
Theorem hologram_zoom c b h h' l l' input input' target target' m kw kw' u : 0 < c -> 0 < b -> similar_lcos c b l l' -> enlarged_lkw b h h' kw kw' ->
  enlarged_arg c h h' input input' -> enlarged_arg b h h' target target' ->
  similar_lcos c b (fst (calculate_hologram h l input target m kw u)) (fst (calculate_hologram h' l' input' target' m kw' u)) /\
  snd (calculate_hologram h' l' input' target' m kw' u) = snd (calculate_hologram h l input target m kw u).
Proof.
  intros Hc Hb Hl (EN & Em & Ew) Hi Ht. assert (Hl0 := Hl). destruct Hl as (Hs & _). unfold calculate_hologram.
  rewrite (tensor_c_fourier c b h h' _ _ input input' Hc Hs Hi), (tensor_r_image c b h h' _ _ target target' Hc Hb Hs Ht).
  assert (EW : match m with
    | MMraf => match lk_window kw' with None => Err KeyError | Some w => let! w := profile_to_tensor_c h' (l_slm l') w false in Ok (Some w) end
    | _ => Ok (raw_tensor (lk_window kw')) end =
    match m with
    | MMraf => match lk_window kw with None => Err KeyError | Some w => let! w := profile_to_tensor_c h (l_slm l) w false in Ok (Some w) end
    | _ => Ok (raw_tensor (lk_window kw)) end).
  { destruct m; try (rewrite (raw_enlarged _ _ _ _ _ Ew); reflexivity).
    destruct (lk_window kw) as [w|], (lk_window kw') as [w'|]; cbn [enlarged_opt] in Ew; try contradiction; [|reflexivity].
    rewrite (tensor_c_image c b h h' _ _ w w' Hc Hb Hs Ew). reflexivity. }
  cbv zeta. rewrite EW. clear EW.
  assert (EC : forall i t w, calculate_lcos_hologram m i t w kw' u = calculate_lcos_hologram m i t w kw u).
  { intros. unfold calculate_lcos_hologram. rewrite EN, Em. reflexivity. }
  destruct (profile_to_tensor_c h (l_slm l) input true) as [inp|]; cbn [rbind]; [|split; [exact Hl0|reflexivity]].
  destruct (profile_to_tensor_r h (l_slm l) target false) as [tg|]; cbn [rbind]; [|split; [exact Hl0|reflexivity]].
  destruct (match m with MMraf => _ | _ => _ end) as [wn|]; cbn [rbind]; [|split; [exact Hl0|reflexivity]].
  rewrite EC. destruct (calculate_lcos_hologram m inp tg wn kw u); (split; [|reflexivity]); [split; [exact Hs|reflexivity]|exact Hl0].
Qed.

(** ** Simulations *)
Lemma similar_dev_slm c b v v' : similar_dev c b v v' -> similar c b (dev_slm v) (dev_slm v').
Proof. destruct v, v'; cbn [similar_dev]; try contradiction; [intros H; exact H|intros H; apply H|intros H; apply H]. Qed.
Lemma similar_dev_state c b v v' : similar_dev c b v v' -> state_tensor v' = state_tensor v.
Proof. destruct v, v'; cbn [similar_dev]; try contradiction; [reflexivity|intros (_ & _ & _ & _ & E)|intros (_ & E)]; cbn [state_tensor]; rewrite E; reflexivity. Qed.
Theorem propagate_zoom c b h h' v v' m m' a a' : 0 < c -> 0 < b -> similar_dev c b v v' -> similar_sim (c / b) m m' -> enlarged_arg c h h' a a' ->
  similar_sim (c / b) (fst (propagate_to_image h v m a)) (fst (propagate_to_image h' v' m' a')) /\
  snd (propagate_to_image h' v' m' a') = snd (propagate_to_image h v m a).
Proof.
  intros Hc Hb Hv Hm Ha. assert (Hs := similar_dev_slm _ _ _ _ Hv). assert (Hm0 := Hm). destruct Hm as (Ex & Ey & Ei & Eo & Ep). unfold propagate_to_image.
  rewrite (tensor_c_fourier c b h h' _ _ a a' Hc Hs Ha), (similar_dev_state _ _ _ _ Hv), Ex, Ey.
  destruct (profile_to_tensor_c h (dev_slm v) a true) as [inp|]; cbn [fst snd]; [|split; [exact Hm0|reflexivity]].
  destruct (tf_pad (pad_y m) (pad_x m) inp) as [fin|]; cbn [fst snd]; [|split; [exact Hm0|reflexivity]]. cbv zeta.
  destruct (let! st := state_tensor v in tmap2 Cmult inp st) as [out|]; cbn [fst snd]; [|split; [repeat split; assumption|reflexivity]].
  destruct (tf_pad (pad_y m) (pad_x m) out) as [fout|]; cbn [fst snd]; [|split; [repeat split; assumption|reflexivity]].
  rewrite (similar_scale _ _ _ _ Hs), if_zero_zoom by nra. unfold sim_Nx, sim_Ny, fourier_plane_pixel_area. destruct Hs as (Esx & Esy & Eps & _).
  rewrite Esx, Esy, Eps, Ex, Ey.
  destruct (Req_EM_T (scaling_factor (dev_slm v)) 0) as [|NZ]; cbn [fst snd]; (split; [|reflexivity]); repeat split; try assumption.
  cbn [with_fields f_image brighter option_map]. f_equal. rewrite tmap_tmap. apply tmap_ext. intros z. rewrite <- Cmult_assoc. f_equal. rewrite <- RtoC_mult. f_equal.
  field. repeat split; try assumption; lra.
Qed.
Lemma below_zoom b q r : 0 < b -> below (b ^ 2 * q) (xlonger b r) = below q r.
Proof.
  intros Hb. destruct r as [r| | |]; try reflexivity. cbn [xlonger below]. replace ((b * r) ^ 2) with (b ^ 2 * r ^ 2) by ring.
  assert (0 < b ^ 2) by nra. destruct (Rlt_dec (b ^ 2 * q) (b ^ 2 * r ^ 2)), (Rlt_dec q (r ^ 2)); try reflexivity; exfalso; nra.
Qed.
Lemma radius_zoom c b f p : 0 < c -> 0 < b -> xdiv (xdiv (Fin (c * b * f)) (Fin (c * p))) (Fin 2) = xlonger b (xdiv (xdiv (Fin f) (Fin p)) (Fin 2)).
Proof.
  intros Hc Hb. unfold xdiv at 2 4. rewrite if_zero_zoom by exact Hc. destruct (Req_EM_T p 0) as [|NZ].
  - assert (0 < c * b) by nra. destruct (Rlt_dec 0 (c * b * f)), (Rlt_dec 0 f); try (exfalso; nra); [cbn; destruct (Rlt_dec 2 0); reflexivity|].
    destruct (Rlt_dec (c * b * f) 0), (Rlt_dec f 0); try (exfalso; nra); [cbn; destruct (Rlt_dec 2 0); reflexivity|reflexivity].
  - cbn [xdiv]. destruct (Req_EM_T 2 0); [lra|]. cbn [xlonger]. f_equal. field. split; [assumption|lra].
Qed.
Theorem block_zoom c b d d' m m' r : 0 < c -> 0 < b -> similar_dmd c b d d' -> similar_sim (c / b) m m' ->
  similar_sim (c / b) (fst (block_zeroth_order d m r)) (fst (block_zeroth_order d' m' (option_map (Rmult b) r))) /\
  snd (block_zeroth_order d' m' (option_map (Rmult b) r)) = snd (block_zeroth_order d m r).
Proof.
  intros Hc Hb (Hs & Ep & _) Hm. assert (Hm0 := Hm). destruct Hm as (Ex & Ey & Ei & Eo & Ef). unfold block_zeroth_order. rewrite Eo.
  destruct (f_output m) as [fo|] eqn:Efo; [|split; [exact Hm0|reflexivity]]. cbv zeta.
  assert (Er : match option_map (Rmult b) r with Some r => Fin r | None => xdiv (xdiv (Fin (scaling_factor (d_slm d'))) (Fin (d_p d'))) (Fin 2) end =
    xlonger b (match r with Some r => Fin r | None => xdiv (xdiv (Fin (scaling_factor (d_slm d))) (Fin (d_p d))) (Fin 2) end)).
  { destruct r; cbn [option_map]; [reflexivity|]. rewrite (similar_scale _ _ _ _ Hs), Ep. apply radius_zoom; assumption. }
  rewrite Er. set (rr := match r with Some r => Fin r | None => _ end). clearbody rr. clear Er.
  assert (Eg : image_plane_padded_grid (d_slm d') m' = zoom b (image_plane_padded_grid (d_slm d) m)).
  { rewrite <- (padded_image_zoom c b _ _ m) by (try lra; exact Hs). unfold image_plane_padded_grid, sim_Nx, sim_Ny. rewrite Ex, Ey. reflexivity. }
  rewrite Eg. destruct (image_plane_padded_grid (d_slm d) m) as [x y]. unfold zoom. cbn [fst snd]. rewrite Ef.
  destruct (f_image m) as [img|] eqn:Efi; cbn [brighter option_map]; [|split; [exact Hm0|reflexivity]].
  set (k := c / b). set (P := match x with T2 ny nx f => T2 ny nx (fun i j => (f i j, tget y i j)) | T0 a => T0 (a, tget y 0 0) end).
  assert (EP : match tmap (fun v => b * v) x with T2 ny nx f => T2 ny nx (fun i j => (f i j, tget (tmap (fun v => b * v) y) i j)) | T0 a => T0 (a, tget (tmap (fun v => b * v) y) 0 0) end =
    tmap (fun q => (b * fst q, b * snd q)) P).
  { unfold P. destruct x; cbn [tmap fst snd]; [rewrite tget_tmap; reflexivity|]. f_equal. apply fun2_ext. intros i j. rewrite tget_tmap. reflexivity. }
  rewrite EP. clearbody P. clear EP Eg.
  rewrite (tmap2_map (fun (p : R * R) z => if below (fst p ^ 2 + snd p ^ 2) rr then RtoC 0 else z) _ (fun q => (b * fst q, b * snd q)) (fun z => z)).
  2:{ intros q z. cbn [fst snd]. replace ((b * fst q) ^ 2 + (b * snd q) ^ 2) with (b ^ 2 * (fst q ^ 2 + snd q ^ 2)) by ring. rewrite below_zoom by exact Hb. reflexivity. }
  rewrite (tmap2_map_r (fun (p : R * R) z => if below (fst p ^ 2 + snd p ^ 2) rr then RtoC 0 else z) _ (fun z => (z * RtoC k)%C) (fun z => (z * RtoC k)%C)).
  2:{ intros q z. destruct (below _ rr); [|reflexivity]. rewrite Cmult_0_l. reflexivity. }
  destruct (tmap2 _ P img) as [t|e]; cbn [rmap fst snd]; [|split; [exact Hm0|reflexivity]].
  split; [|reflexivity]. repeat split; try assumption. cbn [with_fields f_image brighter option_map]. f_equal. rewrite tmap_tmap. reflexivity.
Qed.
Lemma clear_zoom k m m' : similar_sim k m m' -> similar_sim k (clear m) (clear m').
Proof. intros (Ex & Ey & _). repeat split; assumption. Qed.
Lemma power_zoom k a o o' (r r' : res R) : option_map tsum o' = option_map (fun t => a * tsum t) o -> times k r r' -> times (a * k) (power o r) (power o' r').
Proof.
  intros Eo Hr. unfold power. destruct r as [x|e], r' as [x'|e']; cbn [times rbind] in *; try contradiction; [|congruence].
  destruct o as [t|], o' as [t'|]; cbn [option_map] in Eo; try discriminate; [|reflexivity]. injection Eo as Et. cbn [times]. rewrite Et, Hr. ring.
Qed.
Lemma tsum_bright k t : tsum (intensity (tmap (fun z => (z * RtoC k)%C) t)) = k ^ 2 * tsum (intensity t).
Proof.
  destruct t as [z|ny nx f]; cbn [tmap intensity tsum]; [cbn; ring|]. rewrite <- rsum2_scal_l. apply rsum2_ext. intros i j _ _. cbn. ring.
Qed.
Theorem powers_zoom c b s s' m m' : 0 < c -> 0 < b -> similar c b s s' -> similar_sim (c / b) m m' ->
  times (c ^ 2) (get_input_power s m) (get_input_power s' m') /\ times (c ^ 2) (get_output_power s m) (get_output_power s' m') /\
  times (c ^ 2) (get_image_plane_power s m) (get_image_plane_power s' m').
Proof.
  intros Hc Hb Hs (Ex & Ey & Ei & Eo & Ef). assert (Es := similar_scale _ _ _ _ Hs). destruct Hs as (Enx & Eny & Ep & _).
  unfold get_input_power, get_output_power, get_image_plane_power, input_intensity, output_intensity, image_plane_intensity. rewrite Ei, Eo, Ef. repeat split.
  - rewrite <- (Rmult_1_l (c ^ 2)). apply power_zoom; [destruct (f_input m); cbn [option_map]; f_equal; ring|].
    unfold fourier_plane_pixel_area. cbn [times]. rewrite Ep. ring.
  - rewrite <- (Rmult_1_l (c ^ 2)). apply power_zoom; [destruct (f_output m); cbn [option_map]; f_equal; ring|].
    unfold fourier_plane_pixel_area. cbn [times]. rewrite Ep. ring.
  - replace (c ^ 2) with ((c / b) ^ 2 * b ^ 2) by (field; lra). apply power_zoom.
    + destruct (f_image m); cbn [option_map brighter]; f_equal. apply tsum_bright.
    + unfold image_plane_pixel_area, sim_Nx, sim_Ny. rewrite Ex, Ey, Enx, Eny, Ep, Es, if_zero_zoom by exact Hc.
      destruct ((Z.of_nat (s_Nx s) + 2 * pad_x m) * (Z.of_nat (s_Ny s) + 2 * pad_y m) =? 0)%Z eqn:Ez; [reflexivity|].
      destruct (Req_EM_T (pixel_size s) 0) as [|NZ]; cbn [times]; [reflexivity|]. apply Z.eqb_neq in Ez.
      field. repeat split; try assumption; try lra. apply not_0_IZR. exact Ez.
Qed.
Lemma coords_zoom c b s s' : c <> 0 -> similar c b s s' -> forall i j x y,
  pixel_to_coord s' i j = (c * fst (pixel_to_coord s i j), c * snd (pixel_to_coord s i j)) /\ coord_to_pixel s' (c * x) (c * y) = coord_to_pixel s x y.
Proof.
  intros Hc (Ex & Ey & Ep & _) i j x y. split.
  - unfold pixel_to_coord. cbn [fst snd]. rewrite Ex, Ey, Ep. f_equal; ring.
  - unfold coord_to_pixel. rewrite Ex, Ey, Ep, !div_scale by exact Hc. reflexivity.
Qed.

(** ** Ways to come by similar devices *)
Lemma new_units c wl fl per th nx ny ps neg : similar_dmd c c (dmd_new wl fl per th nx ny ps neg) (dmd_new (c * wl) (c * fl) per th nx ny (c * ps) neg).
Proof. repeat split; cbn; ring. Qed.
Lemma new_focal b wl fl per th nx ny ps neg : similar_dmd 1 b (dmd_new wl fl per th nx ny ps neg) (dmd_new wl (b * fl) per th nx ny ps neg).
Proof. repeat split; cbn; ring. Qed.
Lemma new_product wl fl wl' fl' per th nx ny ps neg : wl' * fl' = wl * fl -> similar_dmd 1 1 (dmd_new wl fl per th nx ny ps neg) (dmd_new wl' fl' per th nx ny ps neg).
Proof. intros E. repeat split; cbn; try ring. rewrite E. ring. Qed.
Lemma lcos_units c wl fl nx ny ps :
  similar_lcos c c (lcos_new {| wavelength := wl; focal_length := fl; s_Nx := nx; s_Ny := ny; pixel_size := ps |})
                   (lcos_new {| wavelength := c * wl; focal_length := c * fl; s_Nx := nx; s_Ny := ny; pixel_size := c * ps |}).
Proof. repeat split; cbn; ring. Qed.
Lemma enlarged_one h p : enlarged 1 h h p p.
Proof. induction p; constructor; try assumption; try reflexivity; ring. Qed.
Lemma enlarged_arg_one h a : enlarged_arg 1 h h a a.
Proof. destruct a; constructor. apply enlarged_one. Qed.

(** ** A concrete pair: millimetres and micrometres. *)
Definition mm_heap : heap := {| h_val := fun k => match k with O => VR 3 | 1%nat => VR (-2) | 2%nat => VR 5 | 3%nat => VR 7 | _ => VR 0 end; h_next := 4%nat |}.
Definition um_heap : heap := {| h_val := fun k => match k with O => VR 3000 | 1%nat => VR (-2000) | 2%nat => VR 5 | 3%nat => VR 7000 | _ => VR 0 end; h_next := 4%nat |}.
Definition mm_prof : prof := PShift 2 (-1) (PRot 1 (PBin Omul (PHG 0%nat 1%nat 2%nat 3%nat 1 2) (PCirc 0%nat 1%nat 3%nat))).
Definition um_prof : prof := PShift 2000 (-1000) (PRot 1 (PBin Omul (PHG 0%nat 1%nat 2%nat 3%nat 1 2) (PCirc 0%nat 1%nat 3%nat))).
Lemma mm_um : enlarged 1000 mm_heap um_heap mm_prof um_prof.
Proof. unfold mm_prof, um_prof. repeat constructor; cbn; lra. Qed.
Lemma mm_circ : func mm_heap (PCirc 0%nat 1%nat 3%nat) 9 0 = Ok (VR 1) /\ func um_heap (PCirc 0%nat 1%nat 3%nat) 9000 0 = Ok (VR 1) /\
  func mm_heap (PCirc 0%nat 1%nat 3%nat) 10 5 = Ok (VR 0).
Proof.
  assert (K : forall a b c d : R, a = b -> @Ok val (VR a) = Ok (VR b)) by (intros; subst; reflexivity).
  repeat split; cbn [func]; apply (K _ _ 0 0); unfold circ_value, Rleb, ind; cbn [getR h_val mm_heap um_heap]; destruct (Rle_dec _ _); lra.
Qed.
