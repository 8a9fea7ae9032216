(** Scaling laws of calculate_dmd_state (C35), dark pixels (C37), zero targets (C38). *)
From Coq Require Import Reals Lra ZArith Arith List Bool Lia FunctionalExtensionality.
From Coquelicot Require Import Complex.
From Verif Require Import Cx Sums DFT PyBase ProfileModel SlmModel LibModel DmdModel SimModel SimSpec GridFacts SimFacts SimFacts2 DmdSpec DmdFacts DmdFacts2 DmdFacts3 RandomFacts AmpFacts.
Import ListNotations.
Open Scope R_scope.

(** ** Tensor algebra *)
Lemma fun2_ext {A} (f g : nat -> nat -> A) : (forall i j, f i j = g i j) -> f = g.
Proof. intros H. extensionality i. extensionality j. apply H. Qed.
Lemma tmap_mk {A B} (g : A -> B) s f : tmap g (mk s f) = mk s (fun i j => g (f i j)).
Proof. destruct s; reflexivity. Qed.
Lemma tmap_tmap {A B D} (g : B -> D) (f : A -> B) t : tmap g (tmap f t) = tmap (fun x => g (f x)) t.
Proof. destruct t; reflexivity. Qed.
Lemma tmap_ext {A B} (f g : A -> B) t : (forall x, f x = g x) -> tmap f t = tmap g t.
Proof. intros H. destruct t; cbn [tmap]; [rewrite H; reflexivity|]. f_equal. apply fun2_ext. auto. Qed.
Lemma tmap2_map {A B D A' D'} (g : A -> B -> D) (g' : A' -> B -> D') (f : A -> A') (k : D -> D') a b :
  (forall x y, g' (f x) y = k (g x y)) -> tmap2 g' (tmap f a) b = rmap (tmap k) (tmap2 g a b).
Proof.
  intros H. unfold tmap2, bc2. rewrite tshape_tmap. destruct (bshape (tshape a) (tshape b)); cbn [rbind rmap]; [|reflexivity].
  rewrite tmap_mk. f_equal. f_equal. apply fun2_ext. intros i j. rewrite tget_tmap. apply H.
Qed.
Lemma tmap2_map_r {A B D B' D'} (g : A -> B -> D) (g' : A -> B' -> D') (f : B -> B') (k : D -> D') a b :
  (forall x y, g' x (f y) = k (g x y)) -> tmap2 g' a (tmap f b) = rmap (tmap k) (tmap2 g a b).
Proof.
  intros H. unfold tmap2, bc2. rewrite tshape_tmap. destruct (bshape (tshape a) (tshape b)); cbn [rbind rmap]; [|reflexivity].
  rewrite tmap_mk. f_equal. f_equal. apply fun2_ext. intros i j. rewrite tget_tmap. apply H.
Qed.

(** ** Positive scaling of extended reals *)
Section XScale.
Variable c : R. Hypothesis Hc : 0 < c.
Lemma xscale_max a b : xmax (xscale a c) (xscale b c) = xscale (xmax a b) c.
Proof.
  destruct a, b; cbn [xscale xmax]; destruct (Rlt_dec 0 c); try lra; try reflexivity.
  f_equal. unfold Rmax. destruct (Rle_dec (r * c) (r0 * c)), (Rle_dec r r0); try reflexivity; exfalso; nra.
Qed.
Lemma xscale_max1 f n : xmax1 (fun j => xscale (f j) c) n = xscale (xmax1 f n) c.
Proof.
  induction n as [|n IH]; cbn [xmax1].
  - cbn [xscale]. destruct (Rlt_dec 0 c); [reflexivity|lra].
  - rewrite IH. apply xscale_max.
Qed.
Lemma xscale_max2 f ny nx : xmax2 (fun i j => xscale (f i j) c) ny nx = xscale (xmax2 f ny nx) c.
Proof.
  induction ny as [|n IH]; cbn [xmax2].
  - cbn [xscale]. destruct (Rlt_dec 0 c); [reflexivity|lra].
  - rewrite IH, xscale_max1. apply xscale_max.
Qed.
Lemma xscale_reduce t : reduce_max (tmap (fun x => xscale x c) t) = xscale (reduce_max t) c.
Proof. destruct t; cbn [tmap reduce_max]; [reflexivity|apply xscale_max2]. Qed.
Lemma xscale_div a m : xdiv (xscale a c) (xscale m c) = xdiv a m.
Proof.
  destruct a, m; cbn [xscale xdiv]; destruct (Rlt_dec 0 c); try lra; cbn [xdiv]; try reflexivity.
  - destruct (Req_EM_T (r0 * c) 0), (Req_EM_T r0 0); try (exfalso; nra).
    + destruct (Rlt_dec 0 (r * c)), (Rlt_dec 0 r); try (exfalso; nra); try reflexivity.
      destruct (Rlt_dec (r * c) 0), (Rlt_dec r 0); try (exfalso; nra); reflexivity.
    + f_equal. field. lra.
  - destruct (Rlt_dec (r * c) 0), (Rlt_dec r 0); try (exfalso; nra); reflexivity.
  - destruct (Rlt_dec (r * c) 0), (Rlt_dec r 0); try (exfalso; nra); reflexivity.
Qed.
Lemma Cmod_scale (z : C) : Cmod (RtoC c * z)%C = c * Cmod z.
Proof. rewrite Cmod_mult, Cmod_R, Rabs_pos_eq by lra. reflexivity. Qed.
Lemma safe_ratio_out o i : safe_ratio (c * o) i = xscale (safe_ratio o i) c.
Proof.
  unfold safe_ratio. destruct (Req_EM_T (c * o) 0), (Req_EM_T o 0); try (exfalso; nra).
  - cbn [xscale]. f_equal. ring.
  - cbn [xdiv]. destruct (Req_EM_T i 0).
    + destruct (Rlt_dec 0 (c * o)), (Rlt_dec 0 o); try (exfalso; nra).
      * cbn [xscale]. destruct (Rlt_dec 0 c); [reflexivity|lra].
      * destruct (Rlt_dec (c * o) 0), (Rlt_dec o 0); try (exfalso; nra).
        cbn [xscale]. destruct (Rlt_dec 0 c); [reflexivity|lra].
    + cbn [xscale]. f_equal. field. assumption.
Qed.
Lemma phase_of_scale (z : C) : phase_of (RtoC c * z)%C = phase_of z.
Proof.
  unfold phase_of. destruct (C_dec0 (RtoC c * z)%C) as [E|E], (C_dec0 z) as [E'|E']; try reflexivity.
  - exfalso. apply E', Cmod_eq_0. assert (H := Cmod_scale z). rewrite E, Cmod_0 in H. nra.
  - exfalso. apply E. rewrite E'. ring.
  - apply carg_scale. exact Hc.
Qed.
End XScale.
Lemma safe_ratio_in c o i : 0 < c -> safe_ratio o (c * i) = xscale (safe_ratio o i) (/ c).
Proof.
  intros Hc. assert (Hi : 0 < / c) by (apply Rinv_0_lt_compat; exact Hc).
  unfold safe_ratio. destruct (Req_EM_T o 0) as [E|E].
  - cbn [xscale]. f_equal. ring.
  - cbn [xdiv]. destruct (Req_EM_T (c * i) 0), (Req_EM_T i 0); try (exfalso; nra).
    + destruct (Rlt_dec 0 o); [|destruct (Rlt_dec o 0)]; cbn [xscale]; try (destruct (Rlt_dec 0 (/ c)); [reflexivity|lra]).
    + cbn [xscale]. f_equal. field. lra.
Qed.
Lemma target_fp_scale c ny nx T : target_fp ny nx (fun i j => (c * T i j)%C) = (fun i j => (c * target_fp ny nx T i j)%C).
Proof.
  apply fun2_ext. intros i j. unfold target_fp, fftshift2, ifftshift2, fft2.
  rewrite <- csum2_scal_l. apply csum2_ext. intros u v _ _. ring.
Qed.

(** ** calc_amp_phase *)
Definition scale_one (k : R) (q : tensor xr * tensor R * tensor R * xr) : tensor xr * tensor R * tensor R * xr :=
  let '(a, b, e, m) := q in (a, b, e, xscale m k).
Lemma amp_phase_target c inp ny nx T w : 0 < c ->
  calc_amp_phase inp (T2 ny nx (fun i j => (RtoC c * T i j)%C)) w = rmap (scale_one c) (calc_amp_phase inp (T2 ny nx T) w).
Proof.
  intros Hc. unfold calc_amp_phase. rewrite target_fp_scale.
  assert (E : match w with None => Ok (T2 ny nx (fun i j => (RtoC c * target_fp ny nx T i j)%C)) | Some w => tmap2 Cmult (T2 ny nx (fun i j => (RtoC c * target_fp ny nx T i j)%C)) w end
    = rmap (tmap (Cmult (RtoC c))) (match w with None => Ok (T2 ny nx (target_fp ny nx T)) | Some w => tmap2 Cmult (T2 ny nx (target_fp ny nx T)) w end)).
  { destruct w as [w|]; [|reflexivity].
    rewrite <- (tmap2_map Cmult Cmult (Cmult (RtoC c)) (Cmult (RtoC c))) by (intros; ring). reflexivity. }
  rewrite E. destruct (match w with None => Ok (T2 ny nx (target_fp ny nx T)) | Some w => tmap2 Cmult (T2 ny nx (target_fp ny nx T)) w end) as [fp|e]; cbn [rmap rbind]; [|reflexivity].
  rewrite !tmap_tmap.
  rewrite (tmap_ext (fun x : C => Cmod (RtoC c * x)%C) (fun x => Rmult c (Cmod x))) by (intros; apply Cmod_scale; exact Hc).
  rewrite <- (tmap_tmap (Rmult c) Cmod).
  rewrite (tmap2_map safe_ratio safe_ratio (Rmult c) (fun x => xscale x c)) by (intros; apply safe_ratio_out; exact Hc).
  rewrite (tmap_ext (fun x : C => if C_dec0 (RtoC c * x)%C then 0 else carg (RtoC c * x)%C) phase_of) by (intros; apply phase_of_scale; exact Hc).
  destruct (tmap2 safe_ratio (tmap Cmod fp) (tmap Cmod inp)) as [sc|e]; cbn [rmap rbind]; [|reflexivity].
  rewrite xscale_reduce by exact Hc. rewrite tmap_tmap. cbn [scale_one].
  rewrite (tmap_ext _ (fun a => xdiv a (reduce_max sc))) by (intros; apply xscale_div; exact Hc). reflexivity.
Qed.
Lemma amp_phase_input c inp target w : 0 < c ->
  calc_amp_phase (tmap (Cmult (RtoC c)) inp) target w = rmap (scale_one (/ c)) (calc_amp_phase inp target w).
Proof.
  intros Hc. assert (Hi : 0 < / c) by (apply Rinv_0_lt_compat; exact Hc). unfold calc_amp_phase. destruct target as [|ny nx T]; [reflexivity|].
  destruct (match w with None => Ok (T2 ny nx (target_fp ny nx T)) | Some w => tmap2 Cmult (T2 ny nx (target_fp ny nx T)) w end) as [fp|e]; cbn [rmap rbind]; [|reflexivity].
  rewrite !tmap_tmap.
  rewrite (tmap_ext (fun x : C => Cmod (RtoC c * x)%C) (fun x => Rmult c (Cmod x))) by (intros; apply Cmod_scale; exact Hc).
  rewrite <- (tmap_tmap (Rmult c) Cmod).
  rewrite (tmap2_map_r safe_ratio safe_ratio (Rmult c) (fun x => xscale x (/ c))) by (intros; apply safe_ratio_in; exact Hc).
  rewrite (tmap_ext (fun x : C => carg (RtoC c * x)%C) carg) by (intros; apply carg_scale; exact Hc).
  destruct (tmap2 safe_ratio (tmap Cmod fp) (tmap Cmod inp)) as [sc|e]; cbn [rmap rbind]; [|reflexivity].
  rewrite xscale_reduce by exact Hi. rewrite tmap_tmap. cbn [scale_one].
  rewrite (tmap_ext (fun x => xdiv (xscale x (/ c)) (xscale (reduce_max sc) (/ c))) (fun a => xdiv a (reduce_max sc))) by (intros; apply xscale_div; exact Hi). reflexivity.
Qed.

(** ** IFTA does not see the scale of the input. *)
Lemma omul_scale c a b : omul (c * a)%C b = option_map (Cmult c) (omul a b).
Proof. destruct b; cbn; [|reflexivity]. f_equal. ring. Qed.
Lemma isome_map {A B} (f : A -> B) o : isome (option_map f o) = isome o.
Proof. destruct o; reflexivity. Qed.
Lemma allb_ext f g n : (forall i, f i = g i) -> allb f n = allb g n.
Proof. intros H. induction n; cbn [allb]; congruence. Qed.
Lemma allb2_ext f g ny nx : (forall i j, f i j = g i j) -> allb2 f ny nx = allb2 g ny nx.
Proof. intros H. induction ny; cbn [allb2]; [reflexivity|]. rewrite IHny, (allb_ext (f ny) (g ny)) by auto. reflexivity. Qed.
Lemma oget_scale c (f : arr) i j : oget (fun i j => option_map (Cmult c) (f i j)) i j = (c * oget f i j)%C.
Proof. unfold oget. destruct (f i j); cbn [option_map]; [reflexivity|ring]. Qed.
Lemma oifft2_scale c ny nx f : oifft2 ny nx (fun i j => option_map (Cmult c) (f i j)) = (fun i j => option_map (Cmult c) (oifft2 ny nx f i j)).
Proof.
  apply fun2_ext. intros u v. unfold oifft2.
  rewrite (allb2_ext _ (fun i j => isome (f i j))) by (intros; apply isome_map).
  destruct (allb2 _ _ _); cbn [option_map]; [|reflexivity]. f_equal. unfold ifft2.
  rewrite (csum2_ext ny nx _ (fun i j => c * (oget f i j * cis (2 * PI * (INR (i * u) / INR ny + INR (j * v) / INR nx))))%C).
  - rewrite csum2_scal_l. unfold Cdiv. ring.
  - intros i j _ _. rewrite oget_scale. ring.
Qed.
Lemma offt2_scale c ny nx f : offt2 ny nx (fun i j => option_map (Cmult c) (f i j)) = (fun i j => option_map (Cmult c) (offt2 ny nx f i j)).
Proof.
  apply fun2_ext. intros u v. unfold offt2.
  rewrite (allb2_ext _ (fun i j => isome (f i j))) by (intros; apply isome_map).
  destruct (allb2 _ _ _); cbn [option_map]; [|reflexivity]. f_equal. unfold fft2.
  rewrite <- csum2_scal_l. apply csum2_ext. intros i j _ _. rewrite oget_scale. ring.
Qed.
Lemma ifta_step_scale c ny nx F W ideal t g : c <> RtoC 0 ->
  ifta_step ny nx (fun i j => (c * F i j)%C) W (fun i j => option_map (Cmult c) (ideal i j)) t g = ifta_step ny nx F W ideal t g.
Proof.
  intros Hc. apply fun2_ext. intros i j. unfold ifta_step.
  replace (fun i0 j0 => omul (c * F i0 j0)%C (ifta_binarize (g i0 j0) t)) with (fun i0 j0 => option_map (Cmult c) (omul (F i0 j0) (ifta_binarize (g i0 j0) t)))
    by (apply fun2_ext; intros; symmetry; apply omul_scale).
  rewrite oifft2_scale.
  replace (fun i0 j0 => ifta_correct (option_map (Cmult c) (oifft2 ny nx (fun i1 j1 => omul (F i1 j1) (ifta_binarize (g i1 j1) t)) i0 j0)) (option_map (Cmult c) (ideal i0 j0)) (W i0 j0))
    with (fun i0 j0 => option_map (Cmult c) (ifta_correct (oifft2 ny nx (fun i1 j1 => omul (F i1 j1) (ifta_binarize (g i1 j1) t)) i0 j0) (ideal i0 j0) (W i0 j0))).
  2:{ apply fun2_ext. intros u v. destruct (oifft2 ny nx _ u v), (ideal u v); cbn; try reflexivity. f_equal. ring. }
  rewrite offt2_scale.
  destruct (C_dec0 (c * F i j)%C) as [E|E], (C_dec0 (F i j)) as [E'|E']; try reflexivity.
  - exfalso. apply E'. transitivity ((c * F i j) / c)%C; [field; exact Hc|]. rewrite E. unfold Cdiv. ring.
  - exfalso. apply E. rewrite E'. ring.
  - destruct (offt2 ny nx _ i j); cbn [option_map]; [|reflexivity]. do 2 f_equal. field. split; assumption.
Qed.
Lemma ifta_array_scale c ny nx F W g0 N s : c <> RtoC 0 -> ifta_array ny nx (fun i j => (c * F i j)%C) W g0 N s = ifta_array ny nx F W g0 N s.
Proof.
  intros Hc. unfold ifta_array.
  replace (fun i j => omul (c * F i j)%C (fin_of (xscale (g0 i j) s))) with (fun i j => option_map (Cmult c) (omul (F i j) (fin_of (xscale (g0 i j) s))))
    by (apply fun2_ext; intros; symmetry; apply omul_scale).
  rewrite oifft2_scale. set (ideal := oifft2 ny nx _). set (g := fun i j => fin_of (xscale (g0 i j) s)).
  assert (L : forall k, ifta_loop ny nx (fun i j => (c * F i j)%C) (ifftshift2 ny nx W) (fun i j => option_map (Cmult c) (ideal i j)) N k g
     = ifta_loop ny nx F (ifftshift2 ny nx W) ideal N k g).
  { induction k as [|k IH]; cbn [ifta_loop]; [reflexivity|]. rewrite IH. apply ifta_step_scale. exact Hc. }
  rewrite L. reflexivity.
Qed.

(** ** The scaling laws *)
Lemma py_div_scale a m c : 0 < c -> py_div a (xscale m c) = rmap (fun e => xscale e (/ c)) (py_div a m).
Proof.
  intros Hc. destruct m; cbn [xscale py_div]; destruct (Rlt_dec 0 c); try lra; cbn [py_div rmap].
  - destruct (Req_EM_T (r * c) 0), (Req_EM_T r 0); try (exfalso; nra); cbn [rmap]; [reflexivity|]. cbn [xscale]. do 2 f_equal. field. lra.
  - cbn [xscale]. do 2 f_equal. ring.
  - cbn [xscale]. do 2 f_equal. ring.
  - reflexivity.
Qed.
Lemma calc_target_scale h d input target target' T c m w kw u : 0 < c ->
  full_target h (d_slm d) target T -> full_target h (d_slm d) target' (fun i j => (RtoC c * T i j)%C) ->
  calculate_dmd_state h d input target' m w kw u =
  (fst (calculate_dmd_state h d input target m w kw u), rmap (fun eta => xscale eta (/ c)) (snd (calculate_dmd_state h d input target m w kw u))).
Proof.
  intros Hc H1 H2. rewrite !calc_split.
  assert (E : calc_new h d input target' m w kw u = rmap (fun p : dstate * xr => (fst p, xscale (snd p) c)) (calc_new h d input target m w kw u)).
  { unfold calc_new. unfold full_target in H1, H2. rewrite H1, H2.
    destruct (profile_to_tensor_c h (d_slm d) input true) as [inp|e]; cbn [rbind]; [|reflexivity].
    match goal with |- rbind ?r _ = _ => destruct r as [w'|] end; cbn [rbind]; [|reflexivity].
    rewrite amp_phase_target by exact Hc.
    destruct (calc_amp_phase inp _ w') as [[[[amp pin] pout] one]|e]; cbn [rbind rmap scale_one]; [|reflexivity].
    destruct (fourier_plane_grid (d_slm d)) as [x y].
    match goal with |- rbind ?r _ = _ => destruct r as [[i' w'']|] end; cbn [rbind]; [|reflexivity].
    destruct (calculate_dmd_grating _ _ _ _ _ _ _ _ _ _ _ _ _) as [g|e]; cbn [rbind]; [|reflexivity].
    destruct (to_dstate g); reflexivity. }
  rewrite E. destruct (calc_new h d input target m w kw u) as [[st one]|e]; cbn [rmap fst snd]; [|reflexivity].
  destruct (Req_EM_T (scaling_factor (d_slm d)) 0); cbn [fst snd rmap]; [reflexivity|]. rewrite py_div_scale by exact Hc. reflexivity.
Qed.
Lemma stretch_tmap {A B} (f : A -> B) ny nx t : stretch ny nx (tmap f t) = option_map (fun g i j => f (g i j)) (stretch ny nx t).
Proof. destruct t as [a|a b k]; cbn [tmap stretch option_map]; [reflexivity|]. destruct (_ && _)%bool; reflexivity. Qed.
Lemma grating_input_scale c m neg amp pin pout x y p th kw inp win u : c <> RtoC 0 ->
  calculate_dmd_grating m neg amp pin pout x y p th kw (option_map (tmap (Cmult c)) inp) win u = calculate_dmd_grating m neg amp pin pout x y p th kw inp win u.
Proof.
  intros Hc. destruct m; try reflexivity. cbn [calculate_dmd_grating]. f_equal. unfold grating_ifta.
  destruct (grating_ideal neg amp pin pout x y p th) as [g|e]; cbn [rbind]; [|reflexivity].
  destruct inp as [F|]; cbn [option_map]; try reflexivity.
  destruct win as [[|ny' nx' W]|]; try reflexivity. destruct g as [|ny nx g]; [reflexivity|].
  rewrite stretch_tmap. destruct (stretch ny nx F) as [F'|]; cbn [option_map]; [|reflexivity].
  destruct (stretch ny nx (T2 ny' nx' W)); [|reflexivity]. rewrite ifta_array_scale by exact Hc. reflexivity.
Qed.
Lemma calc_input_scale h d input input' t target c m w kw u : 0 < c ->
  profile_to_tensor_c h (d_slm d) input true = Ok t -> profile_to_tensor_c h (d_slm d) input' true = Ok (tmap (Cmult (RtoC c)) t) ->
  calculate_dmd_state h d input' target m w kw u =
  (fst (calculate_dmd_state h d input target m w kw u), rmap (fun eta => xscale eta c) (snd (calculate_dmd_state h d input target m w kw u))).
Proof.
  intros Hc H1 H2. assert (Hi : 0 < / c) by (apply Rinv_0_lt_compat; exact Hc). rewrite !calc_split.
  assert (Hc0 : RtoC c <> RtoC 0) by (intros H; injection H; lra).
  assert (E : calc_new h d input' target m w kw u = rmap (fun p : dstate * xr => (fst p, xscale (snd p) (/ c))) (calc_new h d input target m w kw u)).
  { unfold calc_new. rewrite H1, H2. cbn [rbind].
    destruct (profile_to_tensor_c h (d_slm d) target false) as [tt'|e]; cbn [rbind]; [|reflexivity].
    match goal with |- rbind ?r _ = _ => destruct r as [w'|] end; cbn [rbind]; [|reflexivity].
    rewrite amp_phase_input by exact Hc.
    destruct (calc_amp_phase t _ w') as [[[[amp pin] pout] one]|e]; cbn [rbind rmap scale_one]; [|reflexivity].
    destruct (fourier_plane_grid (d_slm d)) as [x y].
    destruct m.
    4:{ destruct (k_window kw) as [kwn|]; cbn [rbind]; [|reflexivity].
        destruct (profile_to_tensor_c h (d_slm d) kwn false) as [wt|]; cbn [rbind]; [|reflexivity].
        change (Some (tmap (Cmult (RtoC c)) t)) with (option_map (tmap (Cmult (RtoC c))) (Some t)). rewrite grating_input_scale by exact Hc0.
        destruct (calculate_dmd_grating _ _ _ _ _ _ _ _ _ _ _ _ _) as [g|e]; cbn [rbind]; [|reflexivity].
        destruct (to_dstate g); reflexivity. }
    all: cbn [rbind]; destruct (calculate_dmd_grating _ _ _ _ _ _ _ _ _ _ _ _ _) as [g|e]; cbn [rbind]; [|reflexivity]; destruct (to_dstate g); reflexivity. }
  rewrite E. destruct (calc_new h d input target m w kw u) as [[st one]|e]; cbn [rmap fst snd]; [|reflexivity].
  destruct (Req_EM_T (scaling_factor (d_slm d)) 0); cbn [fst snd rmap]; [reflexivity|]. rewrite py_div_scale, Rinv_inv by exact Hi. reflexivity.
Qed.
