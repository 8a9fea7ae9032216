(** Symmetries of the grating parameters (C71). *)
From Coq Require Import Reals Lra ZArith Arith List Bool Lia FunctionalExtensionality.
From Coquelicot Require Import Complex.
From Verif Require Import Cx Sums DFT PyBase ProfileModel SlmModel LibModel DmdModel OriginFacts DmdSpec.
Open Scope R_scope.

(** The same device with another grating setting. *)
Definition regrate (d : dmd) (p th : R) (neg : bool) : dmd :=
  {| d_slm := d_slm d; d_p := p; d_theta := th; d_neg := neg; d_state := d_state d |}.

Lemma dmd_grating_congr m neg neg' p p' th th' amp pin pout x y kw inp win u : (p = 0 <-> p' = 0) ->
  (p <> 0 -> forall x y a b, cos (grating_phase x y th' p' - rel_phase neg' a b) = cos (grating_phase x y th p - rel_phase neg a b)) ->
  calculate_dmd_grating m neg' amp pin pout x y p' th' kw inp win u = calculate_dmd_grating m neg amp pin pout x y p th kw inp win u.
Proof.
  intros Hp H.
  assert (G : forall A (b f f' : xr -> R -> R -> R -> R -> nat -> nat -> A), (p <> 0 -> forall a b c e g i j, f' a b c e g i j = f a b c e g i j) ->
    grating_tensor (guard_p p' b f') amp pin pout x y = grating_tensor (guard_p p b f) amp pin pout x y).
  { intros A b f f' Hf. unfold guard_p. destruct (Req_EM_T p' 0) as [E|E], (Req_EM_T p 0) as [E'|E']; try reflexivity; try tauto.
    unfold grating_tensor. destruct (bc_all _ _); cbn [rbind]; [|reflexivity]. do 2 f_equal.
    apply functional_extensionality; intros i. apply functional_extensionality; intros j. apply Hf. exact E'. }
  assert (HI : grating_ideal neg' amp pin pout x y p' th' = grating_ideal neg amp pin pout x y p th).
  { apply G. intros Hp0 a b c e g _ _. unfold px_ideal. rewrite H by exact Hp0. reflexivity. }
  destruct m; cbn [calculate_dmd_grating]; try reflexivity; [rewrite HI; reflexivity|f_equal; apply G|f_equal; apply G|f_equal; unfold grating_ifta; rewrite HI; reflexivity].
  - intros Hp0 a b c e g _ _. unfold px_simple, px_ideal. rewrite H by exact Hp0. reflexivity.
  - intros Hp0 a b c e g i j. unfold px_random, random_duty. rewrite H by exact Hp0. reflexivity.
Qed.
Lemma opposite_phase x y th p neg a b : cos (grating_phase x y (th + PI) p - rel_phase (negb neg) a b) = cos (grating_phase x y th p - rel_phase neg a b).
Proof.
  unfold grating_phase, rel_phase. rewrite neg_cos, neg_sin. rewrite <- cos_neg. f_equal. unfold Rdiv. destruct neg; cbn [negb]; ring.
Qed.
Lemma opposite_period x y th p neg a b : p <> 0 -> cos (grating_phase x y (th + PI) (- p) - rel_phase neg a b) = cos (grating_phase x y th p - rel_phase neg a b).
Proof. intros Hp. unfold grating_phase. rewrite neg_cos, neg_sin. do 2 f_equal. field. exact Hp. Qed.
Lemma full_turn x y th p neg a b : cos (grating_phase x y (th + 2 * PI) p - rel_phase neg a b) = cos (grating_phase x y th p - rel_phase neg a b).
Proof. unfold grating_phase. rewrite cos_plus, sin_plus, cos_2PI, sin_2PI. do 2 f_equal. ring. Qed.

(** A change of setting that preserves the fringes. *)
Definition same_fringes (d : dmd) (p' th' : R) (neg' : bool) : Prop :=
  (d_p d = 0 <-> p' = 0) /\
  (d_p d <> 0 -> forall x y a b, cos (grating_phase x y th' p' - rel_phase neg' a b) = cos (grating_phase x y (d_theta d) (d_p d) - rel_phase (d_neg d) a b)).
Lemma fringes_grating h d p' th' neg' amp pin pout m kw u : same_fringes d p' th' neg' ->
  grating_of h (regrate d p' th' neg') amp pin pout m kw u = grating_of h d amp pin pout m kw u.
Proof.
  intros [H1 H2]. unfold grating_of. cbn [regrate d_slm d_p d_theta d_neg].
  destruct (profile_to_tensor_r h (d_slm d) amp true); cbn [rbind]; [|reflexivity].
  destruct (profile_to_tensor_r h (d_slm d) pin true); cbn [rbind]; [|reflexivity].
  destruct (profile_to_tensor_r h (d_slm d) pout true); cbn [rbind]; [|reflexivity].
  destruct (fourier_plane_grid (d_slm d)) as [x y]. rewrite (dmd_grating_congr m (d_neg d) neg' (d_p d) p' (d_theta d) th') by assumption. reflexivity.
Qed.
Lemma fringes_set h d p' th' neg' amp pin pout m kw u : same_fringes d p' th' neg' ->
  set_dmd_grating_state h (regrate d p' th' neg') amp pin pout m kw u =
  (regrate (fst (set_dmd_grating_state h d amp pin pout m kw u)) p' th' neg', snd (set_dmd_grating_state h d amp pin pout m kw u)).
Proof.
  intros H. unfold set_dmd_grating_state. rewrite fringes_grating by exact H.
  destruct (grating_of h d amp pin pout m kw u); reflexivity.
Qed.
Lemma fringes_patch h d p' th' neg' ci cj amp pin pout diam m kw u : same_fringes d p' th' neg' ->
  circular_patch h (regrate d p' th' neg') ci cj amp pin pout diam m kw u =
  (regrate (fst (circular_patch h d ci cj amp pin pout diam m kw u)) p' th' neg', snd (circular_patch h d ci cj amp pin pout diam m kw u)).
Proof.
  intros H. unfold circular_patch. rewrite fringes_grating by exact H. cbn [regrate d_slm d_state].
  destruct (grating_of h d amp pin pout m kw u); [|reflexivity].
  destruct (fourier_plane_pixel_grid (d_slm d)) as [ii jj]. destruct (masked_assign _ _ _ _ _); reflexivity.
Qed.
Lemma fringes_calc h d p' th' neg' input target m w kw u : same_fringes d p' th' neg' ->
  calculate_dmd_state h (regrate d p' th' neg') input target m w kw u =
  (regrate (fst (calculate_dmd_state h d input target m w kw u)) p' th' neg', snd (calculate_dmd_state h d input target m w kw u)).
Proof.
  intros [H1 H2]. unfold calculate_dmd_state. cbn [regrate d_slm d_p d_theta d_neg].
  destruct (profile_to_tensor_c h (d_slm d) input true) as [ti|]; cbn [rbind]; [|reflexivity].
  destruct (profile_to_tensor_c h (d_slm d) target false) as [tt|]; cbn [rbind]; [|reflexivity].
  destruct (match w with Some w => let! w := profile_to_tensor_c h (d_slm d) w true in Ok (Some w) | None => Ok None end) as [tw|]; cbn [rbind]; [|reflexivity].
  destruct (calc_amp_phase ti tt tw) as [[[[a b] c] e]|]; cbn [rbind]; [|reflexivity].
  destruct (fourier_plane_grid (d_slm d)) as [x y].
  destruct (match m with MIfta => _ | _ => _ end) as [[i k]|]; cbn [rbind]; [|reflexivity].
  rewrite (dmd_grating_congr m (d_neg d) neg' (d_p d) p' (d_theta d) th') by assumption.
  destruct (calculate_dmd_grating m (d_neg d) a b c x y (d_p d) (d_theta d) kw i k u); cbn [rbind]; [|reflexivity].
  destruct (to_dstate _); cbn [rbind]; [|reflexivity]. destruct (Req_EM_T _ 0); reflexivity.
Qed.
Lemma fringes_opposite d : same_fringes d (d_p d) (d_theta d + PI) (negb (d_neg d)).
Proof. split; [tauto|]. intros _ x y a b. apply opposite_phase. Qed.
Lemma fringes_period d : same_fringes d (- d_p d) (d_theta d + PI) (d_neg d).
Proof. split; [split; lra|]. intros Hp x y a b. apply opposite_period. exact Hp. Qed.
Lemma fringes_turn d : same_fringes d (d_p d) (d_theta d + 2 * PI) (d_neg d).
Proof. split; [tauto|]. intros _ x y a b. apply full_turn. Qed.
Lemma origin_opposite d neg : first_order_origin (regrate d (d_p d) (d_theta d + PI) neg) = (xneg (fst (first_order_origin d)), xneg (snd (first_order_origin d))).
Proof. unfold first_order_origin. cbn [regrate d_slm d_p d_theta fst snd]. rewrite neg_cos, neg_sin, <- !xdiv_neg, <- !Ropp_mult_distr_l. reflexivity. Qed.

(** Wrappers with the three symmetries spelled out. *)
Definition grating_symmetry (d e : dmd) : Prop :=
  e = regrate d (d_p d) (d_theta d + PI) (negb (d_neg d)) \/ e = regrate d (- d_p d) (d_theta d + PI) (d_neg d) \/ e = regrate d (d_p d) (d_theta d + 2 * PI) (d_neg d).
Lemma symmetric_states h d e : grating_symmetry d e ->
  (forall amp pin pout m kw u, d_state (fst (set_dmd_grating_state h e amp pin pout m kw u)) = d_state (fst (set_dmd_grating_state h d amp pin pout m kw u)) /\
    snd (set_dmd_grating_state h e amp pin pout m kw u) = snd (set_dmd_grating_state h d amp pin pout m kw u)) /\
  (forall ci cj amp pin pout diam m kw u, d_state (fst (circular_patch h e ci cj amp pin pout diam m kw u)) = d_state (fst (circular_patch h d ci cj amp pin pout diam m kw u)) /\
    snd (circular_patch h e ci cj amp pin pout diam m kw u) = snd (circular_patch h d ci cj amp pin pout diam m kw u)) /\
  (forall input target m w kw u, d_state (fst (calculate_dmd_state h e input target m w kw u)) = d_state (fst (calculate_dmd_state h d input target m w kw u)) /\
    snd (calculate_dmd_state h e input target m w kw u) = snd (calculate_dmd_state h d input target m w kw u)).
Proof.
  intros H. assert (X : exists p' th' neg', e = regrate d p' th' neg' /\ same_fringes d p' th' neg').
  { destruct H as [->|[->| ->]]; do 3 eexists; (split; [reflexivity|]); [apply fringes_opposite|apply fringes_period|apply fringes_turn]. }
  destruct X as (p' & th' & neg' & -> & X). repeat split; intros; rewrite ?fringes_set, ?fringes_patch, ?fringes_calc by exact X; reflexivity.
Qed.
(** The same with the settings compared field by field. *)
Definition equivalent (d e : dmd) : Prop :=
  (d_p e = d_p d /\ d_theta e = d_theta d + PI /\ d_neg e = negb (d_neg d)) \/
  (d_p e = - d_p d /\ d_theta e = d_theta d + PI /\ d_neg e = d_neg d) \/
  (d_p e = d_p d /\ d_theta e = d_theta d + 2 * PI /\ d_neg e = d_neg d).
Lemma equivalent_settings h d e : d_slm e = d_slm d -> d_state e = d_state d -> equivalent d e ->
  (forall amp pin pout m kw u, d_state (fst (set_dmd_grating_state h e amp pin pout m kw u)) = d_state (fst (set_dmd_grating_state h d amp pin pout m kw u)) /\
    snd (set_dmd_grating_state h e amp pin pout m kw u) = snd (set_dmd_grating_state h d amp pin pout m kw u)) /\
  (forall ci cj amp pin pout diam m kw u, d_state (fst (circular_patch h e ci cj amp pin pout diam m kw u)) = d_state (fst (circular_patch h d ci cj amp pin pout diam m kw u)) /\
    snd (circular_patch h e ci cj amp pin pout diam m kw u) = snd (circular_patch h d ci cj amp pin pout diam m kw u)) /\
  (forall input target m w kw u, d_state (fst (calculate_dmd_state h e input target m w kw u)) = d_state (fst (calculate_dmd_state h d input target m w kw u)) /\
    snd (calculate_dmd_state h e input target m w kw u) = snd (calculate_dmd_state h d input target m w kw u)).
Proof.
  intros Es Et H. apply symmetric_states. destruct e as [s p t n x]. unfold equivalent in H. cbn [d_slm d_state d_p d_theta d_neg] in *. unfold grating_symmetry, regrate.
  destruct H as [(-> & -> & ->)|[(-> & -> & ->)|(-> & -> & ->)]]; rewrite Es, Et; auto.
Qed.
Lemma opposite_origins d e : d_slm e = d_slm d -> d_p e = d_p d -> d_theta e = d_theta d + PI ->
  first_order_origin e = (xneg (fst (first_order_origin d)), xneg (snd (first_order_origin d))).
Proof.
  intros Es Ep Et. rewrite <- (origin_opposite d (d_neg e)). unfold first_order_origin. cbn [regrate d_slm d_p d_theta]. rewrite Es, Ep, Et. reflexivity.
Qed.
