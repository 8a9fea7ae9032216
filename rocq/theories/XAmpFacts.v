(** Gratings with amplitudes that are not finite (C166). *)
From Coq Require Import Reals Lra ZArith Arith List Bool Lia.
From Coquelicot Require Import Complex.
From Verif Require Import Cx PyBase ProfileModel SlmModel LibModel DmdModel SimSpec GridFacts DmdSpec DmdFacts DmdFacts2 RandomFacts IftaFacts SimExamples DmdExamples XAmpModel XAmpSpec.
Open Scope R_scope.

Section X.
Variables (h : heap) (d : dmd) (a : tensor xr) (pin pout : parg) (Pi Po : nat -> nat -> R).
Hypothesis (HA : fits d a) (HI : reads h (d_slm d) pin Pi) (HO : reads h (d_slm d) pout Po) (Hp : d_p d <> 0).
Let ny := s_Ny (d_slm d). Let nx := s_Nx (d_slm d).
Lemma x_px {T} (px : xr -> R -> R -> R -> R -> nat -> nat -> T) :
  exists ti to g, profile_to_tensor_r h (d_slm d) pin true = Ok ti /\ profile_to_tensor_r h (d_slm d) pout true = Ok to /\
    grating_tensor px a ti to (fst (fourier_plane_grid (d_slm d))) (snd (fourier_plane_grid (d_slm d))) = Ok (T2 ny nx g) /\
    forall i j, (i < ny)%nat -> (j < nx)%nat -> g i j = px (tget a i j) (Pi i j) (Po i j) (mirror_x (d_slm d) j) (mirror_y (d_slm d) i) i j.
Proof.
  destruct HI as (ti & E2 & S2' & V2), HO as (to & E3 & S3 & V3).
  destruct (grating_full px a ti to (fst (fourier_plane_grid (d_slm d))) (snd (fourier_plane_grid (d_slm d))) ny nx _ _
    HA S2' S3 ltac:(rewrite <- surjective_pairing; apply grid_mirrors)) as (g & G & V).
  exists ti, to, g. repeat (split; [assumption|]). intros i j Hi Hj. rewrite V, V2, V3 by assumption. reflexivity.
Qed.
Lemma height_range i j : 0 <= height d Pi Po i j <= 1.
Proof. unfold height. match goal with |- context [cos ?t] => pose proof (COS_bound t) end. lra. Qed.
Lemma height_px i j : cos (grating_phase (mirror_x (d_slm d) j) (mirror_y (d_slm d) i) (d_theta d) (d_p d) - rel_phase (d_neg d) (Pi i j) (Po i j)) / 2 + 0.5 = height d Pi Po i j.
Proof. rewrite carrier_phase, rel_phase_signed by exact Hp. unfold height. lra. Qed.
Lemma x_simple kw u : exists f, xset_grating h d a pin pout MSimple kw u = (with_state d (DBool ny nx f), Ok tt) /\
  forall i j, (i < ny)%nat -> (j < nx)%nat -> (f i j = true <-> lit (tget a i j) (height d Pi Po i j)).
Proof.
  destruct (x_px (fun a pi po x y _ _ => px_simple (d_neg d) a pi po x y (d_p d) (d_theta d))) as (ti & to & g & E2 & E3 & G & V).
  exists g. split.
  - unfold xset_grating, xgrating_of. rewrite E2, E3. cbn [rbind].
    destruct (fourier_plane_grid (d_slm d)) as [x y]. cbn [fst snd] in G. unfold calculate_dmd_grating, grating_simple, guard_p.
    destruct (Req_EM_T (d_p d) 0); [contradiction|]. rewrite G. cbn [rmap rbind to_dstate]. reflexivity.
  - intros i j Hi Hj. rewrite V by assumption. unfold px_simple, px_ideal. rewrite height_px. pose proof (height_range i j) as B. set (b := height d Pi Po i j) in *.
    destruct (tget a i j); cbn [xscale xgtb lit].
    + destruct (Rlt_dec 0.5 (r * b)); split; intros; try reflexivity; try discriminate; lra.
    + destruct (Rlt_dec 0 b); [split; intros; [assumption|reflexivity]|]. destruct (Rlt_dec b 0); [lra|]. cbn [xgtb]. split; intros; [discriminate|contradiction].
    + destruct (Rlt_dec 0 b); [|destruct (Rlt_dec b 0); [lra|]]; cbn [xgtb]; split; intros; try discriminate; contradiction.
    + split; intros; [discriminate|contradiction].
Qed.
Lemma x_ideal kw u : exists f, xset_grating h d a pin pout MIdeal kw u = (with_state d (DFloat ny nx f), Ok tt) /\
  forall i j, (i < ny)%nat -> (j < nx)%nat -> grey (tget a i j) (height d Pi Po i j) (f i j).
Proof.
  destruct (x_px (fun a pi po x y _ _ => px_ideal (d_neg d) a pi po x y (d_p d) (d_theta d))) as (ti & to & g & E2 & E3 & G & V).
  exists g. split.
  - unfold xset_grating, xgrating_of. rewrite E2, E3. cbn [rbind].
    destruct (fourier_plane_grid (d_slm d)) as [x y]. cbn [fst snd] in G. unfold calculate_dmd_grating, grating_ideal, guard_p.
    destruct (Req_EM_T (d_p d) 0); [contradiction|]. rewrite G. cbn [rmap rbind to_dstate]. reflexivity.
  - intros i j Hi Hj. rewrite V by assumption. unfold px_ideal. rewrite height_px. pose proof (height_range i j) as B. set (b := height d Pi Po i j) in *.
    destruct (tget a i j); cbn [xscale grey]; try reflexivity; (destruct (Rlt_dec 0 b); [|destruct (Rlt_dec b 0); [lra|]]); split; intros; try reflexivity; lra.
Qed.
Lemma x_random kw u : exists f, xset_grating h d a pin pout MRandom kw u = (with_state d (DBool ny nx f), Ok tt) /\
  forall i j, (i < ny)%nat -> (j < nx)%nat ->
    ((forall r, tget a i j = Fin r -> r < -1 \/ 1 < r) -> f i j = false) /\
    (forall r, tget a i j = Fin r -> 0 <= r <= 1 -> exists q, folded (carrier d i j - signed (d_neg d) (Po i j - Pi i j)) q /\ (f i j = true <-> u i j < duty (dflt (k_r kw) 10) q r)).
Proof.
  destruct (x_px (fun a pi po x y i j => px_random (d_neg d) a pi po x y (d_p d) (d_theta d) (dflt (k_r kw) 10) (u i j))) as (ti & to & g & E2 & E3 & G & V).
  exists g. split.
  - unfold xset_grating, xgrating_of. rewrite E2, E3. cbn [rbind].
    destruct (fourier_plane_grid (d_slm d)) as [x y]. cbn [fst snd] in G. unfold calculate_dmd_grating, grating_random, guard_p.
    destruct (Req_EM_T (d_p d) 0); [contradiction|]. rewrite G. cbn [rmap rbind to_dstate]. reflexivity.
  - intros i j Hi Hj. rewrite V by assumption. unfold px_random. split.
    + intros H. unfold random_duty, xasin. destruct (tget a i j) as [r| | |]; try reflexivity. specialize (H r eq_refl). destruct (Rle_dec (-1) r); [|reflexivity]. destruct (Rle_dec r 1); [lra|reflexivity].
    + intros r Er Hr. rewrite Er, random_duty_in by exact Hr. rewrite carrier_phase, rel_phase_signed by exact Hp. eexists. split; [apply folded_acos|]. cbn [xgtb]. destruct (Rlt_dec _ _); split; intros; try assumption; try reflexivity; try discriminate; contradiction.
Qed.
Lemma x_ifta kw u F V i0 j0 : raw_tensor (k_input kw) = Some (T2 ny nx F) -> raw_tensor (k_window kw) = Some (T2 ny nx V) -> (1 <= dflt (k_N kw) 200)%Z ->
  (i0 < ny)%nat -> (j0 < nx)%nat -> tget a i0 j0 = NaN ->
  exists f, xset_grating h d a pin pout MIfta kw u = (with_state d (DBool ny nx f), Ok tt) /\ forall i j, (i < ny)%nat -> (j < nx)%nat -> f i j = false.
Proof.
  intros HF HV HN Hi0 Hj0 Hn. destruct (x_px (fun a pi po x y _ _ => px_ideal (d_neg d) a pi po x y (d_p d) (d_theta d))) as (ti & to & g & E2 & E3 & G & W).
  eexists. split.
  - unfold xset_grating, xgrating_of. rewrite E2, E3. cbn [rbind]. rewrite HF, HV.
    destruct (fourier_plane_grid (d_slm d)) as [x y]. cbn [fst snd] in G. unfold calculate_dmd_grating, grating_ifta, grating_ideal, guard_p.
    destruct (Req_EM_T (d_p d) 0); [contradiction|]. rewrite G. cbn [rbind stretch]. rewrite !Nat.eqb_refl. cbn [orb andb rmap rbind to_dstate]. reflexivity.
  - apply array_none with (i0 := i0) (j0 := j0); try assumption. intros r. rewrite W by assumption. rewrite Hn. discriminate.
Qed.
Lemma x_patch ci cj diam g m kw u st : d_state d = DBool ny nx g -> xgrating_of h d a pin pout m kw u = Ok st -> state_shape st = (ny, nx) ->
  exists f, xcircular_patch h d ci cj a pin pout diam m kw u = (with_state d (DBool ny nx f), Ok tt) /\
  patched d ci cj diam g f (fun i j => match st with DBool _ _ k => k i j = true | DFloat _ _ k => xr_to_bool (k i j) = true end).
Proof.
  intros Hg E Hs. unfold xcircular_patch. rewrite E. assert (G := fourier_plane_pixel_grid_is (d_slm d)). destruct (fourier_plane_pixel_grid (d_slm d)) as [ii jj]. rewrite Hg.
  fold ny nx. assert (D : forall i j, (i < ny)%nat -> (j < nx)%nat -> circular_mask ci cj diam (tget ii i j) (tget jj i j) = true <-> pixel_distance ci cj i j < Rabs diam / 2).
  { intros i j Hi Hj. destruct (grid_is_get _ _ _ _ _ i j G Hi Hj) as [Ex Ey]. cbn [fst snd] in Ex, Ey. rewrite Ex, Ey. apply in_disc. }
  destruct st as [a1 b1 k|a1 b1 k]; cbn [state_shape] in Hs; injection Hs as -> ->; unfold masked_assign; rewrite !Nat.eqb_refl; cbn [andb]; eexists; (split; [reflexivity|]);
    intros i j Hi Hj; specialize (D i j Hi Hj); cbn beta; destruct (circular_mask ci cj diam (tget ii i j) (tget jj i j)); (split; [intros L|intros L]);
    try reflexivity; try (apply D in L; discriminate); assert (pixel_distance ci cj i j < Rabs diam / 2) by (apply D; reflexivity); lra.
Qed.
Lemma x_patch_simple ci cj diam g kw u : d_state d = DBool ny nx g ->
  exists f, xcircular_patch h d ci cj a pin pout diam MSimple kw u = (with_state d (DBool ny nx f), Ok tt) /\ patched d ci cj diam g f (fun i j => lit (tget a i j) (height d Pi Po i j)).
Proof.
  intros Hg. destruct (x_simple kw u) as (k & E & V). unfold xset_grating in E. destruct (xgrating_of h d a pin pout MSimple kw u) as [st|] eqn:Es; [|discriminate].
  assert (Et : st = DBool ny nx k) by (assert (d_state (with_state d st) = d_state (with_state d (DBool ny nx k))) by congruence; assumption). subst st.
  destruct (x_patch ci cj diam g _ _ _ _ Hg Es eq_refl) as (f & F & Q). exists f. split; [exact F|]. intros i j Hi Hj. destruct (Q i j Hi Hj) as [Q1 Q2]. split; [|exact Q2]. intros L. rewrite (Q1 L). apply V; assumption.
Qed.
Lemma x_patch_ideal ci cj diam g kw u : d_state d = DBool ny nx g ->
  exists f, xcircular_patch h d ci cj a pin pout diam MIdeal kw u = (with_state d (DBool ny nx f), Ok tt) /\ patched d ci cj diam g f (fun i j => cast_on (tget a i j) (height d Pi Po i j)).
Proof.
  intros Hg. destruct (x_ideal kw u) as (k & E & V). unfold xset_grating in E. destruct (xgrating_of h d a pin pout MIdeal kw u) as [st|] eqn:Es; [|discriminate].
  assert (Et : st = DFloat ny nx k) by (assert (d_state (with_state d st) = d_state (with_state d (DFloat ny nx k))) by congruence; assumption). subst st.
  destruct (x_patch ci cj diam g _ _ _ _ Hg Es eq_refl) as (f & F & Q). exists f. split; [exact F|]. intros i j Hi Hj. destruct (Q i j Hi Hj) as [Q1 Q2]. split; [|exact Q2]. intros L. rewrite (Q1 L).
  specialize (V i j Hi Hj). pose proof (height_range i j) as B. set (b := height d Pi Po i j) in *. destruct (tget a i j) as [r| | |]; cbn [grey cast_on] in V |- *.
  - rewrite V. cbn [xr_to_bool]. destruct (Req_EM_T (r * b) 0); split; intros; try reflexivity; try assumption; try discriminate; contradiction.
  - destruct V as [V1 V2]. split; [intros; exact Logic.I|intros _]. destruct (Req_dec b 0) as [Z|Z]; [rewrite V2 by exact Z|rewrite V1 by lra]; reflexivity.
  - destruct V as [V1 V2]. split; [intros; exact Logic.I|intros _]. destruct (Req_dec b 0) as [Z|Z]; [rewrite V2 by exact Z|rewrite V1 by lra]; reflexivity.
  - rewrite V. split; reflexivity.
Qed.
End X.
Lemma x_patch_finite h d ci cj t pin pout diam m kw u : xcircular_patch h d ci cj (tmap Fin t) pin pout diam m kw u = circular_patch h d ci cj (AConstR t) pin pout diam m kw u.
Proof. reflexivity. Qed.
Lemma x_finite h d t pin pout m kw u : xset_grating h d (tmap Fin t) pin pout m kw u = set_dmd_grating_state h d (AConstR t) pin pout m kw u.
Proof. reflexivity. Qed.
Lemma x_case : fits ex4 (T0 PInf) /\ d_state ex4 = DBool 2 4 (fun _ _ => false) /\ height ex4 (fun _ _ => 0) (fun _ _ => 0) 0 2 = 1 /\ height ex4 (fun _ _ => 0) (fun _ _ => 0) 0 3 = 0.
Proof.
  split; [left; reflexivity|]. split; [reflexivity|]. unfold height, signed. cbn [d_neg ex4 dmd_new].
  assert (E2 : carrier ex4 0 2 = 0) by (unfold carrier, mirror_x, mirror_y; cbn; rewrite cos_0, sin_0; field).
  assert (E3 : carrier ex4 0 3 = PI) by (unfold carrier, mirror_x, mirror_y; cbn; rewrite cos_0, sin_0; field).
  rewrite E2, E3. replace (0 - (0 - 0)) with 0 by ring. replace (PI - (0 - 0)) with PI by ring. rewrite cos_0, cos_PI. lra.
Qed.
