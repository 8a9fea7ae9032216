(** The image of a sampled Laguerre-Gauss beam (C115). *)
From Coq Require Import Reals Lra Psatz ZArith Arith List Bool Lia.
From Coquelicot Require Import Rcomplements Complex.
From Verif Require Import Cx Sums PyBase ProfileModel ProfSpec SlmModel LibModel DmdModel SimModel SimSpec ModeSpec DFT ModeFacts ModeThms ProfFacts2 GridFacts GridFacts2 SimFacts SimFacts2 SimFacts4 ModeThms TensorThms ErfInt GaussSum GaussSum2 GaussFacts HermSpec HermSum HermSum2 HermFacts HermCase RingSpec RingAlg.
Import ListNotations.
Open Scope R_scope.

Lemma helix_sq l : (helix l * helix l = - RtoC 1)%C.
Proof. unfold helix. destruct (l <? 0)%Z; apply injective_projections; cbn; ring. Qed.
Lemma helix_mod l : Cmod (helix l) = 1.
Proof. unfold helix. destruct (l <? 0)%Z; (transitivity (sqrt 1); [unfold Cmod; f_equal; cbn; ring|apply sqrt_1]). Qed.
Lemma helix_pow l rho phi : cp (RtoC (rho * cos phi) + helix l * RtoC (rho * sin phi))%C (Z.abs_nat l) = (RtoC (rho ^ Z.abs_nat l) * cis (- IZR l * phi))%C.
Proof.
  set (s := if (l <? 0)%Z then 1 else -1). assert (E : (RtoC (rho * cos phi) + helix l * RtoC (rho * sin phi) = RtoC rho * cis (s * phi))%C).
  { unfold helix, s, cis. destruct (l <? 0)%Z.
    - rewrite Rmult_1_l. apply injective_projections; cbn; ring.
    - replace (-1 * phi) with (- phi) by ring. rewrite cos_neg, sin_neg. apply injective_projections; cbn; ring. }
  rewrite E. assert (K : forall n, cp (RtoC rho * cis (s * phi))%C n = (RtoC (rho ^ n) * cis (INR n * (s * phi)))%C).
  { induction n as [|n IH]; cbn [cp pow].
    - rewrite Rmult_0_l, cis_0. cbn. ring.
    - rewrite IH, S_INR, RtoC_mult. replace ((INR n + 1) * (s * phi)) with (s * phi + INR n * (s * phi)) by ring. rewrite cis_plus. ring. }
  rewrite K. f_equal. f_equal. rewrite INR_IZR_INZ, Zabs2Nat.id_abs. unfold s. destruct (Z.ltb_spec l 0).
  - rewrite Z.abs_neq, opp_IZR by lia. ring.
  - rewrite Z.abs_eq by lia. ring.
Qed.
Lemma norm_nz p q : ring_norm p q <> 0.
Proof. unfold ring_norm. repeat apply Rmult_integral_contrapositive_currified; [apply pow_nonzero; lra|apply INR_fact_neq_0|apply pow_nonzero; lra]. Qed.
Lemma lg_rings x0 y0 a w l p r phi : w <> 0 -> let q := Z.abs_nat l in
  lg_mode a w l p r phi = (RtoC (a / ring_norm p q) * rings (helix l) p q (fun n m => RtoC (hg_mode x0 y0 1 w n m (x0 + r * cos phi) (y0 + r * sin phi))))%C.
Proof.
  intros Hw q. set (rho := sqrt 2 * r / w). set (g := exp (- r ^ 2 / w ^ 2)). assert (CS := sin2_cos2 phi). rewrite !Rsqr_pow2 in CS.
  rewrite (rings_ext _ _ _ _ (fun n m => RtoC g * HH (rho * cos phi) (rho * sin phi) n m)%C).
  - rewrite rings_scal, (rings_HH _ (helix_sq l)). unfold q at 3. rewrite helix_pow. fold q. unfold lg_mode. fold q rho g.
    replace ((rho * cos phi) ^ 2 + (rho * sin phi) ^ 2) with (2 * r ^ 2 / w ^ 2).
    + rewrite !Cmult_assoc, <- !RtoC_mult. f_equal. f_equal. field. apply norm_nz.
    + replace ((rho * cos phi) ^ 2 + (rho * sin phi) ^ 2) with (rho ^ 2 * (sin phi ^ 2 + cos phi ^ 2)) by ring. rewrite CS. unfold rho. replace ((sqrt 2 * r / w) ^ 2) with (sqrt 2 * sqrt 2 * (r ^ 2 / w ^ 2)) by (field; exact Hw). rewrite sqrt_sqrt by lra. field. exact Hw.
  - intros n m. unfold HH. rewrite <- RtoC_mult. f_equal. unfold hg_mode. rewrite <- !H_hermite.
    replace (x0 + r * cos phi - x0) with (r * cos phi) by ring. replace (y0 + r * sin phi - y0) with (r * sin phi) by ring.
    replace (sqrt 2 * (r * cos phi) / w) with (rho * cos phi) by (unfold rho; field; exact Hw). replace (sqrt 2 * (r * sin phi) / w) with (rho * sin phi) by (unfold rho; field; exact Hw).
    replace (- ((r * cos phi) ^ 2 + (r * sin phi) ^ 2) / w ^ 2) with (- (r ^ 2 * (sin phi ^ 2 + cos phi ^ 2)) / w ^ 2) by (field; exact Hw). rewrite CS, Rmult_1_r. fold g. ring.
Qed.
Lemma rings_csum2 j p q ny nx (f : nat -> nat -> nat -> nat -> C) : csum2 ny nx (fun i k => rings j p q (fun n m => f n m i k)) = rings j p q (fun n m => csum2 ny nx (f n m)).
Proof.
  assert (V : forall q f, csum2 ny nx (fun i k => vortex j q (fun n m => f n m i k)) = vortex j q (fun n m => csum2 ny nx (f n m))).
  { clear. induction q as [|q IH]; intros f; cbn [vortex]; [reflexivity|]. rewrite (IH (fun n m i k => f (S n) m i k + j * f n (S m) i k)%C). apply vortex_ext. intros n m. rewrite csum2_plus, csum2_scal_l. reflexivity. }
  revert f. induction p as [|p IH]; intros f; cbn [rings]; [apply V|]. rewrite (IH (fun n m i k => f (S (S n)) m i k + f n (S (S m)) i k)%C). apply rings_ext. intros n m. rewrite csum2_plus. reflexivity.
Qed.
(** What the amplitude of one order becomes. *)
Lemma hpeak_mode sf w n m x y : 0 < w -> sf <> 0 -> let waist := sf / (PI * w) in
  hpeak n w (2 * PI * x / sf) * hpeak m w (2 * PI * y / sf) = sf * (w / waist) * hg_mode 0 0 1 waist n m x y.
Proof.
  intros Hw Hsf waist. assert (PP := PI_RGT_0). assert (Hwa : waist <> 0).
  { unfold waist, Rdiv. apply Rmult_integral_contrapositive. split; [exact Hsf|]. apply Rinv_neq_0_compat. apply Rmult_integral_contrapositive. split; lra. }
  rewrite mode_product by exact Hwa. rewrite !Rminus_0_r. unfold hpeak, hf. assert (Q2 := sqrt2_pos). assert (Q3 := sqrt2_sq).
  assert (Ea : forall z, w * (2 * PI * z / sf) / sqrt 2 = sqrt 2 * (z / waist)).
  { intros z. apply (Rmult_eq_reg_r (sqrt 2)); [|lra]. transitivity ((sqrt 2 * sqrt 2) * (z / waist)); [rewrite Q3; unfold waist; field; repeat split; lra|ring]. }
  assert (Eb : forall z, (w * (2 * PI * z / sf)) ^ 2 / 4 = (z / waist) ^ 2) by (intros z; unfold waist; field; repeat split; lra).
  rewrite !Ea, !Eb. assert (SP : sqrt PI * sqrt PI = PI) by (apply sqrt_sqrt; lra).
  match goal with |- sqrt PI * w * ?x * (sqrt PI * w * ?y) = _ => transitivity ((sqrt PI * sqrt PI) * w ^ 2 * (y * x)); [ring|rewrite SP] end.
  replace (sf * (w / waist)) with (PI * w ^ 2) by (unfold waist; field; repeat split; lra). ring.
Qed.
Lemma lplane_sum j p q h w x0 y0 ny nx kx ky : Cmod j = 1 -> 0 < h -> 0 < w -> Rabs x0 <= INR nx / 2 * h -> Rabs y0 <= INR ny / 2 * h ->
  Cmod (RtoC (h ^ 2) * csum2 ny nx (fun i k => rings j p q (fun n m => RtoC (hg_mode x0 y0 1 w n m ((INR k - INR nx / 2) * h) ((INR ny / 2 - INR i) * h))) *
           cis (kx * ((INR k - INR nx / 2) * h) + ky * ((INR ny / 2 - INR i) * h)))
        - cis (kx * x0 + ky * y0 + INR (2 * p + q) * (PI / 2)) * rings j p q (fun n m => RtoC (hpeak n w kx * hpeak m w ky)))%C
  <= rings_abs p q (fun n m => product_error (sqrt PI * w * sup0 m) (sqrt PI * w * sup0 n) (hg_axis_error m h (INR ny / 2 * h) y0 w ky) (hg_axis_error n h (INR nx / 2 * h) x0 w kx)).
Proof.
  intros Hj Hh Hw Hx Hy.
  match goal with |- Cmod (RtoC _ * csum2 _ _ (fun i k => rings _ _ _ (fun n m => RtoC (@?u n m i k)) * cis (@?v i k)) - _)%C <= _ => set (U := u); set (V := v) end.
  match goal with |- Cmod (_ * ?c - _)%C <= _ => assert (EC : c = rings j p q (fun n m => csum2 ny nx (fun i k => RtoC (U n m i k) * cis (V i k))%C)) end;
    [|rewrite EC; clear EC].
  - rewrite <- rings_csum2. apply csum2_ext. intros i k _ _. rewrite Cmult_comm, <- rings_scal. apply rings_ext. intros n m. unfold U, V. ring.
  - rewrite <- (rings_degree j p q (fun d => cis (kx * x0 + ky * y0 + INR d * (PI / 2)))). rewrite <- rings_scal.
    match goal with |- Cmod (rings _ _ _ ?e - rings _ _ _ ?f)%C <= _ => replace (rings j p q e - rings j p q f)%C with (rings j p q (fun n m => RtoC 1 * e n m + (- RtoC 1) * f n m)%C) by (rewrite rings_lin; ring) end.
    eapply Rle_trans; [apply rings_mod, Hj|]. apply rings_abs_le. intros n m. eapply Rle_trans; [|exact (hplane_sum n m h w x0 y0 ny nx kx ky Hh Hw Hx Hy)]. right. f_equal. unfold U, V. ring.
Qed.
Lemma lg_input h s x0 y0 a w l p : w <> 0 -> let q := Z.abs_nat l in exists h1 b F, lg_new h x0 y0 a w l (Z.of_nat p) = Ok (h1, b) /\ full_input h1 s (AProf b) F /\ forall i k, (i < s_Ny s)%nat -> (k < s_Nx s)%nat ->
  F i k = (RtoC (a / ring_norm p q) * rings (helix l) p q (fun n m => RtoC (hg_mode x0 y0 1 w n m ((INR k - INR (s_Nx s) / 2) * pixel_size s) ((INR (s_Ny s) / 2 - INR i) * pixel_size s))))%C.
Proof.
  intros Hw q. destruct (lg_evaluates h x0 y0 a w l p Hw) as (h1 & b & E & _ & _ & G). assert (E' := E).
  assert (NC : ~ Forall constant_leaf (leaves b)).
  { unfold lg_new in E. destruct (Z.of_nat p <? 0)%Z; [discriminate|]. destruct (alloc_reals h [x0; y0; a; w]) as [h2 ls]. apply ok_pair in E. destruct E as [_ <-]. intros F. inversion F as [|u l0 [c C]]. discriminate C. }
  assert (G' : forall x y, gives h1 b x y (RtoC (a / ring_norm p q) * rings (helix l) p q (fun n m => RtoC (hg_mode x0 y0 1 w n m x y)))%C true).
  { intros x y. destruct (to_polar x0 y0 x y) as (r & phi & Hr & -> & ->). assert (Q := lg_rings x0 y0 a w l p r phi Hw). cbv zeta in Q. fold q in Q. rewrite <- Q. apply G, Hr. }
  destruct (to_tensor_full h1 s b true _ _ _ true NC (fourier_plane_grid_is s) (fun i j _ _ => G' _ _)) as [(t & Et & Ht) _].
  destruct t as [z|ny nx F]; [destruct Ht|]. destruct Ht as (-> & -> & HF). exists h1, b, F. split; [exact E'|]. split; [exact Et|].
  intros i k Hi Hk. rewrite HF by assumption. reflexivity.
Qed.
Lemma lg_image h dev m x0 y0 a w l p c S X Y :
  let s := dev_slm dev in let q := Z.abs_nat l in
  0 < w -> 0 < pixel_size s -> (0 < s_Nx s)%nat -> (0 < s_Ny s)%nat -> scaling_factor s <> 0 -> (0 <= pad_x m)%Z -> (0 <= pad_y m)%Z ->
  Rabs x0 <= INR (s_Nx s) / 2 * pixel_size s -> Rabs y0 <= INR (s_Ny s) / 2 * pixel_size s ->
  full_state dev S -> (forall i j, (i < s_Ny s)%nat -> (j < s_Nx s)%nat -> S i j = c) ->
  grid_is (image_plane_padded_grid s m) (NY s m) (NX s m) X Y ->
  exists h1 b m' I, lg_new h x0 y0 a w l (Z.of_nat p) = Ok (h1, b) /\ propagate_to_image h1 dev m (AProf b) = (m', Ok tt) /\ field_is (f_image m') (NY s m) (NX s m) I /\
  let waist := wavelength s * focal_length s / (PI * w) in
  forall u v r phi, (u < NY s m)%nat -> (v < NX s m)%nat -> X u v = r * cos phi -> Y u v = r * sin phi ->
  Cmod (I u v - c * odd_phase (NY s m) (NX s m) u v * cis (2 * PI * (x0 * X u v + y0 * Y u v) / scaling_factor s + INR (2 * p + q) * (PI / 2))
                * lg_mode (a * (w / waist)) waist l p r phi)%C
  <= Cmod c * Rabs a / Rabs (scaling_factor s) / (4 ^ p * INR (fact p) * 2 ^ q) *
     rings_abs p q (fun n m => product_error (sqrt PI * w * sup0 m) (sqrt PI * w * sup0 n)
       (hg_axis_error m (pixel_size s) (INR (s_Ny s) / 2 * pixel_size s) y0 w (2 * PI * Y u v / scaling_factor s))
       (hg_axis_error n (pixel_size s) (INR (s_Nx s) / 2 * pixel_size s) x0 w (2 * PI * X u v / scaling_factor s))).
Proof.
  intros s q Hw Hps Hnx Hny Hsf Px Py Hx Hy HS Hc GX. destruct (lg_input h s x0 y0 a w l p ltac:(lra)) as (h1 & b & F & E & HF & VF). fold q in VF.
  destruct (propagate_succeeds h1 dev m (AProf b) F S HF HS Py Px Hsf) as [m' P]. assert (IS := image_sampled h1 dev m (AProf b) F S m' X Y HF HS P Hnx Hny ltac:(fold s; lra) GX). fold s in IS.
  exists h1, b, m'. eexists. split; [exact E|]. split; [exact P|]. split; [exact IS|]. intros waist u v r phi Hu Hv EX EY. cbv beta.
  change (wavelength s * focal_length s) with (scaling_factor s) in waist. set (sf := scaling_factor s) in *. set (ps := pixel_size s) in *.
  assert (Q := lplane_sum (helix l) p q ps w x0 y0 (s_Ny s) (s_Nx s) (2 * PI * X u v / sf) (2 * PI * Y u v / sf) (helix_mod l) Hps Hw Hx Hy).
  unfold image_function. fold sf ps. assert (OP := offset_phase s m X Y u v Py Px Hsf Hnx Hny ltac:(fold ps; lra) GX Hu Hv). fold sf ps in OP. rewrite OP. set (o := odd_phase _ _ u v).
  assert (PP := PI_RGT_0). assert (Hwa : waist <> 0).
  { unfold waist, Rdiv. apply Rmult_integral_contrapositive. split; [exact Hsf|]. apply Rinv_neq_0_compat. apply Rmult_integral_contrapositive. split; lra. }
  rewrite (rings_ext (helix l) p q (fun n m0 => RtoC (hpeak n w (2 * PI * X u v / sf) * hpeak m0 w (2 * PI * Y u v / sf))) (fun n m0 => RtoC (sf * (w / waist)) * RtoC (hg_mode 0 0 1 waist n m0 (0 + r * cos phi) (0 + r * sin phi)))%C) in Q
    by (intros n m0; rewrite <- RtoC_mult, !Rplus_0_l, <- EX, <- EY; f_equal; apply hpeak_mode; assumption).
  rewrite rings_scal in Q. assert (LM := lg_rings 0 0 (a * (w / waist)) waist l p r phi Hwa). cbv zeta in LM. fold q in LM. rewrite LM. assert (NZ := norm_nz p q). set (nm := ring_norm p q) in *.
  match type of Q with Cmod ?z <= _ => set (d := z) in Q end.
  match goal with |- Cmod ?z <= _ => replace z with (o * (c * (RtoC (a / sf / nm) * d)))%C end.
  - assert (AN : Rabs nm = 4 ^ p * INR (fact p) * 2 ^ q).
    { unfold nm, ring_norm. rewrite !Rabs_mult, <- !RPow_abs. rewrite (Rabs_left (-4)) by lra. rewrite (Rabs_pos_eq 2) by lra. rewrite (Rabs_pos_eq (INR _)) by apply pos_INR. replace (- -4) with 4 by lra. reflexivity. }
    rewrite <- AN. rewrite !Cmod_mult, Cmod_R. unfold o, odd_phase. rewrite Cmod_cis, Rmult_1_l. unfold Rdiv at 1 2. rewrite !Rabs_mult, !Rabs_inv.
    match goal with |- ?x * (?y * ?i * ?k * ?z) <= _ => replace (x * (y * i * k * z)) with (x * y / Rabs sf / Rabs nm * z) by (unfold Rdiv; ring) end.
    apply Rmult_le_compat_l; [|exact Q]. assert (0 < / Rabs sf) by (apply Rinv_0_lt_compat, Rabs_pos_lt, Hsf). assert (0 < / Rabs nm) by (apply Rinv_0_lt_compat, Rabs_pos_lt, NZ).
    assert (0 <= Cmod c) by apply Cmod_ge_0. assert (0 <= Rabs a) by apply Rabs_pos. unfold Rdiv. repeat apply Rmult_le_pos; lra.
  - rewrite (csum2_ext (s_Ny s) (s_Nx s) _ (fun i k => (RtoC (a / nm) * c) * (rings (helix l) p q (fun n m0 => RtoC (hg_mode x0 y0 1 w n m0 ((INR k - INR (s_Nx s) / 2) * ps) ((INR (s_Ny s) / 2 - INR i) * ps))) *
       cis (2 * PI * X u v / sf * ((INR k - INR (s_Nx s) / 2) * ps) + 2 * PI * Y u v / sf * ((INR (s_Ny s) / 2 - INR i) * ps))))%C).
    + rewrite csum2_scal_l. unfold d.
      replace (2 * PI * X u v / sf * x0 + 2 * PI * Y u v / sf * y0) with (2 * PI * (x0 * X u v + y0 * Y u v) / sf) by (field; exact Hsf).
      replace (RtoC (a * (w / waist) / nm)) with (RtoC (a / sf / nm) * RtoC (sf * (w / waist)))%C by (rewrite <- RtoC_mult; f_equal; field; repeat split; assumption).
      replace (RtoC (ps ^ 2 / sf)) with (RtoC (/ sf) * RtoC (ps ^ 2))%C by (rewrite <- RtoC_mult; f_equal; field; exact Hsf).
      replace (RtoC (a / sf / nm)) with (RtoC (a / nm) * RtoC (/ sf))%C by (rewrite <- RtoC_mult; f_equal; field; split; assumption). ring.
    + intros i k Hi Hk. rewrite VF, Hc by assumption. fold ps nm.
      match goal with |- (_ * cis ?a1 = _ * (_ * cis ?a2))%C => replace a2 with a1 by (field; exact Hsf) end. ring.
Qed.
Lemma lg_bounded h x0 y0 a w l p : w <> 0 -> let q := Z.abs_nat l in exists h1 b, lg_new h x0 y0 a w l (Z.of_nat p) = Ok (h1, b) /\
  forall x y, exists z, gives h1 b x y z true /\ Cmod z <= Rabs a / (4 ^ p * INR (fact p) * 2 ^ q) * rings_abs p q (fun n m => sup0 n * sup0 m).
Proof.
  intros Hw q. destruct (lg_evaluates h x0 y0 a w l p Hw) as (h1 & b & E & _ & _ & G). exists h1, b. split; [exact E|]. intros x y.
  destruct (to_polar x0 y0 x y) as (r & phi & Hr & -> & ->). exists (lg_mode a w l p r phi). split; [apply G, Hr|].
  rewrite (lg_rings x0 y0 a w l p r phi Hw). fold q. rewrite Cmod_mult, Cmod_R. unfold Rdiv at 1. rewrite Rabs_mult, Rabs_inv. unfold ring_norm. rewrite !Rabs_mult, <- !RPow_abs, (Rabs_left (-4)), (Rabs_pos_eq 2), (Rabs_pos_eq (INR _)) by (lra || apply pos_INR).
  replace (- -4) with 4 by lra. apply Rmult_le_compat_l.
  - apply Rmult_le_pos; [apply Rabs_pos|]. left. apply Rinv_0_lt_compat. repeat apply Rmult_lt_0_compat; try (apply pow_lt; lra). apply INR_fact_lt_0.
  - eapply Rle_trans; [apply rings_mod, helix_mod|]. apply rings_abs_le. intros n m. rewrite Cmod_R, mode_product by exact Hw. rewrite Rmult_1_l, Rabs_mult, Rmult_comm. apply Rmult_le_compat; try apply Rabs_pos; apply hf_bound.
Qed.
