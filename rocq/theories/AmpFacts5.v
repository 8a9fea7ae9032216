(** Perfect mode matching and the efficiency of the first order (C69, C70). *)
From Coq Require Import Reals Lra ZArith Arith List Bool Lia.
From Coquelicot Require Import Complex.
From Verif Require Import Cx Sums DFT PyBase ProfileModel SlmModel LibModel DmdModel SimModel SimSpec GridFacts SimFacts SimFacts2 DmdSpec DmdFacts DmdFacts2 DmdFacts3 AmpFacts AmpFacts2 AmpFacts3 AmpFacts4 DmdThms.
Open Scope R_scope.

Lemma spectrum_of_ext ny nx T T' i j : (forall u v, (u < ny)%nat -> (v < nx)%nat -> T u v = T' u v) -> spectrum_of ny nx T i j = spectrum_of ny nx T' i j.
Proof. intros H. apply csum2_ext; intros u v Hu Hv. rewrite H by assumption. reflexivity. Qed.
Lemma spectrum_of_scal ny nx c T i j : spectrum_of ny nx (fun u v => (c * T u v)%C) i j = (c * spectrum_of ny nx T i j)%C.
Proof. unfold spectrum_of. rewrite <- csum2_scal_l. apply csum2_ext; intros u v _ _. ring. Qed.
Lemma spectrum_of_image ny nx E i j : (i < ny)%nat -> (j < nx)%nat -> spectrum_of ny nx (image_of ny nx E) i j = E i j.
Proof.
  intros Hi Hj.
  rewrite (spectrum_of_ext ny nx _ (fftshift2 ny nx (ifft2 ny nx (ifftshift2 ny nx E)))) by (intros u v Hu Hv; symmetry; apply image_of_to_image; assumption).
  rewrite <- spectrum_fp by assumption. unfold target_fp, fftshift2 at 1.
  rewrite (fft2_ext ny nx _ (ifft2 ny nx (ifftshift2 ny nx E))).
  - rewrite fft2_ifft2 by (apply shift_idx_lt; lia). unfold ifftshift2. rewrite !ishift_shift by assumption. reflexivity.
  - intros u v Hu Hv. unfold ifftshift2 at 1, fftshift2. rewrite !shift_ishift by assumption. reflexivity.
Qed.

(** The unpadded simulation of a DMD with all mirrors on. *)
Lemma all_on_image h d m a F m' I : full_input h (d_slm d) a F -> pad_x m = 0%Z -> pad_y m = 0%Z ->
  propagate_to_image h (DevDmd (set_dmd_state_on d)) m a = (m', Ok tt) -> field_is (f_image m') (s_Ny (d_slm d)) (s_Nx (d_slm d)) I ->
  scaling_factor (d_slm d) <> 0 /\
  forall u v, (u < s_Ny (d_slm d))%nat -> (v < s_Nx (d_slm d))%nat -> I u v = (RtoC (eta_scale (d_slm d)) * image_of (s_Ny (d_slm d)) (s_Nx (d_slm d)) F u v)%C.
Proof.
  intros HF Hx Hy P HI. set (s := d_slm d) in *.
  assert (HS : full_state (DevDmd (set_dmd_state_on d)) _) by exact (state_bool (set_dmd_state_on d) (fun _ _ => true) eq_refl).
  destruct (propagate_inv h (DevDmd (set_dmd_state_on d)) m a F _ m' HF HS P) as (_ & _ & Hsf & _ & _ & _ & _ & Him).
  cbn [dev_slm] in Hsf, Him. change (d_slm (set_dmd_state_on d)) with s in Hsf, Him. split; [exact Hsf|].
  assert (E1 : NY s m = s_Ny s) by (unfold NY; rewrite Hy; lia). assert (E2 : NX s m = s_Nx s) by (unfold NX; rewrite Hx; lia).
  rewrite E1, E2 in Him. destruct (field_is_inj _ _ _ _ _ _ _ HI Him) as (_ & _ & E). intros u v Hu Hv. rewrite E by assumption.
  rewrite image_of_to_image by assumption. rewrite Cmult_comm. f_equal.
  - f_equal. unfold norm_of, eta_scale, sim_Nx, sim_Ny. rewrite Hx, Hy, !Z.mul_0_r, !Z.add_0_r, mult_IZR, <- !INR_IZR_INZ. reflexivity.
  - apply image_of_ext; intros i j Hi Hj. rewrite pad_zero by assumption. apply Cmult_1_r.
Qed.

Lemma perfect_match h d m a F m' I target T c kw u :
  full_input h (d_slm d) a F -> pad_x m = 0%Z -> pad_y m = 0%Z -> d_p d <> 0 ->
  0 < scaling_factor (d_slm d) -> pixel_size (d_slm d) <> 0 ->
  (exists i j, in_array d i j /\ F i j <> RtoC 0) ->
  propagate_to_image h (DevDmd (set_dmd_state_on d)) m a = (m', Ok tt) ->
  field_is (f_image m') (s_Ny (d_slm d)) (s_Nx (d_slm d)) I ->
  full_target h (d_slm d) target T -> c <> RtoC 0 ->
  (forall i j, in_array d i j -> T i j = (c * I i j)%C) ->
  (forall me, me = MIdeal \/ me = MSimple \/ me = MRandom -> snd (calculate_dmd_state h d a target me None kw u) = Ok (Fin (/ Cmod c))) /\
  exists g, fst (calculate_dmd_state h d a target MIdeal None kw u) = with_state d (DFloat (s_Ny (d_slm d)) (s_Nx (d_slm d)) g) /\
  forall i j, in_array d i j -> F i j <> RtoC 0 -> g i j = Fin (cos (carrier d i j - signed (d_neg d) (carg c)) / 2 + 1 / 2).
Proof.
  intros HF Hx Hy Hp Hsf Hps (i0 & j0 & [Hi0 Hj0] & HF0) P HI HT Hc ET.
  destruct (all_on_image h d m a F m' I HF Hx Hy P HI) as (_ & EI).
  set (s := d_slm d) in *. set (ny := s_Ny s) in *. set (nx := s_Nx s) in *. set (e := eta_scale s) in *.
  assert (He : 0 < e).
  { unfold e, eta_scale. apply Rdiv_lt_0_compat; [|exact Hsf]. assert (0 < INR (s_Nx s)) by (apply lt_0_INR; fold nx; lia).
    assert (0 < INR (s_Ny s)) by (apply lt_0_INR; fold ny; lia). assert (0 < pixel_size s ^ 2) by (rewrite <- Rsqr_pow2; apply Rsqr_pos_lt; exact Hps). apply Rmult_lt_0_compat; [apply Rmult_lt_0_compat|]; assumption. }
  set (W := fun _ _ : nat => RtoC 1).
  assert (ES : forall i j, in_array d i j -> windowed d T W i j = (c * RtoC e * F i j)%C).
  { intros i j [Hi Hj]. unfold windowed, W. rewrite Cmult_1_r. fold s ny nx.
    rewrite (spectrum_of_ext ny nx T (fun u v => (c * RtoC e * image_of ny nx F u v)%C)).
    - rewrite spectrum_of_scal, spectrum_of_image by assumption. reflexivity.
    - intros u' v' Hu' Hv'. rewrite ET by (split; assumption). rewrite EI by assumption. ring. }
  assert (Cpos := Cmod_pos_neq c Hc).
  assert (EA : forall i j, in_array d i j -> Cmod (windowed d T W i j) = Cmod c * e * Cmod (F i j)).
  { intros i j H. rewrite ES by exact H. rewrite !Cmod_mult, Cmod_R, Rabs_right by lra. reflexivity. }
  assert (Hce : (c * RtoC e)%C <> RtoC 0) by (apply Cmult_neq_0; [exact Hc|apply RtoC_neq_0; lra]).
  destruct (hologram_spec h d a target None F T W kw u HF HT (fun _ _ => eq_refl) Hp ltac:(fold s ny; lia) ltac:(fold s nx; lia) ltac:(fold s; lra)) as (M & HM & H1 & (i1 & j1 & A1 & B1) & G1 & G2 & G3).
  - intros i j Hij E. rewrite ES, E by exact Hij. ring.
  - exists i0, j0. split; [split; assumption|]. rewrite ES by (split; assumption). apply Cmult_neq_0; assumption.
  - cbv zeta in *. fold s in G1, G2, G3. fold e in G1, G2, G3.
    assert (EM : M = Cmod c * e).
    { assert (F1 : F i1 j1 <> RtoC 0). { intros E. rewrite E, EA, E, Cmod_0, Rmult_0_r in B1 by exact A1. unfold Rdiv in B1. lra. }
      assert (Q := Cmod_pos_neq _ F1). rewrite EA in B1 by exact A1.
      replace (Cmod c * e * Cmod (F i1 j1) / Cmod (F i1 j1) / M) with (Cmod c * e / M) in B1 by (field; lra).
      apply (f_equal (fun t => t * M)) in B1. field_simplify in B1; lra. }
    assert (Eeta : e / M = / Cmod c) by (rewrite EM; field; lra). rewrite Eeta in G1, G2, G3.
    destruct G1 as (g & G1 & V1). destruct G2 as (g2 & G2 & _). destruct G3 as (g3 & G3 & _). split.
    + intros me [->|[->| ->]]; [rewrite G1|rewrite G2|rewrite G3]; reflexivity.
    + exists g. rewrite G1. split; [reflexivity|]. intros i j Hij Hf. rewrite V1 by exact Hij. f_equal.
      assert (Q := Cmod_pos_neq _ Hf). rewrite EA by exact Hij. rewrite EM.
      replace (Cmod c * e * Cmod (F i j) / Cmod (F i j) / (Cmod c * e)) with 1 by (field; lra). rewrite Rmult_1_l.
      assert (X : cos (carrier d i j - signed (d_neg d) (phase_of (windowed d T W i j) - carg (F i j))) = cos (carrier d i j - signed (d_neg d) (carg c))); [|lra].
      assert (Hw : windowed d T W i j <> RtoC 0) by (rewrite ES by exact Hij; apply Cmult_neq_0; assumption).
      assert (K : cis (phase_of (windowed d T W i j) - carg (F i j)) = cis (carg c)).
      { assert (P1 := phase_polar (windowed d T W i j)). assert (Ew := ES i j Hij). assert (Aw := EA i j Hij).
        set (w := windowed d T W i j) in *. rewrite Aw in P1.
        replace (phase_of w - carg (F i j)) with (phase_of w + - carg (F i j)) by ring. rewrite cis_plus.
        assert (Z : (RtoC (Cmod c * e * Cmod (F i j)) * cis (phase_of w))%C = (RtoC (Cmod c * e * Cmod (F i j)) * (cis (carg c) * cis (carg (F i j))))%C).
        { rewrite <- P1, Ew. rewrite (polar c) at 1. rewrite (polar (F i j)) at 1. rewrite !RtoC_mult. ring. }
        apply (f_equal (fun z => (/ RtoC (Cmod c * e * Cmod (F i j)) * z * cis (- carg (F i j)))%C)) in Z.
        assert (N : RtoC (Cmod c * e * Cmod (F i j)) <> RtoC 0) by (apply RtoC_neq_0; apply Rgt_not_eq; apply Rmult_lt_0_compat; [apply Rmult_lt_0_compat|]; assumption).
        rewrite !Cmult_assoc, !Cinv_l, !Cmult_1_l in Z by exact N. rewrite Z, <- Cmult_assoc, <- cis_plus, Rplus_opp_r, cis_0. ring. }
      apply (f_equal fst) in K as K1. apply (f_equal snd) in K as K2. cbn [cis fst snd] in K1, K2.
      unfold signed. destruct (d_neg d); [replace (carrier d i j - - (phase_of (windowed d T W i j) - carg (F i j))) with (carrier d i j + (phase_of (windowed d T W i j) - carg (F i j))) by ring;
        replace (carrier d i j - - carg c) with (carrier d i j + carg c) by ring; rewrite !cos_plus, K1, K2; reflexivity|].
      rewrite (cos_minus _ (phase_of _ - _)), (cos_minus _ (carg c)), K1, K2. reflexivity.
Qed.

Lemma div_ge_0 x y : 0 <= x -> 0 < y -> 0 <= x / y.
Proof. intros H1 H2. apply Rmult_le_pos; [exact H1|left; apply Rinv_0_lt_compat; exact H2]. Qed.
(** Power carried by the first order. *)
Lemma first_order_power h d input target F T kw u :
  full_input h (d_slm d) input F -> full_target h (d_slm d) target T -> d_p d <> 0 ->
  (0 < s_Ny (d_slm d))%nat -> (0 < s_Nx (d_slm d))%nat -> scaling_factor (d_slm d) <> 0 -> pixel_size (d_slm d) <> 0 ->
  (forall i j, in_array d i j -> F i j = RtoC 0 -> spectrum_of (s_Ny (d_slm d)) (s_Nx (d_slm d)) T i j = RtoC 0) ->
  (exists i j, in_array d i j /\ T i j <> RtoC 0) ->
  exists eta, (forall me, me = MIdeal \/ me = MSimple \/ me = MRandom -> snd (calculate_dmd_state h d input target me None kw u) = Ok (Fin eta)) /\
  eta ^ 2 * power_of (image_pitch_x (d_slm d) * image_pitch_y (d_slm d)) (s_Ny (d_slm d)) (s_Nx (d_slm d)) T
    <= power_of (pixel_size (d_slm d) ^ 2) (s_Ny (d_slm d)) (s_Nx (d_slm d)) F /\
  (eta ^ 2 * power_of (image_pitch_x (d_slm d) * image_pitch_y (d_slm d)) (s_Ny (d_slm d)) (s_Nx (d_slm d)) T
    = power_of (pixel_size (d_slm d) ^ 2) (s_Ny (d_slm d)) (s_Nx (d_slm d)) F <->
   exists k, forall i j, in_array d i j -> Cmod (spectrum_of (s_Ny (d_slm d)) (s_Nx (d_slm d)) T i j) = k * Cmod (F i j)).
Proof.
  intros HF HT Hp Hy Hx Hsf Hps Hdark (i0 & j0 & [Hi0 Hj0] & HT0).
  set (W := fun _ _ : nat => RtoC 1).
  assert (ES : forall i j, windowed d T W i j = spectrum_of (s_Ny (d_slm d)) (s_Nx (d_slm d)) T i j) by (intros; apply Cmult_1_r).
  destruct (hologram_spec h d input target None F T W kw u HF HT (fun _ _ => eq_refl) Hp Hy Hx Hsf) as (M & HM & H1 & (i1 & j1 & A1 & B1) & (g1 & G1 & _) & (g2 & G2 & _) & (g3 & G3 & _)).
  { intros i j Hij E. rewrite ES. apply Hdark; assumption. }
  { destruct (spectrum_nonzero _ _ T i0 j0 Hi0 Hj0 HT0) as (i & j & Hi & Hj & E). exists i, j. split; [split; assumption|]. rewrite ES. exact E. }
  cbv zeta in *. exists (eta_scale (d_slm d) / M). split; [intros me [->|[->| ->]]; [rewrite G1|rewrite G2|rewrite G3]; reflexivity|].
  set (s := d_slm d) in *. set (ny := s_Ny s) in *. set (nx := s_Nx s) in *. set (Sp := spectrum_of ny nx T) in *.
  assert (B : forall i j, in_array d i j -> Cmod (Sp i j) <= M * Cmod (F i j) /\ (Cmod (Sp i j) / Cmod (F i j) / M = 1 -> Cmod (Sp i j) = M * Cmod (F i j))).
  { intros i j Hij. destruct (C_dec0 (F i j)) as [E|E].
    - assert (Z : Sp i j = RtoC 0) by (apply Hdark; assumption). rewrite Z, E, Cmod_0. split; [lra|intros; lra].
    - assert (Q := Cmod_pos_neq _ E). specialize (H1 i j Hij). rewrite ES in H1. fold s ny nx in H1. fold Sp in H1.
      assert (X : Cmod (Sp i j) = Cmod (Sp i j) / Cmod (F i j) / M * (M * Cmod (F i j))) by (field; lra).
      assert (Q2 : 0 < M * Cmod (F i j)) by (apply Rmult_lt_0_compat; assumption). split; [rewrite X; nra|intros K; rewrite X, K; ring]. }
  assert (PE : INR (ny * nx) * rsum2 ny nx (fun u v => cnorm2 (T u v)) = rsum2 ny nx (fun i j => cnorm2 (Sp i j))).
  { rewrite <- fp_energy. apply rsum2_ext; intros i j Hi Hj. rewrite spectrum_fp by assumption. reflexivity. }
  assert (Ny0 : INR ny <> 0) by (apply INR_neq_0; exact Hy). assert (Nx0 : INR nx <> 0) by (apply INR_neq_0; exact Hx).
  assert (EP : (eta_scale s / M) ^ 2 * power_of (image_pitch_x s * image_pitch_y s) ny nx T = pixel_size s ^ 2 * rsum2 ny nx (fun i j => (Cmod (Sp i j) / M) ^ 2)).
  { unfold power_of. rewrite rsum2_Cmod.
    replace (rsum2 ny nx (fun i j => (Cmod (Sp i j) / M) ^ 2)) with (/ M ^ 2 * rsum2 ny nx (fun i j => cnorm2 (Sp i j))).
    - rewrite <- PE, mult_INR. unfold eta_scale, image_pitch_x, image_pitch_y. fold nx ny. field. repeat split; try assumption; lra.
    - rewrite <- rsum2_Cmod, <- rsum2_scal_l. apply rsum2_ext; intros i j _ _. field. lra. }
  rewrite EP. unfold power_of. assert (Pps : 0 < pixel_size s ^ 2) by (rewrite <- Rsqr_pow2; apply Rsqr_pos_lt; exact Hps).
  assert (LE : forall i j, (i < ny)%nat -> (j < nx)%nat -> (Cmod (Sp i j) / M) ^ 2 <= Cmod (F i j) ^ 2).
  { intros i j Hi Hj. destruct (B i j (conj Hi Hj)) as [B0 _]. apply pow_incr. split; [apply div_ge_0; [apply Cmod_ge_0|exact HM]|].
    apply Rmult_le_reg_r with M; [lra|]. unfold Rdiv. rewrite Rmult_assoc, Rinv_l by lra. lra. }
  split; [apply Rmult_le_compat_l; [lra|apply rsum2_le; exact LE]|]. split.
  - intros E. apply Rmult_eq_reg_l in E; [|lra]. exists M. intros i j [Hi Hj].
    assert (Z := rsum2_eq_0 ny nx (fun i j => Cmod (F i j) ^ 2 - (Cmod (Sp i j) / M) ^ 2)). cbv beta in Z.
    rewrite rsum2_minus in Z. specialize (Z ltac:(intros a b Ha Hb; specialize (LE a b Ha Hb); lra) ltac:(lra) i j Hi Hj).
    assert (K : Cmod (F i j) = Cmod (Sp i j) / M).
    { apply Rsqr_inj; [apply Cmod_ge_0|apply div_ge_0; [apply Cmod_ge_0|exact HM]|unfold Rsqr; nra]. }
    rewrite K. field. lra.
  - intros [k Hk]. f_equal. apply rsum2_ext; intros i j Hi Hj. fold Sp in Hk. rewrite Hk by (split; assumption).
    assert (EM : k = M).
    { rewrite ES in B1. fold s ny nx in B1. fold Sp in B1. rewrite Hk in B1 by exact A1.
      destruct (Req_dec (Cmod (F i1 j1)) 0) as [Z|Z]; [rewrite Z in B1; unfold Rdiv in B1; rewrite !Rmult_0_r, !Rmult_0_l in B1; lra|].
      replace (k * Cmod (F i1 j1) / Cmod (F i1 j1) / M) with (k / M) in B1 by (field; lra). apply (f_equal (fun t => t * M)) in B1. field_simplify in B1; lra. }
    rewrite EM. field. lra.
Qed.
