(** _calc_amp_phase and calculate_dmd_state (C35-C38). *)
From Coq Require Import Reals Lra ZArith Arith List Bool Lia FunctionalExtensionality.
From Coquelicot Require Import Complex.
From Verif Require Import Cx Sums DFT PyBase ProfileModel SlmModel LibModel DmdModel SimModel SimSpec GridFacts SimFacts SimFacts2 DmdSpec DmdFacts DmdFacts2 DmdFacts3.
Import ListNotations.
Open Scope R_scope.

(** ** Maxima *)
Lemma xmax1_ext f g n : (forall j, (j < n)%nat -> f j = g j) -> xmax1 f n = xmax1 g n.
Proof. induction n as [|n IH]; intros H; cbn [xmax1]; [reflexivity|]. rewrite IH, H by (intros; try apply H; lia). reflexivity. Qed.
Lemma xmax2_ext f g ny nx : (forall i j, (i < ny)%nat -> (j < nx)%nat -> f i j = g i j) -> xmax2 f ny nx = xmax2 g ny nx.
Proof.
  induction ny as [|n IH]; intros H; cbn [xmax2]; [reflexivity|]. rewrite IH by (intros; apply H; lia).
  rewrite (xmax1_ext (f n) (g n)) by (intros; apply H; lia). reflexivity.
Qed.
Lemma xmax1_fin r n : (0 < n)%nat -> exists M, xmax1 (fun j => Fin (r j)) n = Fin M /\ (forall j, (j < n)%nat -> r j <= M) /\
  exists j, (j < n)%nat /\ r j = M.
Proof.
  intros Hn. induction n as [|n IH]; [lia|]. cbn [xmax1]. destruct n as [|n].
  - exists (r 0%nat). cbn [xmax1 xmax]. split; [reflexivity|]. split.
    + intros j Hj. replace j with 0%nat by lia. lra.
    + exists 0%nat. split; [lia|reflexivity].
  - destruct (IH ltac:(lia)) as (M & E & H1 & j0 & H2 & H3). rewrite E. cbn [xmax]. eexists. split; [reflexivity|]. split.
    + intros j Hj. destruct (Nat.eq_dec j (S n)) as [->|]; [apply Rmax_r|]. eapply Rle_trans; [apply H1; lia|apply Rmax_l].
    + unfold Rmax. destruct (Rle_dec M (r (S n))); [exists (S n)|exists j0]; (split; [lia|]); auto.
Qed.
Lemma xmax2_fin r ny nx : (0 < ny)%nat -> (0 < nx)%nat -> exists M, xmax2 (fun i j => Fin (r i j)) ny nx = Fin M /\
  (forall i j, (i < ny)%nat -> (j < nx)%nat -> r i j <= M) /\ exists i j, (i < ny)%nat /\ (j < nx)%nat /\ r i j = M.
Proof.
  intros Hy Hx. induction ny as [|n IH]; [lia|]. cbn [xmax2].
  destruct (xmax1_fin (r n) nx Hx) as (M1 & E1 & H1 & j1 & J1 & J2). rewrite E1. destruct n as [|n].
  - exists M1. cbn [xmax2 xmax]. split; [reflexivity|]. split.
    + intros i j Hi Hj. replace i with 0%nat by lia. auto.
    + exists 0%nat, j1. split; [lia|auto].
  - destruct (IH ltac:(lia)) as (M & E & H2 & i0 & j0 & I1 & I2 & I3). rewrite E. cbn [xmax]. eexists. split; [reflexivity|]. split.
    + intros i j Hi Hj. destruct (Nat.eq_dec i (S n)) as [->|]; [eapply Rle_trans; [apply H1; exact Hj|apply Rmax_r]|].
      eapply Rle_trans; [apply H2; lia|apply Rmax_l].
    + unfold Rmax. destruct (Rle_dec M M1); [exists (S n), j1|exists i0, j0]; (split; [lia|]); auto.
Qed.
Lemma xmax_pinf a : a <> NaN -> xmax a PInf = PInf /\ xmax PInf a = PInf.
Proof. destruct a; cbn; auto; congruence. Qed.
Lemma xmax_not_nan a b : a <> NaN -> b <> NaN -> xmax a b <> NaN.
Proof. destruct a, b; cbn; congruence. Qed.
Lemma xmax1_nn f n : (forall j, (j < n)%nat -> f j <> NaN) -> xmax1 f n <> NaN.
Proof. induction n as [|n IH]; intros H; cbn [xmax1]; [discriminate|]. apply xmax_not_nan; auto. Qed.
Lemma xmax2_nn f ny nx : (forall i j, (i < ny)%nat -> (j < nx)%nat -> f i j <> NaN) -> xmax2 f ny nx <> NaN.
Proof. induction ny as [|n IH]; intros H; cbn [xmax2]; [discriminate|]. apply xmax_not_nan; [auto|apply xmax1_nn; auto]. Qed.
Lemma xmax1_pinf f n j : (forall j, (j < n)%nat -> f j <> NaN) -> (j < n)%nat -> f j = PInf -> xmax1 f n = PInf.
Proof.
  induction n as [|n IH]; intros H Hj E; [lia|]. cbn [xmax1]. destruct (Nat.eq_dec j n) as [->|].
  - rewrite E. apply xmax_pinf. apply xmax1_nn. auto.
  - rewrite IH by (auto; lia). apply xmax_pinf. auto.
Qed.
Lemma xmax2_pinf f ny nx i j : (forall i j, (i < ny)%nat -> (j < nx)%nat -> f i j <> NaN) -> (i < ny)%nat -> (j < nx)%nat -> f i j = PInf ->
  xmax2 f ny nx = PInf.
Proof.
  induction ny as [|n IH]; intros H Hi Hj E; [lia|]. cbn [xmax2]. destruct (Nat.eq_dec i n) as [->|].
  - rewrite (xmax1_pinf (f n) nx j) by auto. apply xmax_pinf. apply xmax2_nn. auto.
  - rewrite IH by (auto; lia). apply xmax_pinf. apply xmax1_nn. auto.
Qed.

(** ** The target's spectrum *)
Lemma target_fp_sum ny nx T i j : (i < ny)%nat -> (j < nx)%nat ->
  target_fp ny nx T i j = csum2 ny nx (fun u v => (T u v * cconj (kern ny nx u v i j))%C).
Proof.
  intros Hi Hj. unfold target_fp. unfold fftshift2. rewrite fft2_conj by lia.
  assert (E := to_image_centred ny nx (fun u v => cconj (T u v)) i j Hi Hj). unfold fftshift2 in E.
  rewrite (ifft2_ext ny nx _ (ifftshift2 ny nx (fun u v => cconj (T u v)))) by reflexivity. rewrite E.
  assert (HN : INR (ny * nx) <> 0) by (apply INR_neq_0; nia). rewrite cconj_div_R by exact HN.
  rewrite csum2_conj. rewrite (csum2_ext ny nx _ (fun u v => (T u v * cconj (kern ny nx u v i j))%C)).
  - field. apply RtoC_neq_0, HN.
  - intros u v _ _. rewrite cconj_mult, cconj_conj. reflexivity.
Qed.
Lemma to_image_fp ny nx T u v : (u < ny)%nat -> (v < nx)%nat ->
  fftshift2 ny nx (ifft2 ny nx (ifftshift2 ny nx (target_fp ny nx T))) u v = T u v.
Proof.
  intros Hu Hv. unfold fftshift2 at 1.
  rewrite (ifft2_ext ny nx _ (fft2 ny nx (ifftshift2 ny nx T))).
  - rewrite ifft2_fft2 by (apply shift_idx_lt; lia). unfold ifftshift2. rewrite !ishift_shift by assumption. reflexivity.
  - intros i j Hi Hj. unfold ifftshift2 at 1, target_fp, fftshift2. rewrite !shift_ishift by assumption. reflexivity.
Qed.
Lemma fp_energy ny nx T : rsum2 ny nx (fun i j => cnorm2 (target_fp ny nx T i j)) = INR (ny * nx) * rsum2 ny nx (fun i j => cnorm2 (T i j)).
Proof.
  assert (HP := fft2_parseval ny nx (ifftshift2 ny nx T)).
  assert (H1 := rsum2_ifftshift ny nx (fun i j => cnorm2 (T i j))).
  assert (H2 := rsum2_fftshift ny nx (fun u v => cnorm2 (fft2 ny nx (ifftshift2 ny nx T) u v))).
  change (rsum2 ny nx (fun i j => cnorm2 (ifftshift2 ny nx T i j)) = rsum2 ny nx (fun i j => cnorm2 (T i j))) in H1.
  change (rsum2 ny nx (fun i j => cnorm2 (target_fp ny nx T i j)) = rsum2 ny nx (fun u v => cnorm2 (fft2 ny nx (ifftshift2 ny nx T) u v))) in H2.
  rewrite H2, HP, H1. reflexivity.
Qed.
Lemma fp_nonzero ny nx T u v : (u < ny)%nat -> (v < nx)%nat -> T u v <> RtoC 0 ->
  exists i j, (i < ny)%nat /\ (j < nx)%nat /\ target_fp ny nx T i j <> RtoC 0.
Proof.
  intros Hu Hv HT.
  assert (HN : 0 < INR (ny * nx)) by (apply lt_0_INR; nia).
  destruct (Classical_Prop.classic (exists i j, (i < ny)%nat /\ (j < nx)%nat /\ target_fp ny nx T i j <> RtoC 0)) as [H|H]; [exact H|exfalso].
  assert (Z : forall i j, (i < ny)%nat -> (j < nx)%nat -> cnorm2 (target_fp ny nx T i j) = 0).
  { intros i j Hi Hj. destruct (C_dec0 (target_fp ny nx T i j)) as [E|E]; [rewrite E; apply cnorm2_0|exfalso; apply H; eauto]. }
  assert (E := fp_energy ny nx T). rewrite (rsum2_ext ny nx _ (fun _ _ => 0) Z), rsum2_0 in E.
  apply HT. apply cnorm2_eq_0. apply (rsum2_eq_0 ny nx (fun i j => cnorm2 (T i j))); [intros; apply cnorm2_ge_0| |assumption|assumption].
  nra.
Qed.
Lemma fp_zero ny nx T i j : (i < ny)%nat -> (j < nx)%nat -> (forall u v, (u < ny)%nat -> (v < nx)%nat -> T u v = RtoC 0) -> target_fp ny nx T i j = RtoC 0.
Proof.
  intros Hi Hj H. rewrite target_fp_sum by assumption. rewrite (csum2_ext ny nx _ (fun _ _ => (RtoC 0 * RtoC 0)%C)).
  - rewrite csum2_scal_l. ring.
  - intros u v Hu Hv. rewrite H by assumption. ring.
Qed.

(** ** The amplitude and phases fed to the grating. *)
Lemma amp_phase_full ny nx F T wt (W : nat -> nat -> C) :
  match wt with None => forall i j, W i j = RtoC 1 | Some t => (tshape t = S0 \/ tshape t = S2 ny nx) /\ forall i j, (i < ny)%nat -> (j < nx)%nat -> tget t i j = W i j end ->
  exists amp pin pout M, calc_amp_phase (T2 ny nx F) (T2 ny nx T) wt = Ok (T2 ny nx amp, T2 ny nx pin, T2 ny nx pout, M) /\
    M = xmax2 (fun i j => safe_ratio (Cmod (target_fp ny nx T i j * W i j)%C) (Cmod (F i j))) ny nx /\
    forall i j, (i < ny)%nat -> (j < nx)%nat -> 
      amp i j = xdiv (safe_ratio (Cmod (target_fp ny nx T i j * W i j)%C) (Cmod (F i j))) M /\
      pin i j = carg (F i j) /\ pout i j = phase_of (target_fp ny nx T i j * W i j)%C.
Proof.
  intros HW. unfold calc_amp_phase.
  assert (exists fp, match wt with None => Ok (T2 ny nx (target_fp ny nx T)) | Some w => tmap2 Cmult (T2 ny nx (target_fp ny nx T)) w end = Ok (T2 ny nx fp) /\
    forall i j, (i < ny)%nat -> (j < nx)%nat -> fp i j = (target_fp ny nx T i j * W i j)%C) as (fp & -> & Efp).
  { destruct wt as [t|].
    - destruct HW as [Hs Ht]. unfold tmap2, bc2. cbn [tshape].
      replace (bshape (S2 ny nx) (tshape t)) with (Some (S2 ny nx)).
      2:{ destruct Hs as [-> | ->]; cbn [bshape]; [reflexivity|]. rewrite !bdim_refl. reflexivity. }
      cbn [rbind mk]. eexists. split; [reflexivity|]. intros i j Hi Hj. cbn beta. rewrite tget_T2, Ht by assumption. reflexivity.
    - eexists. split; [reflexivity|]. intros i j _ _. rewrite HW. ring. }
  cbn [rbind tmap]. rewrite tmap2_same. cbn [rbind tmap reduce_max].
  do 4 eexists. split; [reflexivity|].
  assert (Ex : forall i j, (i < ny)%nat -> (j < nx)%nat ->
    safe_ratio (tget (T2 ny nx (fun i0 j0 => Cmod (fp i0 j0))) i j) (tget (T2 ny nx (fun i0 j0 => Cmod (F i0 j0))) i j)
    = safe_ratio (Cmod (target_fp ny nx T i j * W i j)%C) (Cmod (F i j))).
  { intros i j Hi Hj. rewrite !tget_T2, Efp by assumption. reflexivity. }
  split; [apply xmax2_ext; exact Ex|]. intros i j Hi Hj. rewrite Ex, Efp by assumption.
  split; [reflexivity|]. split; [reflexivity|]. unfold phase_of. destruct (C_dec0 _); reflexivity.
Qed.
Section Calc.
Variables (h : heap) (d : dmd) (input target : parg) (w : option parg) (F T W : nat -> nat -> C) (kw : kwargs) (u : nat -> nat -> R).
Let s := d_slm d. Let ny := s_Ny (d_slm d). Let nx := s_Nx (d_slm d).
Hypothesis (HF : full_input h (d_slm d) input F) (HT : full_target h (d_slm d) target T) (HW : window_reads h (d_slm d) w W) (Hp : d_p d <> 0).
Definition spectrum (i j : nat) : C := (target_fp ny nx T i j * W i j)%C.
Definition ratio_max : xr := xmax2 (fun i j => safe_ratio (Cmod (spectrum i j)) (Cmod (F i j))) ny nx.
Definition norm_const : R := pixel_size s ^ 2 / scaling_factor s * INR (s_Nx s) * INR (s_Ny s).
Lemma calc_prefix : exists amp pin pout,
  (forall i j, (i < ny)%nat -> (j < nx)%nat -> 
      amp i j = xdiv (safe_ratio (Cmod (spectrum i j)) (Cmod (F i j))) ratio_max /\ pin i j = carg (F i j) /\ pout i j = phase_of (spectrum i j)) /\
  forall m, m <> MIfta -> calc_new h d input target m w kw u =
    (let! g := calculate_dmd_grating m (d_neg d) (T2 ny nx amp) (T2 ny nx pin) (T2 ny nx pout) (fst (fourier_plane_grid s)) (snd (fourier_plane_grid s))
                (d_p d) (d_theta d) kw (raw_tensor (k_input kw)) (raw_tensor (k_window kw)) u in
     let! st := to_dstate g in Ok (st, ratio_max)).
Proof.
  assert (exists wt, match w with None => Ok None | Some a => let! t := profile_to_tensor_c h (d_slm d) a true in Ok (Some t) end = Ok wt /\
     match wt with None => forall i j, W i j = RtoC 1 | Some t => (tshape t = S0 \/ tshape t = S2 ny nx) /\ forall i j, (i < ny)%nat -> (j < nx)%nat -> tget t i j = W i j end)
   as (wt & Ew & HW').
  { unfold window_reads in HW. destruct w as [a|].
    - destruct HW as (t & E & Hs & Ht). rewrite E. cbn [rbind]. exists (Some t). split; [reflexivity|split; [exact Hs|exact Ht]].
    - exists None. split; [reflexivity|exact HW]. }
  destruct (amp_phase_full ny nx F T wt W HW') as (amp & pin & pout & M & E & EM & V).
  exists amp, pin, pout. fold (spectrum) in *. split.
  - intros i j Hi Hj. destruct (V i j Hi Hj) as (V1 & V2 & V3). unfold ratio_max, spectrum. rewrite <- EM. auto.
  - intros m Hm. unfold calc_new. unfold full_input in HF. unfold full_target in HT. rewrite HF, HT. cbn [rbind]. rewrite Ew. cbn [rbind].
    fold ny nx. rewrite E. cbn [rbind]. unfold ratio_max, spectrum. rewrite <- EM. fold s.
    destruct (fourier_plane_grid s) as [x y]. cbn [fst snd]. destruct m; try congruence; reflexivity.
Qed.
Lemma calc_px {X} (px : xr -> R -> R -> R -> R -> nat -> nat -> X) amp pin pout :
  (forall i j, (i < ny)%nat -> (j < nx)%nat -> 
      amp i j = xdiv (safe_ratio (Cmod (spectrum i j)) (Cmod (F i j))) ratio_max /\ pin i j = carg (F i j) /\ pout i j = phase_of (spectrum i j)) ->
  exists g, grating_tensor px (T2 ny nx amp) (T2 ny nx pin) (T2 ny nx pout) (fst (fourier_plane_grid s)) (snd (fourier_plane_grid s)) = Ok (T2 ny nx g) /\
    forall i j, (i < ny)%nat -> (j < nx)%nat -> g i j = px (xdiv (safe_ratio (Cmod (spectrum i j)) (Cmod (F i j))) ratio_max) (carg (F i j)) (phase_of (spectrum i j))
       (mirror_x s j) (mirror_y s i) i j.
Proof.
  intros V. destruct (grating_full px (T2 ny nx amp) (T2 ny nx pin) (T2 ny nx pout) (fst (fourier_plane_grid s)) (snd (fourier_plane_grid s)) ny nx _ _
    ltac:(right; reflexivity) ltac:(right; reflexivity) ltac:(right; reflexivity) ltac:(rewrite <- surjective_pairing; apply grid_mirrors)) as (g & G & Vg).
  exists g. split; [exact G|]. intros i j Hi Hj. rewrite Vg by assumption. rewrite !tget_T2 by assumption.
  destruct (V i j Hi Hj) as (-> & -> & ->). reflexivity.
Qed.
Definition result : res xr := if Req_EM_T (scaling_factor s) 0 then Err ZeroDivisionError else py_div norm_const ratio_max.
Lemma calc_ideal : exists g, calculate_dmd_state h d input target MIdeal w kw u = (with_state d (DFloat ny nx g), result) /\
  forall i j, (i < ny)%nat -> (j < nx)%nat ->
    g i j = xscale (xdiv (safe_ratio (Cmod (spectrum i j)) (Cmod (F i j))) ratio_max)
               (cos (carrier d i j - signed (d_neg d) (phase_of (spectrum i j) - carg (F i j))) / 2 + 1 / 2).
Proof.
  destruct calc_prefix as (amp & pin & pout & V & E).
  destruct (calc_px (fun a pi po x y _ _ => px_ideal (d_neg d) a pi po x y (d_p d) (d_theta d)) amp pin pout V) as (g & G & Vg).
  exists g. split.
  - rewrite calc_split, E by discriminate. unfold calculate_dmd_grating, grating_ideal, guard_p.
    destruct (Req_EM_T (d_p d) 0); [contradiction|]. rewrite G. cbn [rmap rbind to_dstate]. unfold result, norm_const, s.
    destruct (Req_EM_T (scaling_factor (d_slm d)) 0); reflexivity.
  - intros i j Hi Hj. rewrite Vg by assumption. unfold px_ideal, s. rewrite carrier_phase, rel_phase_signed by exact Hp.
    replace 0.5 with (1 / 2) by lra. reflexivity.
Qed.
Lemma calc_simple : exists g, calculate_dmd_state h d input target MSimple w kw u = (with_state d (DBool ny nx g), result) /\
  forall i j, (i < ny)%nat -> (j < nx)%nat ->
    g i j = xgtb (xscale (xdiv (safe_ratio (Cmod (spectrum i j)) (Cmod (F i j))) ratio_max)
               (cos (carrier d i j - signed (d_neg d) (phase_of (spectrum i j) - carg (F i j))) / 2 + 1 / 2)) (1 / 2).
Proof.
  destruct calc_prefix as (amp & pin & pout & V & E).
  destruct (calc_px (fun a pi po x y _ _ => px_simple (d_neg d) a pi po x y (d_p d) (d_theta d)) amp pin pout V) as (g & G & Vg).
  exists g. split.
  - rewrite calc_split, E by discriminate. unfold calculate_dmd_grating, grating_simple, guard_p.
    destruct (Req_EM_T (d_p d) 0); [contradiction|]. rewrite G. cbn [rmap rbind to_dstate]. unfold result, norm_const, s.
    destruct (Req_EM_T (scaling_factor (d_slm d)) 0); reflexivity.
  - intros i j Hi Hj. rewrite Vg by assumption. unfold px_simple, px_ideal, s. rewrite carrier_phase, rel_phase_signed by exact Hp.
    replace 0.5 with (1 / 2) by lra. reflexivity.
Qed.
Lemma calc_random : exists g, calculate_dmd_state h d input target MRandom w kw u = (with_state d (DBool ny nx g), result) /\
  forall i j, (i < ny)%nat -> (j < nx)%nat ->
    g i j = px_random (d_neg d) (xdiv (safe_ratio (Cmod (spectrum i j)) (Cmod (F i j))) ratio_max) (carg (F i j)) (phase_of (spectrum i j))
       (mirror_x s j) (mirror_y s i) (d_p d) (d_theta d) (dflt (k_r kw) 10) (u i j).
Proof.
  destruct calc_prefix as (amp & pin & pout & V & E).
  destruct (calc_px (fun a pi po x y i j => px_random (d_neg d) a pi po x y (d_p d) (d_theta d) (dflt (k_r kw) 10) (u i j)) amp pin pout V) as (g & G & Vg).
  exists g. split; [|exact Vg].
  rewrite calc_split, E by discriminate. unfold calculate_dmd_grating, grating_random, guard_p.
  destruct (Req_EM_T (d_p d) 0); [contradiction|]. rewrite G. cbn [rmap rbind to_dstate]. unfold result, norm_const, s.
  destruct (Req_EM_T (scaling_factor (d_slm d)) 0); reflexivity.
Qed.

(** Bright input: finite maximum, amplitudes in [0, 1]. *)
Section Bright.
Hypothesis (Hny : (0 < ny)%nat) (Hnx : (0 < nx)%nat).
Hypothesis (HF0 : forall i j, (i < ny)%nat -> (j < nx)%nat -> F i j <> RtoC 0).
Hypothesis (HS0 : exists i j, (i < ny)%nat /\ (j < nx)%nat /\ spectrum i j <> RtoC 0).
Lemma ratio_fin i j : (i < ny)%nat -> (j < nx)%nat -> safe_ratio (Cmod (spectrum i j)) (Cmod (F i j)) = Fin (Cmod (spectrum i j) / Cmod (F i j)).
Proof.
  intros Hi Hj. unfold safe_ratio. destruct (Req_EM_T (Cmod (spectrum i j)) 0) as [E|E].
  - rewrite E. f_equal. unfold Rdiv. ring.
  - cbn [xdiv]. destruct (Req_EM_T (Cmod (F i j)) 0) as [E'|E']; [|reflexivity]. apply Cmod_eq_0 in E'. destruct (HF0 i j Hi Hj E').
Qed.
Lemma Cmod_pos_neq (z : C) : z <> RtoC 0 -> 0 < Cmod z.
Proof. intros H. destruct (Cmod_ge_0 z) as [P|P]; [exact P|]. symmetry in P. apply Cmod_eq_0 in P. contradiction. Qed.
Lemma ratio_max_fin : exists M, ratio_max = Fin M /\ 0 < M /\
  (forall i j, (i < ny)%nat -> (j < nx)%nat -> Cmod (spectrum i j) / Cmod (F i j) <= M) /\
  exists i j, (i < ny)%nat /\ (j < nx)%nat /\ Cmod (spectrum i j) / Cmod (F i j) = M.
Proof.
  unfold ratio_max. rewrite (xmax2_ext _ (fun i j => Fin (Cmod (spectrum i j) / Cmod (F i j))) ny nx ratio_fin).
  destruct (xmax2_fin (fun i j => Cmod (spectrum i j) / Cmod (F i j)) ny nx Hny Hnx) as (M & E & H1 & H2).
  exists M. split; [exact E|]. split; [|auto]. destruct HS0 as (i & j & Hi & Hj & Hz).
  eapply Rlt_le_trans; [|apply (H1 i j Hi Hj)]. apply Rdiv_lt_0_compat; apply Cmod_pos_neq; auto.
Qed.
Definition amplitude (M : R) (i j : nat) : R := Cmod (spectrum i j) / Cmod (F i j) / M.
Lemma amp_fin M i j : ratio_max = Fin M -> 0 < M -> (i < ny)%nat -> (j < nx)%nat ->
  xdiv (safe_ratio (Cmod (spectrum i j)) (Cmod (F i j))) ratio_max = Fin (amplitude M i j).
Proof.
  intros -> HM Hi Hj. rewrite ratio_fin by assumption. cbn [xdiv]. destruct (Req_EM_T M 0); [lra|]. reflexivity.
Qed.
End Bright.
End Calc.
