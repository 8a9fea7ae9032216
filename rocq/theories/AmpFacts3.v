(** The hologram in Fourier and image plane (C35 formula, C36), dark pixels (C37), zero targets (C38). *)
From Coq Require Import Reals Lra ZArith Arith List Bool Lia FunctionalExtensionality.
From Coquelicot Require Import Complex.
From Verif Require Import Cx Sums DFT PyBase ProfileModel SlmModel LibModel DmdModel OriginFacts SimModel SimSpec GridFacts SimFacts SimFacts2 DmdSpec DmdFacts DmdFacts2 DmdFacts3 RandomFacts AmpFacts AmpFacts2.
Import ListNotations.
Open Scope R_scope.

Lemma wave_kern ny nx i j u v : wave ny nx i j u v = kern ny nx i j u v.
Proof. reflexivity. Qed.
Lemma wave_sym ny nx i j u v : wave ny nx i j u v = wave ny nx u v i j.
Proof. unfold wave. f_equal. rewrite (Z.mul_comm (centred ny i)), (Z.mul_comm (centred nx j)). reflexivity. Qed.
Lemma spectrum_fp ny nx T i j : (i < ny)%nat -> (j < nx)%nat -> target_fp ny nx T i j = spectrum_of ny nx T i j.
Proof.
  intros Hi Hj. rewrite target_fp_sum by assumption. apply csum2_ext. intros u v _ _. f_equal. f_equal. rewrite wave_sym. reflexivity.
Qed.
Lemma image_of_to_image ny nx E u v : (u < ny)%nat -> (v < nx)%nat -> fftshift2 ny nx (ifft2 ny nx (ifftshift2 ny nx E)) u v = image_of ny nx E u v.
Proof. intros Hu Hv. rewrite to_image_centred by assumption. reflexivity. Qed.
Lemma image_of_ext ny nx E E' u v : (forall i j, (i < ny)%nat -> (j < nx)%nat -> E i j = E' i j) -> image_of ny nx E u v = image_of ny nx E' u v.
Proof. intros H. unfold image_of. f_equal. apply csum2_ext. intros i j Hi Hj. rewrite H by assumption. reflexivity. Qed.
Lemma image_of_spectrum ny nx T u v : (u < ny)%nat -> (v < nx)%nat -> image_of ny nx (spectrum_of ny nx T) u v = T u v.
Proof.
  intros Hu Hv. rewrite <- (to_image_fp ny nx T u v Hu Hv), image_of_to_image by assumption.
  apply image_of_ext. intros i j Hi Hj. symmetry. apply spectrum_fp; assumption.
Qed.
Lemma spectrum_nonzero ny nx T u v : (u < ny)%nat -> (v < nx)%nat -> T u v <> RtoC 0 ->
  exists i j, (i < ny)%nat /\ (j < nx)%nat /\ spectrum_of ny nx T i j <> RtoC 0.
Proof.
  intros Hu Hv H. destruct (fp_nonzero ny nx T u v Hu Hv H) as (i & j & Hi & Hj & E). exists i, j. rewrite spectrum_fp in E by assumption. auto.
Qed.

(** ** Displacement by a carrier *)
Lemma wave_shift ny nx i j u v (a b : Z) : (i < ny)%nat -> (j < nx)%nat ->
  wave ny nx i j (Z.to_nat ((Z.of_nat u + b) mod Z.of_nat ny)) (Z.to_nat ((Z.of_nat v - a) mod Z.of_nat nx))
  = (wave ny nx i j u v * cis (2 * PI * (IZR (centred ny i * b) / INR ny - IZR (centred nx j * a) / INR nx)))%C.
Proof.
  intros Hi Hj. unfold wave. rewrite <- cis_plus. apply cis_int_shift.
  assert (Hy : INR ny <> 0) by (apply INR_neq_0; lia). assert (Hx : INR nx <> 0) by (apply INR_neq_0; lia).
  exists (- (centred ny i * ((Z.of_nat u + b) / Z.of_nat ny)) - centred nx j * ((Z.of_nat v - a) / Z.of_nat nx))%Z.
  generalize (centred ny i) (centred nx j). intros ci cj. unfold centred. rewrite !Z2Nat.id by (apply Z.mod_pos_bound; lia).
  assert (E1 := Z.div_mod (Z.of_nat u + b) (Z.of_nat ny) ltac:(lia)). assert (E2 := Z.div_mod (Z.of_nat v - a) (Z.of_nat nx) ltac:(lia)).
  set (m1 := ((Z.of_nat u + b) mod Z.of_nat ny)%Z) in *. set (m2 := ((Z.of_nat v - a) mod Z.of_nat nx)%Z) in *.
  set (q1 := ((Z.of_nat u + b) / Z.of_nat ny)%Z) in *. set (q2 := ((Z.of_nat v - a) / Z.of_nat nx)%Z) in *.
  replace m1 with (Z.of_nat u + b - Z.of_nat ny * q1)%Z by lia. replace m2 with (Z.of_nat v - a - Z.of_nat nx * q2)%Z by lia.
  repeat rewrite ?minus_IZR, ?opp_IZR, ?mult_IZR, ?plus_IZR. rewrite <- ?INR_IZR_INZ. field. split; assumption.
Qed.
Lemma image_of_carrier ny nx E (g : nat -> nat -> R) (a b : Z) u v :
  (forall i j, (i < ny)%nat -> (j < nx)%nat -> g i j = 2 * PI * (IZR a * (INR j - INR nx / 2) / INR nx + IZR b * (INR ny / 2 - INR i) / INR ny)) ->
  (u < ny)%nat -> (v < nx)%nat ->
  image_of ny nx (fun i j => (E i j * cis (- g i j))%C) u v = (half_pixel_phase ny nx a b * displaced ny nx a b (image_of ny nx E) u v)%C.
Proof.
  intros Hg Hu Hv. unfold displaced, image_of.
  assert (Hy : INR ny <> 0) by (apply INR_neq_0; lia). assert (Hx : INR nx <> 0) by (apply INR_neq_0; lia).
  rewrite (csum2_ext ny nx _ (fun i j => half_pixel_phase ny nx a b * (E i j * wave ny nx i j (Z.to_nat ((Z.of_nat u + b) mod Z.of_nat ny)) (Z.to_nat ((Z.of_nat v - a) mod Z.of_nat nx))))%C).
  - rewrite csum2_scal_l. unfold Cdiv. ring.
  - intros i j Hi Hj. rewrite wave_shift, (Hg i j Hi Hj) by assumption.
    replace (- (2 * PI * (IZR a * (INR j - INR nx / 2) / INR nx + IZR b * (INR ny / 2 - INR i) / INR ny)))
      with (2 * PI * ((INR nx / 2 - INR (nx / 2)) * IZR a / INR nx - (INR ny / 2 - INR (ny / 2)) * IZR b / INR ny)
          + 2 * PI * (IZR (centred ny i * b) / INR ny - IZR (centred nx j * a) / INR nx)).
    + rewrite cis_plus. fold (half_pixel_phase ny nx a b). ring.
    + unfold centred. rewrite !mult_IZR, !minus_IZR, <- !INR_IZR_INZ. field. split; assumption.
Qed.
Lemma half_pixel_even ny nx a b : Nat.even ny = true -> Nat.even nx = true -> half_pixel_phase ny nx a b = RtoC 1.
Proof.
  intros Hy Hx. unfold half_pixel_phase. rewrite (even_half ny Hy), (even_half nx Hx).
  replace (2 * PI * _) with 0 by (unfold Rdiv; ring). apply cis_0.
Qed.
Lemma carrier_integer d a b : d_p d <> 0 -> scaling_factor (d_slm d) <> 0 -> pixel_size (d_slm d) <> 0 ->
  (0 < s_Ny (d_slm d))%nat -> (0 < s_Nx (d_slm d))%nat ->
  origin_of d = (IZR a * image_pitch_x (d_slm d), IZR b * image_pitch_y (d_slm d)) ->
  forall i j, carrier d i j = 2 * PI * (IZR a * (INR j - INR (s_Nx (d_slm d)) / 2) / INR (s_Nx (d_slm d)) + IZR b * (INR (s_Ny (d_slm d)) / 2 - INR i) / INR (s_Ny (d_slm d))).
Proof.
  intros Hp Hs Hps Hy Hx H i j. unfold origin_of, image_pitch_x, image_pitch_y in H.
  assert (Ny0 : INR (s_Ny (d_slm d)) <> 0) by (apply INR_neq_0; exact Hy). assert (Nx0 : INR (s_Nx (d_slm d)) <> 0) by (apply INR_neq_0; exact Hx).
  injection H as H1 H2. unfold carrier, mirror_x, mirror_y.
  set (S := scaling_factor (d_slm d)) in *. set (ps := pixel_size (d_slm d)) in *. set (p := d_p d) in *.
  set (X := INR (s_Nx (d_slm d))) in *. set (Y := INR (s_Ny (d_slm d))) in *.
  assert (E1 : cos (d_theta d) = IZR a * p / (X * ps)).
  { transitivity (cos (d_theta d) * S / p * p / S); [field; auto|]. rewrite H1. field. auto. }
  assert (E2 : sin (d_theta d) = IZR b * p / (Y * ps)).
  { transitivity (sin (d_theta d) * S / p * p / S); [field; auto|]. rewrite H2. field. auto. }
  rewrite E1, E2. field. auto.
Qed.

(** ** The spectrum used by the hologram, in specification terms. *)
Lemma spectrum_windowed d T W i j : (i < s_Ny (d_slm d))%nat -> (j < s_Nx (d_slm d))%nat -> spectrum d T W i j = windowed d T W i j.
Proof. intros Hi Hj. unfold spectrum, windowed. rewrite spectrum_fp by assumption. reflexivity. Qed.

Section Holo.
Variables (h : heap) (d : dmd) (input target : parg) (w : option parg) (F T W : nat -> nat -> C) (kw : kwargs) (u : nat -> nat -> R).
Let s := d_slm d. Let ny := s_Ny (d_slm d). Let nx := s_Nx (d_slm d).
Hypothesis (HF : full_input h (d_slm d) input F) (HT : full_target h (d_slm d) target T) (HW : window_reads h (d_slm d) w W) (Hp : d_p d <> 0).
Hypothesis (Hny : (0 < ny)%nat) (Hnx : (0 < nx)%nat) (Hsf : scaling_factor (d_slm d) <> 0).
Let S := windowed d T W.
Lemma ratio_max_spec : ratio_max d F T W = xmax2 (fun i j => safe_ratio (Cmod (S i j)) (Cmod (F i j))) ny nx.
Proof. unfold ratio_max. apply xmax2_ext. intros i j Hi Hj. rewrite spectrum_windowed by assumption. reflexivity. Qed.

(** *** Usable case: wherever the input is dark the spectrum vanishes. *)
Section Usable.
Hypothesis (Hdark : forall i j, (i < ny)%nat -> (j < nx)%nat -> F i j = RtoC 0 -> S i j = RtoC 0).
Hypothesis (HS : exists i j, (i < ny)%nat /\ (j < nx)%nat /\ S i j <> RtoC 0).
Definition amp_at (M : R) (i j : nat) : R := Cmod (S i j) / Cmod (F i j) / M.
Lemma usable_ratio i j : (i < ny)%nat -> (j < nx)%nat -> safe_ratio (Cmod (S i j)) (Cmod (F i j)) = Fin (Cmod (S i j) / Cmod (F i j)).
Proof.
  intros Hi Hj. unfold safe_ratio. destruct (Req_EM_T (Cmod (S i j)) 0) as [E|E].
  - rewrite E. f_equal. unfold Rdiv. ring.
  - cbn [xdiv]. destruct (Req_EM_T (Cmod (F i j)) 0) as [E'|E']; [|reflexivity]. apply Cmod_eq_0 in E'.
    exfalso. apply E. rewrite (Hdark i j Hi Hj E'). apply Cmod_0.
Qed.
Lemma usable_max : exists M, ratio_max d F T W = Fin M /\ 0 < M /\
  (forall i j, (i < ny)%nat -> (j < nx)%nat -> 0 <= amp_at M i j <= 1) /\
  (exists i j, (i < ny)%nat /\ (j < nx)%nat /\ amp_at M i j = 1).
Proof.
  rewrite ratio_max_spec. rewrite (xmax2_ext _ (fun i j => Fin (Cmod (S i j) / Cmod (F i j))) ny nx usable_ratio).
  destruct (xmax2_fin (fun i j => Cmod (S i j) / Cmod (F i j)) ny nx Hny Hnx) as (M & E & H1 & i1 & j1 & I1 & J1 & E1).
  assert (HM : 0 < M).
  { destruct HS as (i & j & Hi & Hj & Hz). eapply Rlt_le_trans; [|apply (H1 i j Hi Hj)].
    apply Rdiv_lt_0_compat; apply Cmod_pos_neq; [exact Hz|]. intros H. apply Hz. apply Hdark; assumption. }
  exists M. split; [exact E|]. split; [exact HM|]. split.
  - intros i j Hi Hj. unfold amp_at. assert (H := H1 i j Hi Hj).
    assert (0 <= Cmod (S i j) / Cmod (F i j)).
    { destruct (Req_EM_T (Cmod (F i j)) 0) as [Z|Z].
      - rewrite Hdark, Cmod_0 by (auto using Cmod_eq_0). unfold Rdiv. lra.
      - unfold Rdiv. apply Rmult_le_pos; [apply Cmod_ge_0|]. apply Rlt_le, Rinv_0_lt_compat. assert (P := Cmod_ge_0 (F i j)). lra. }
    split; [unfold Rdiv at 1; apply Rmult_le_pos; [assumption|apply Rlt_le, Rinv_0_lt_compat; exact HM]|]. apply Rmult_le_reg_r with M; [exact HM|]. unfold Rdiv at 1. rewrite Rmult_assoc, Rinv_l by lra. lra.
  - exists i1, j1. split; [exact I1|]. split; [exact J1|]. unfold amp_at. rewrite E1. field. lra.
Qed.
Lemma usable_amp M i j : ratio_max d F T W = Fin M -> 0 < M -> (i < ny)%nat -> (j < nx)%nat ->
  xdiv (safe_ratio (Cmod (spectrum d T W i j)) (Cmod (F i j))) (ratio_max d F T W) = Fin (amp_at M i j).
Proof.
  intros -> HM Hi Hj. rewrite spectrum_windowed by assumption. fold S. rewrite usable_ratio by assumption. cbn [xdiv].
  destruct (Req_EM_T M 0); [lra|]. reflexivity.
Qed.
Lemma usable_result M : ratio_max d F T W = Fin M -> 0 < M -> result d F T W = Ok (Fin (norm_const d / M)).
Proof.
  intros E HM. unfold result. destruct (Req_EM_T (scaling_factor (d_slm d)) 0); [contradiction|]. rewrite E. cbn [py_div].
  destruct (Req_EM_T M 0); [lra|]. reflexivity.
Qed.
(** The amplitude and the three mirror patterns. *)
Lemma usable_hologram : exists M, 0 < M /\
  (forall i j, (i < ny)%nat -> (j < nx)%nat -> 0 <= amp_at M i j <= 1) /\
  (exists i j, (i < ny)%nat /\ (j < nx)%nat /\ amp_at M i j = 1) /\
  (exists g, calculate_dmd_state h d input target MIdeal w kw u = (with_state d (DFloat ny nx g), Ok (Fin (norm_const d / M))) /\
     forall i j, (i < ny)%nat -> (j < nx)%nat ->
       g i j = Fin (amp_at M i j * (cos (carrier d i j - signed (d_neg d) (phase_of (S i j) - carg (F i j))) / 2 + 1 / 2))) /\
  (exists g, calculate_dmd_state h d input target MSimple w kw u = (with_state d (DBool ny nx g), Ok (Fin (norm_const d / M))) /\
     forall i j, (i < ny)%nat -> (j < nx)%nat ->
       (g i j = true <-> 1 / 2 < amp_at M i j * (cos (carrier d i j - signed (d_neg d) (phase_of (S i j) - carg (F i j))) / 2 + 1 / 2))) /\
  (exists g, calculate_dmd_state h d input target MRandom w kw u = (with_state d (DBool ny nx g), Ok (Fin (norm_const d / M))) /\
     forall i j, (i < ny)%nat -> (j < nx)%nat ->
       (g i j = true <-> u i j < duty (dflt (k_r kw) 10) (acos (cos (carrier d i j - signed (d_neg d) (phase_of (S i j) - carg (F i j))))) (amp_at M i j))).
Proof.
  destruct usable_max as (M & EM & HM & H1 & H2). exists M. split; [exact HM|]. split; [exact H1|]. split; [exact H2|].
  assert (R := usable_result M EM HM). split; [|split].
  - destruct (calc_ideal h d input target w F T W kw u HF HT HW Hp) as (g & E & V). exists g. rewrite R in E. split; [exact E|].
    intros i j Hi Hj. rewrite V, usable_amp with (M := M) by assumption. cbn [xscale]. rewrite spectrum_windowed by assumption. reflexivity.
  - destruct (calc_simple h d input target w F T W kw u HF HT HW Hp) as (g & E & V). exists g. rewrite R in E. split; [exact E|].
    intros i j Hi Hj. rewrite V, usable_amp with (M := M) by assumption. cbn [xscale xgtb]. rewrite spectrum_windowed by assumption. fold S.
    match goal with |- context [Rlt_dec ?a ?b] => destruct (Rlt_dec a b) end; split; intros; auto; discriminate.
  - destruct (calc_random h d input target w F T W kw u HF HT HW Hp) as (g & E & V). exists g. rewrite R in E. split; [exact E|].
    intros i j Hi Hj. rewrite V, usable_amp with (M := M) by assumption. unfold px_random. rewrite random_duty_in by (apply H1; assumption).
    cbn [xgtb]. rewrite carrier_phase, rel_phase_signed, spectrum_windowed by assumption. fold S.
    match goal with |- context [Rlt_dec ?a ?b] => destruct (Rlt_dec a b) end; split; intros; auto; discriminate.
Qed.
End Usable.

(** *** A dark pixel the target needs: everything is lost. *)
Section Dark.
Hypothesis (HD : exists i j, (i < ny)%nat /\ (j < nx)%nat /\ F i j = RtoC 0 /\ S i j <> RtoC 0).
Lemma ratio_cases i j : (i < ny)%nat -> (j < nx)%nat ->
  (exists r, safe_ratio (Cmod (S i j)) (Cmod (F i j)) = Fin r) \/ safe_ratio (Cmod (S i j)) (Cmod (F i j)) = PInf.
Proof.
  intros Hi Hj. unfold safe_ratio. destruct (Req_EM_T (Cmod (S i j)) 0) as [E|E]; [eauto|]. cbn [xdiv].
  destruct (Req_EM_T (Cmod (F i j)) 0); [|eauto]. assert (P := Cmod_ge_0 (S i j)). destruct (Rlt_dec 0 (Cmod (S i j))); [auto|lra].
Qed.
Lemma dark_max : ratio_max d F T W = PInf.
Proof.
  rewrite ratio_max_spec. destruct HD as (i & j & Hi & Hj & E & Hz). apply (xmax2_pinf _ ny nx i j); [|exact Hi|exact Hj|].
  - intros a b Ha Hb. destruct (ratio_cases a b Ha Hb) as [[r ->]| ->]; discriminate.
  - unfold safe_ratio. assert (P := Cmod_pos_neq _ Hz). destruct (Req_EM_T (Cmod (S i j)) 0); [lra|]. rewrite E, Cmod_0. cbn [xdiv].
    destruct (Req_EM_T 0 0); [|lra]. destruct (Rlt_dec 0 (Cmod (S i j))); [reflexivity|lra].
Qed.
Lemma dark_amp i j : (i < ny)%nat -> (j < nx)%nat ->
  xdiv (safe_ratio (Cmod (spectrum d T W i j)) (Cmod (F i j))) (ratio_max d F T W) = Fin 0 \/
  xdiv (safe_ratio (Cmod (spectrum d T W i j)) (Cmod (F i j))) (ratio_max d F T W) = NaN.
Proof.
  intros Hi Hj. rewrite dark_max, spectrum_windowed by assumption. fold S. destruct (ratio_cases i j Hi Hj) as [[r ->]| ->]; cbn; auto.
Qed.
Lemma dark_result : result d F T W = Ok (Fin 0).
Proof. unfold result. destruct (Req_EM_T (scaling_factor (d_slm d)) 0); [contradiction|]. rewrite dark_max. reflexivity. Qed.
Lemma dark_hologram :
  (exists g, calculate_dmd_state h d input target MIdeal w kw u = (with_state d (DFloat ny nx g), Ok (Fin 0)) /\
     forall i j, (i < ny)%nat -> (j < nx)%nat -> g i j = Fin 0 \/ g i j = NaN) /\
  (exists g, calculate_dmd_state h d input target MSimple w kw u = (with_state d (DBool ny nx g), Ok (Fin 0)) /\
     forall i j, (i < ny)%nat -> (j < nx)%nat -> g i j = false) /\
  ((forall i j, 0 <= u i j) ->
   exists g, calculate_dmd_state h d input target MRandom w kw u = (with_state d (DBool ny nx g), Ok (Fin 0)) /\
     forall i j, (i < ny)%nat -> (j < nx)%nat -> g i j = false).
Proof.
  split; [|split].
  - destruct (calc_ideal h d input target w F T W kw u HF HT HW Hp) as (g & E & V). exists g. rewrite dark_result in E. split; [exact E|].
    intros i j Hi Hj. rewrite V by assumption. destruct (dark_amp i j Hi Hj) as [-> | ->]; cbn [xscale]; [left|right; reflexivity].
    f_equal. ring.
  - destruct (calc_simple h d input target w F T W kw u HF HT HW Hp) as (g & E & V). exists g. rewrite dark_result in E. split; [exact E|].
    intros i j Hi Hj. rewrite V by assumption. destruct (dark_amp i j Hi Hj) as [-> | ->]; cbn [xscale xgtb]; [|reflexivity].
    rewrite Rmult_0_l. destruct (Rlt_dec (1 / 2) 0); [lra|reflexivity].
  - intros Hu. destruct (calc_random h d input target w F T W kw u HF HT HW Hp) as (g & E & V). exists g. rewrite dark_result in E. split; [exact E|].
    intros i j Hi Hj. rewrite V by assumption. unfold px_random. destruct (dark_amp i j Hi Hj) as [-> | ->].
    + rewrite random_duty_in by lra. rewrite duty_zero. cbn [xgtb]. destruct (Rlt_dec (u i j) 0) as [L|]; [|reflexivity]. specialize (Hu i j). lra.
    + unfold random_duty. cbn [xasin xgtb]. reflexivity.
Qed.
End Dark.

(** *** A target without any light (in the window): the state is overwritten and the call raises. *)
Section Zero.
Hypothesis (HZ : forall i j, (i < ny)%nat -> (j < nx)%nat -> S i j = RtoC 0).
Lemma zero_ratio i j : (i < ny)%nat -> (j < nx)%nat -> safe_ratio (Cmod (S i j)) (Cmod (F i j)) = Fin 0.
Proof. intros Hi Hj. rewrite HZ by assumption. rewrite Cmod_0. unfold safe_ratio. destruct (Req_EM_T 0 0); [reflexivity|lra]. Qed.
Lemma zero_max : ratio_max d F T W = Fin 0.
Proof.
  rewrite ratio_max_spec. rewrite (xmax2_ext _ (fun i j => Fin ((fun _ _ => 0) i j)) ny nx zero_ratio).
  destruct (xmax2_fin (fun _ _ => 0) ny nx Hny Hnx) as (M & E & _ & _ & _ & _ & _ & <-). exact E.
Qed.
Lemma zero_amp i j : (i < ny)%nat -> (j < nx)%nat -> xdiv (safe_ratio (Cmod (spectrum d T W i j)) (Cmod (F i j))) (ratio_max d F T W) = NaN.
Proof.
  intros Hi Hj. rewrite zero_max, spectrum_windowed by assumption. fold S. rewrite zero_ratio by assumption. cbn [xdiv].
  destruct (Req_EM_T 0 0); [|lra]. destruct (Rlt_dec 0 0); [lra|reflexivity].
Qed.
Lemma zero_result : result d F T W = Err ZeroDivisionError.
Proof. unfold result. destruct (Req_EM_T (scaling_factor (d_slm d)) 0); [reflexivity|]. rewrite zero_max. cbn. destruct (Req_EM_T 0 0); [reflexivity|lra]. Qed.
Lemma zero_hologram :
  (exists g, calculate_dmd_state h d input target MIdeal w kw u = (with_state d (DFloat ny nx g), Err ZeroDivisionError) /\
     forall i j, (i < ny)%nat -> (j < nx)%nat -> g i j = NaN) /\
  (exists g, calculate_dmd_state h d input target MSimple w kw u = (with_state d (DBool ny nx g), Err ZeroDivisionError) /\
     forall i j, (i < ny)%nat -> (j < nx)%nat -> g i j = false) /\
  (exists g, calculate_dmd_state h d input target MRandom w kw u = (with_state d (DBool ny nx g), Err ZeroDivisionError) /\
     forall i j, (i < ny)%nat -> (j < nx)%nat -> g i j = false).
Proof.
  split; [|split].
  - destruct (calc_ideal h d input target w F T W kw u HF HT HW Hp) as (g & E & V). exists g. rewrite zero_result in E. split; [exact E|].
    intros i j Hi Hj. rewrite V, zero_amp by assumption. reflexivity.
  - destruct (calc_simple h d input target w F T W kw u HF HT HW Hp) as (g & E & V). exists g. rewrite zero_result in E. split; [exact E|].
    intros i j Hi Hj. rewrite V, zero_amp by assumption. reflexivity.
  - destruct (calc_random h d input target w F T W kw u HF HT HW Hp) as (g & E & V). exists g. rewrite zero_result in E. split; [exact E|].
    intros i j Hi Hj. rewrite V, zero_amp by assumption. reflexivity.
Qed.
End Zero.
End Holo.
