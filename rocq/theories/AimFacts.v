(** MRAF lowers the error inside its window, measured against the scaled target (C128). *)
From Coq Require Import Reals Lra Psatz ZArith Arith List Bool Lia.
From Coquelicot Require Import Complex.
From Verif Require Import Cx Sums DFT PyBase ProfileModel SlmModel LibModel DmdModel SimModel SimSpec GridFacts SimFacts SimFacts2 SimExamples DmdSpec DmdFacts DmdFacts2 DmdFacts3 DmdExamples AmpFacts AmpFacts3 AmpFacts5 HoloSpec HoloFacts HoloFacts2 HoloThms HoloExamples StallSpec StallFacts AimSpec.
Open Scope R_scope.

(** ** The mixing factor is a scale of the target *)
Lemma scaled_step ny nx F Tc W m ph i j : 0 <= m < 1 ->
  mraf_step ny nx F Tc W m ph i j = mraf_step ny nx F (fun i j => m / (1 - m) * Tc i j) W (1 / 2) ph i j.
Proof.
  intros Hm. unfold mraf_step. set (im := ifft2 ny nx _).
  rewrite (fft2_ext ny nx _ (fun i j => (RtoC (2 * (1 - m)) * (RtoC (1 / 2) * RtoC (m / (1 - m) * Tc i j) * cis (carg (im i j)) * W i j + RtoC (1 - 1 / 2) * im i j * (RtoC 1 - W i j)))%C)).
  - rewrite fft2_scal. apply carg_scale. lra.
  - intros k q _ _. replace (1 - 1 / 2) with (1 / 2) by lra.
    assert (E1 : RtoC (1 - m) = (RtoC (2 * (1 - m)) * RtoC (1 / 2))%C) by (rewrite <- RtoC_mult; f_equal; lra).
    assert (E2 : (RtoC m * RtoC (Tc k q))%C = (RtoC (2 * (1 - m)) * (RtoC (1 / 2) * RtoC (m / (1 - m) * Tc k q)))%C) by (rewrite <- !RtoC_mult; f_equal; field; lra).
    rewrite E2, E1. ring.
Qed.
Lemma mixing_is_scale h l input target target' w F T W u N m : full_input h (l_slm l) input F -> real_target h (l_slm l) target T -> full_target h (l_slm l) w W ->
  real_target h (l_slm l) target' (fun i j => m / (1 - m) * T i j) -> 0 <= m < 1 ->
  same_hologram (l_slm l) (calculate_hologram h l input target MMraf (mraf_kwargs N w m) u) (calculate_hologram h l input target' MMraf (mraf_kwargs N w (1 / 2)) u).
Proof.
  intros HF HT HW HT' Hm. do 2 eexists. split; [eapply mraf_stores; try eassumption; reflexivity|]. split; [eapply mraf_stores; try eassumption; reflexivity|].
  cbn [mraf_kwargs lk_N lk_mix dflt]. intros i j [Hi Hj]. revert i j Hi Hj. unfold mraf_array. apply iter_agree.
  intros a b Hab i j Hi Hj. rewrite (scaled_step _ _ F _ _ m a i j Hm). unfold ifftshift2, mraf_step. f_equal. apply fft2_ext. intros k q Hk Hq. rewrite (ifft2_modulated_ext _ _ F a b k q Hab). reflexivity.
Qed.

(** ** One iteration *)
Lemma majorise (w : R) (z z' k : C) : 0 <= w <= 1 ->
  w * cnorm2 (z' - k)%C <= w * cnorm2 (z - k)%C + cnorm2 (z' - (z + RtoC w * (k - z)))%C - cnorm2 (z - (z + RtoC w * (k - z)))%C.
Proof.
  intros Hw. assert (E : w * cnorm2 (z - k)%C + cnorm2 (z' - (z + RtoC w * (k - z)))%C - cnorm2 (z - (z + RtoC w * (k - z)))%C - w * cnorm2 (z' - k)%C = (1 - w) * cnorm2 (z' - z)%C).
  { destruct z as [a b], z' as [c d], k as [e f]. unfold cnorm2, RtoC, Cminus, Cplus, Copp, Cmult. cbn [fst snd]. ring. }
  assert (0 <= (1 - w) * cnorm2 (z' - z)%C) by (apply Rmult_le_pos; [lra|apply cnorm2_ge_0]). lra.
Qed.
Definition raw_werror (ny nx : nat) (F : nat -> nat -> C) (W Tc ph : nat -> nat -> R) : R :=
  rsum2 ny nx (fun i j => W i j * (Cmod (ifft2 ny nx (fun i j => (F i j * cis (ph i j))%C) i j) - Tc i j) ^ 2).
Section Raw.
Variables (ny nx : nat) (F : nat -> nat -> C) (A : nat -> nat -> R) (c m : R) (W Tc ph : nat -> nat -> R).
Hypothesis HF : forall i j, (i < ny)%nat -> (j < nx)%nat -> F i j = (RtoC (A i j) * cis c)%C.
Hypothesis HT : forall i j, (i < ny)%nat -> (j < nx)%nat -> 0 <= Tc i j.
Hypothesis HW : forall i j, (i < ny)%nat -> (j < nx)%nat -> 0 <= W i j <= 1.
Hypothesis Hm : 0 <= m < 1.
Definition aim i j := m / (1 - m) * Tc i j.
Definition raw_wback := let img := ifft2 ny nx (fun i j => (F i j * cis (ph i j))%C) in
  fft2 ny nx (fun i j => (img i j + RtoC (W i j) * (RtoC (aim i j) * cis (carg (img i j)) - img i j))%C).
Definition step := mraf_step ny nx F Tc (fun i j => RtoC (W i j)) m ph.
Lemma step_back i j : step i j = carg (raw_wback i j).
Proof.
  unfold step, raw_wback, mraf_step. set (im := ifft2 ny nx _). cbv zeta. etransitivity; [|apply (carg_scale (1 - m)); lra]. f_equal. rewrite <- fft2_scal. apply fft2_ext. intros k q _ _.
  unfold aim. assert (E : RtoC m = (RtoC (1 - m) * RtoC (m / (1 - m)))%C) by (rewrite <- RtoC_mult; f_equal; field; lra). cbv beta. rewrite RtoC_mult, E. ring.
Qed.
Lemma step_gain : (0 < ny)%nat -> (0 < nx)%nat ->
  raw_werror ny nx F W aim step + rsum2 ny nx (fun i j => A i j * Cmod (raw_wback i j) * Cmod (cis (step i j) - cis (c + ph i j))%C ^ 2) / INR (ny * nx) <= raw_werror ny nx F W aim ph.
Proof.
  intros Hy Hx. set (img := ifft2 ny nx (fun i j => (F i j * cis (ph i j))%C)).
  set (K := fun i j => (RtoC (aim i j) * cis (carg (img i j)))%C). set (cor := fun i j => (img i j + RtoC (W i j) * (K i j - img i j))%C).
  set (G := raw_wback). assert (EG : G = fft2 ny nx cor) by reflexivity. assert (Eph : forall i j, step i j = carg (G i j)) by (intros; apply step_back).
  set (ph' := step) in *. clearbody ph'. set (img' := ifft2 ny nx (fun i j => (RtoC (A i j) * cis (ph' i j))%C)).
  assert (HN : 0 < INR (ny * nx)) by (apply lt_0_INR; nia).
  assert (HA : forall i j, (i < ny)%nat -> (j < nx)%nat -> 0 <= aim i j).
  { intros i j Hi Hj. unfold aim. apply Rmult_le_pos; [|apply HT; assumption]. apply Rmult_le_pos; [lra|]. left. apply Rinv_0_lt_compat. lra. }
  assert (S1 : raw_werror ny nx F W aim ph' <= rsum2 ny nx (fun i j => W i j * cnorm2 (img' i j - K i j)%C)).
  { apply rsum2_le. intros i j Hi Hj. apply Rmult_le_compat_l; [apply HW; assumption|].
    assert (E : Cmod (ifft2 ny nx (fun i j => (F i j * cis (ph' i j))%C) i j) = Cmod (img' i j)).
    { rewrite (ifft2_ext ny nx _ (fun i j => (cis c * (RtoC (A i j) * cis (ph' i j)))%C)) by (intros; rewrite HF by assumption; ring). rewrite ifft2_scal, Cmod_mult, Cmod_cis. unfold img'. ring. }
    rewrite E. replace (aim i j) with (Cmod (K i j)); [apply circle_lower|]. unfold K. rewrite Cmod_mult, Cmod_cis, Cmod_R, Rabs_pos_eq by auto. ring. }
  assert (S2 : forall f, INR (ny * nx) * rsum2 ny nx (fun i j => cnorm2 (ifft2 ny nx f i j - cor i j)%C) = rsum2 ny nx (fun i j => cnorm2 (f i j - G i j)%C)).
  { intros f. rewrite <- (ifft2_parseval ny nx (fun i j => (f i j - G i j)%C)). f_equal. apply rsum2_ext. intros i j Hi Hj.
    rewrite ifft2_minus, EG, ifft2_fft2 by assumption. reflexivity. }
  assert (S3 : rsum2 ny nx (fun i j => cnorm2 (RtoC (A i j) * cis (ph' i j) - G i j)%C) + rsum2 ny nx (fun i j => A i j * Cmod (G i j) * Cmod (cis (ph' i j) - cis (c + ph i j))%C ^ 2) = rsum2 ny nx (fun i j => cnorm2 (F i j * cis (ph i j) - G i j)%C)).
  { rewrite <- rsum2_plus. apply rsum2_ext. intros i j Hi Hj. rewrite HF, Eph by assumption. rewrite <- Cmult_assoc, <- cis_plus. rewrite (phase_gain (A i j) (c + ph i j)), <- cnorm2_Cmod. reflexivity. }
  assert (S4 : rsum2 ny nx (fun i j => W i j * cnorm2 (img i j - K i j)%C) = raw_werror ny nx F W aim ph).
  { apply rsum2_ext. intros i j Hi Hj. f_equal. apply near_circle; auto. }
  assert (S5 : rsum2 ny nx (fun i j => W i j * cnorm2 (img' i j - K i j)%C) + rsum2 ny nx (fun i j => cnorm2 (img i j - cor i j)%C) <= rsum2 ny nx (fun i j => W i j * cnorm2 (img i j - K i j)%C) + rsum2 ny nx (fun i j => cnorm2 (img' i j - cor i j)%C)).
  { rewrite <- !rsum2_plus. apply rsum2_le. intros i j Hi Hj. assert (M := majorise (W i j) (img i j) (img' i j) (K i j) (HW i j Hi Hj)). fold (cor i j) in M. lra. }
  assert (E1 := S2 (fun i j => (RtoC (A i j) * cis (ph' i j))%C)). assert (E2 := S2 (fun i j => (F i j * cis (ph i j))%C)). cbn beta in E1, E2.
  fold img' in E1. fold img in E2. rewrite S4 in S5. rewrite <- E1, <- E2 in S3.
  set (mv := rsum2 ny nx (fun i j => A i j * _ * _)) in *. set (a := rsum2 ny nx (fun i j => cnorm2 (img' i j - cor i j)%C)) in *. set (b := rsum2 ny nx (fun i j => cnorm2 (img i j - cor i j)%C)) in *.
  assert (Q : mv / INR (ny * nx) = b - a) by (replace mv with (INR (ny * nx) * (b - a)) by lra; field; lra). rewrite Q. lra.
Qed.
End Raw.
Lemma raw_window_error ny nx F W T ph : raw_werror ny nx F (ifftshift2 ny nx W) (ifftshift2 ny nx T) ph = window_error ny nx F W T ph.
Proof.
  unfold raw_werror, window_error. rewrite <- rsum2_fftshift. apply rsum2_ext. intros u v Hu Hv. unfold fftshift2.
  rewrite ifft2_image by assumption. rewrite Cmod_mult, Cmod_offs, Rmult_1_r. unfold ifftshift2. rewrite !ishift_shift by assumption. reflexivity.
Qed.
