(** calculate_hologram at the level of the device object (C40-C44, C58). *)
From Coq Require Import Reals Lra Psatz ZArith Arith List Bool Lia FunctionalExtensionality.
From Coquelicot Require Import Complex.
From Verif Require Import Cx Sums DFT PyBase ProfileModel SlmModel LibModel DmdModel SimModel SimSpec GridFacts SimFacts SimFacts2 DmdSpec DmdFacts DmdFacts2 DmdFacts3 AmpFacts AmpFacts3 AmpFacts4 HoloSpec HoloFacts.
Import ListNotations.
Open Scope R_scope.

Section Dev.
Variables (h : heap) (l : lcos) (input target : parg) (F : nat -> nat -> C) (T : nat -> nat -> R).
Let s := l_slm l.
Hypothesis (HF : full_input h (l_slm l) input F) (HT : real_target h (l_slm l) target T).
Lemma gs_stores kw u : stores (l_slm l) (calculate_hologram h l input target MGs kw u) (gs_array (s_Ny s) (s_Nx s) F T u (dflt (lk_N kw) 200%Z)).
Proof.
  unfold stores, calculate_hologram. unfold full_input in HF. unfold real_target in HT. rewrite HF, HT. cbn [rbind calculate_lcos_hologram stretch].
  rewrite !Nat.eqb_refl. cbn [andb orb]. split; reflexivity.
Qed.
Lemma mraf_stores kw w W u : lk_window kw = Some w -> full_target h (l_slm l) w W ->
  stores (l_slm l) (calculate_hologram h l input target MMraf kw u)
    (mraf_array (s_Ny s) (s_Nx s) F T W (dflt (lk_mix kw) 0.4) u (dflt (lk_N kw) 200%Z)).
Proof.
  intros Ew HW. unfold stores, calculate_hologram. unfold full_input in HF. unfold real_target in HT. unfold full_target in HW.
  rewrite HF, HT, Ew. cbn [rbind]. rewrite HW. cbn [rbind calculate_lcos_hologram stretch]. rewrite !Nat.eqb_refl. cbn [andb orb]. split; reflexivity.
Qed.
Lemma holo_unknown kw u : calculate_hologram h l input target MLUnknown kw u = (l, Err ValueError).
Proof. unfold calculate_hologram. unfold full_input in HF. unfold real_target in HT. rewrite HF, HT. reflexivity. Qed.
Lemma mraf_no_window kw u : lk_window kw = None -> calculate_hologram h l input target MMraf kw u = (l, Err KeyError).
Proof. intros E. unfold calculate_hologram. unfold full_input in HF. unfold real_target in HT. rewrite HF, HT, E. reflexivity. Qed.
End Dev.
Lemma holo_atomic h l i t m kw u l' e : calculate_hologram h l i t m kw u = (l', Err e) -> l' = l.
Proof. unfold calculate_hologram. match goal with |- context [match ?X with Ok _ => _ | Err _ => _ end] => destruct X end; congruence. Qed.

(** ** Ranges *)
Lemma gs_range ny nx F T u N i j : (1 <= N)%Z -> - PI < gs_array ny nx F T u N i j <= PI.
Proof. intros H. unfold gs_array. replace (Z.to_nat N) with (S (Z.to_nat N - 1)) by lia. rewrite iter_S. apply carg_range. Qed.
Lemma mraf_range ny nx F T W m u N i j : (1 <= N)%Z -> - PI < mraf_array ny nx F T W m u N i j <= PI.
Proof. intros H. unfold mraf_array. replace (Z.to_nat N) with (S (Z.to_nat N - 1)) by lia. rewrite iter_S. apply carg_range. Qed.
Lemma zero_range ny nx F T u N i j : (N <= 0)%Z -> 0 <= u i j < 1 ->  0 <= gs_array ny nx F T u N i j < 2 * PI.
Proof. intros H Hu. unfold gs_array. replace (Z.to_nat N) with 0%nat by lia. cbn [iter]. assert (P := PI_RGT_0). nra. Qed.
Lemma zero_range_mraf ny nx F T W m u N i j : (N <= 0)%Z -> 0 <= u i j < 1 ->  0 <= mraf_array ny nx F T W m u N i j < 2 * PI.
Proof. intros H Hu. unfold mraf_array. replace (Z.to_nat N) with 0%nat by lia. cbn [iter]. assert (P := PI_RGT_0). nra. Qed.

(** ** MRAF versus Gerchberg-Saxton *)
Definition agree (ny nx : nat) (p q : nat -> nat -> R) := forall i j, (i < ny)%nat -> (j < nx)%nat -> p i j = q i j.
Lemma iter_agree ny nx f g p : (forall a b, agree ny nx a b -> agree ny nx (f a) (g b)) -> forall n, agree ny nx (iter n f p) (iter n g p).
Proof. intros H n. induction n as [|n IH]; cbn [iter]; [intros i j _ _; reflexivity|apply H, IH]. Qed.
Lemma ifft2_modulated_ext ny nx F p q u v : agree ny nx p q ->
  ifft2 ny nx (fun i j => (F i j * cis (p i j))%C) u v = ifft2 ny nx (fun i j => (F i j * cis (q i j))%C) u v.
Proof. intros H. apply ifft2_ext. intros i j Hi Hj. rewrite H by assumption. reflexivity. Qed.
Lemma mraf_is_gs ny nx F T W m u N : 0 < m -> (forall i j, (i < ny)%nat -> (j < nx)%nat -> W i j = RtoC 1) ->
  agree ny nx (mraf_array ny nx F T W m u N) (gs_array ny nx F T u N).
Proof.
  intros Hm HW. unfold mraf_array, gs_array. apply iter_agree. intros a b Hab i j Hi Hj. unfold mraf_step, gs_step.
  set (c := ifft2 ny nx (fun i j => (F i j * cis (a i j))%C)). set (c' := ifft2 ny nx (fun i j => (F i j * cis (b i j))%C)).
  rewrite (fft2_ext ny nx _ (fun i j => (RtoC m * (RtoC (ifftshift2 ny nx T i j) * cis (carg (c' i j))))%C)).
  - rewrite fft2_scal. apply carg_scale, Hm.
  - intros k q Hk Hq. replace (c k q) with (c' k q) by (symmetry; apply ifft2_modulated_ext, Hab).
    replace (ifftshift2 ny nx W k q) with (RtoC 1) by (symmetry; apply HW; apply ishift_idx_lt; lia). ring.
Qed.
Lemma mraf_no_mixing ny nx F T T' W u N : agree ny nx (mraf_array ny nx F T W 0 u N) (mraf_array ny nx F T' W 0 u N).
Proof.
  unfold mraf_array. apply iter_agree. intros a b Hab i j Hi Hj. unfold mraf_step. f_equal. apply fft2_ext. intros k q Hk Hq.
  rewrite (ifft2_modulated_ext ny nx F a b k q Hab). ring.
Qed.
(** ** Scaling *)
Lemma gs_scale ny nx F T a b u N : 0 < a -> 0 < b ->
  agree ny nx (gs_array ny nx (fun i j => (RtoC a * F i j)%C) (fun i j => b * T i j) u N) (gs_array ny nx F T u N).
Proof.
  intros Ha Hb. unfold gs_array. apply iter_agree. intros p q Hpq i j Hi Hj. unfold gs_step.
  rewrite (fft2_ext ny nx _ (fun i j => (RtoC b * (RtoC (ifftshift2 ny nx T i j) * cis (carg (ifft2 ny nx (fun i0 j0 => (F i0 j0 * cis (q i0 j0))%C) i j))))%C)).
  - rewrite fft2_scal. apply carg_scale, Hb.
  - intros k r Hk Hr. rewrite (ifft2_ext ny nx _ (fun i j => (RtoC a * (F i j * cis (q i j)))%C)).
    + rewrite ifft2_scal, carg_scale by exact Ha. unfold ifftshift2. rewrite RtoC_mult. ring.
    + intros x y Hx Hy. rewrite Hpq by assumption. ring.
Qed.
Lemma mraf_scale ny nx F T W m c u N : 0 < c ->
  agree ny nx (mraf_array ny nx (fun i j => (RtoC c * F i j)%C) (fun i j => c * T i j) W m u N) (mraf_array ny nx F T W m u N).
Proof.
  intros Hc. unfold mraf_array. apply iter_agree. intros p q Hpq i j Hi Hj. unfold mraf_step.
  set (im := ifft2 ny nx (fun i0 j0 => (F i0 j0 * cis (q i0 j0))%C)).
  rewrite (fft2_ext ny nx _ (fun i j => (RtoC c * (RtoC m * RtoC (ifftshift2 ny nx T i j) * cis (carg (im i j)) * ifftshift2 ny nx W i j
     + RtoC (1 - m) * im i j * (RtoC 1 - ifftshift2 ny nx W i j)))%C)).
  - rewrite fft2_scal. apply carg_scale, Hc.
  - intros k r Hk Hr. rewrite (ifft2_ext ny nx _ (fun i j => (RtoC c * (F i j * cis (q i j)))%C)).
    + rewrite ifft2_scal, carg_scale by exact Hc. fold (im k r). unfold ifftshift2. rewrite RtoC_mult. ring.
    + intros x y Hx Hy. rewrite Hpq by assumption. ring.
Qed.

(** ** What the simulation shows *)
Lemma cexp_phase (r : R) : cexp (- Ci * RtoC r)%C = cis (- r).
Proof.
  assert (E : (- Ci * RtoC r)%C = (0, - r)) by (apply C_eq; cbn; ring). rewrite E. unfold cexp. cbn [fst snd]. rewrite exp_0, !Rmult_1_l. reflexivity.
Qed.
Lemma lcos_full_state l phi : l_state l = LReal (s_Ny (l_slm l)) (s_Nx (l_slm l)) phi -> full_state (DevLcos l) (fun i j => cis (- phi i j)).
Proof.
  intros E. unfold full_state, state_tensor. cbn [dev_slm]. rewrite E. do 2 f_equal. apply functional_extensionality. intros i.
  apply functional_extensionality. intros j. apply cexp_phase.
Qed.
Lemma lcos_simulated h l input F phi m : full_input h (l_slm l) input F -> l_state l = LReal (s_Ny (l_slm l)) (s_Nx (l_slm l)) phi ->
  scaling_factor (l_slm l) <> 0 -> pad_x m = 0%Z -> pad_y m = 0%Z ->
  exists m', propagate_to_image h (DevLcos l) m input = (m', Ok tt) /\
    field_is (f_image m') (s_Ny (l_slm l)) (s_Nx (l_slm l)) (fun u v =>
      (RtoC (eta_scale (l_slm l)) * image_of (s_Ny (l_slm l)) (s_Nx (l_slm l)) (modulated F (fun i j => Ropp (phi i j))) u v)%C).
Proof.
  intros HF E Hs Hx Hy. assert (HS := lcos_full_state l phi E).
  destruct (propagate_succeeds h (DevLcos l) m input F _ HF HS ltac:(lia) ltac:(lia) Hs) as [m' P]. exists m'. split; [exact P|].
  destruct (propagate_inv h (DevLcos l) m input F _ m' HF HS P) as (_ & _ & _ & _ & _ & _ & _ & Hi). cbn [dev_slm] in Hi.
  assert (EY : NY (l_slm l) m = s_Ny (l_slm l)) by (unfold NY; rewrite Hy; lia).
  assert (EX : NX (l_slm l) m = s_Nx (l_slm l)) by (unfold NX; rewrite Hx; lia).
  assert (En : norm_of (l_slm l) m = eta_scale (l_slm l)).
  { unfold norm_of, eta_scale, sim_Nx, sim_Ny. rewrite Hx, Hy. cbn [Z.mul]. rewrite !Z.add_0_r, mult_IZR, <- !INR_IZR_INZ. field. exact Hs. }
  rewrite EY, EX in Hi. eapply field_is_ext; [|exact Hi]. intros u v Hu Hv. cbn beta.
  rewrite image_of_to_image by assumption. rewrite En, Cmult_comm. f_equal. apply image_of_ext. intros i j Hi' Hj'. rewrite pad_zero by assumption. reflexivity.
Qed.

(** ** Reflection *)
Lemma reflect_lt n k : (0 < n)%nat -> (reflect n k < n)%nat.
Proof. intros H. apply Nat.mod_upper_bound. lia. Qed.
Lemma centred_reflect n k : (k < n)%nat -> exists z : Z, centred n (reflect n k) = (- centred n k + z * Z.of_nat n)%Z.
Proof.
  intros H. unfold centred, reflect. assert (E := Nat.div_mod (2 * (n / 2) + n - k) n ltac:(lia)).
  exists (1 - Z.of_nat ((2 * (n / 2) + n - k) / n))%Z. nia.
Qed.
Lemma wave_reflect ny nx i j u v : (i < ny)%nat -> (j < nx)%nat -> (u < ny)%nat -> (v < nx)%nat ->
  wave ny nx i j (reflect ny u) (reflect nx v) = cconj (wave ny nx i j u v).
Proof.
  intros Hi Hj Hu Hv. destruct (centred_reflect ny u Hu) as [a Ha]. destruct (centred_reflect nx v Hv) as [b Hb].
  unfold wave. rewrite <- cis_neg, Ha, Hb. apply cis_int_shift. exists (centred ny i * a + centred nx j * b)%Z.
  rewrite plus_IZR, !mult_IZR, !plus_IZR, !opp_IZR, !mult_IZR, <- !INR_IZR_INZ. field. split; apply INR_neq_0; lia.
Qed.
(** For a real beam, the conjugate phases give the reflected, conjugated image. *)
Lemma image_reflect ny nx F A phi u v : (u < ny)%nat -> (v < nx)%nat -> (forall i j, (i < ny)%nat -> (j < nx)%nat -> F i j = RtoC (A i j)) ->
  image_of ny nx (modulated F (fun i j => - phi i j)) u v = cconj (image_of ny nx (modulated F phi) (reflect ny u) (reflect nx v)).
Proof.
  intros Hu Hv HF. unfold image_of. rewrite cconj_div_R by (apply INR_neq_0; nia). f_equal. rewrite csum2_conj. apply csum2_ext. intros i j Hi Hj.
  unfold modulated. rewrite wave_reflect, HF by assumption. rewrite cis_neg, !cconj_mult, cconj_conj, cconj_RtoC. reflexivity.
Qed.
