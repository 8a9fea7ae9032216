(** What an iteration of Gerchberg-Saxton gains, and runs that stall (C126). *)
From Coq Require Import Reals Lra Psatz ZArith Arith List Bool Lia.
From Coquelicot Require Import Complex.
From Verif Require Import Cx Sums DFT PyBase ProfileModel SlmModel LibModel DmdModel SimModel SimSpec GridFacts SimFacts SimFacts2 SimExamples DmdSpec DmdFacts DmdFacts2 DmdFacts3 AmpFacts AmpFacts3 AmpFacts5 HoloSpec HoloFacts HoloFacts2 HoloThms EquiSpec EquiFacts StallSpec.
Open Scope R_scope.

Lemma phase_gain (a t : R) (G : C) : cnorm2 (RtoC a * cis t - G)%C = cnorm2 (RtoC a * cis (carg G) - G)%C + a * Cmod G * cnorm2 (cis (carg G) - cis t)%C.
Proof.
  rewrite (polar G) at 1 3. set (g := Cmod G). set (w := carg G). unfold cnorm2, cis, RtoC, Cminus, Cplus, Copp, Cmult. cbn [fst snd].
  assert (P := sin2_cos2 t). assert (Q := sin2_cos2 w). unfold Rsqr in P, Q.
  assert (P' : sin t * sin t = 1 - cos t * cos t) by lra. assert (Q' : sin w * sin w = 1 - cos w * cos w) by lra.
  set (x := sin t) in *. set (y := sin w) in *. set (u := cos t) in *. set (v := cos w) in *.
  match goal with |- ?L = ?R => transitivity (a * a + g * g - 2 * a * g * (u * v + x * y)) end.
  - transitivity (a * a * (u * u + x * x) + g * g * (v * v + y * y) - 2 * a * g * (u * v + x * y)); [ring|]. rewrite P', Q'. ring.
  - transitivity (a * a * (v * v + y * y) + g * g * (v * v + y * y) - 2 * a * g * (v * v + y * y) + a * g * ((v * v + y * y) + (u * u + x * x) - 2 * (u * v + x * y))); [rewrite P', Q'; ring|ring].
Qed.
Section Raw.
Variables (ny nx : nat) (F : nat -> nat -> C) (A : nat -> nat -> R) (Tc : nat -> nat -> R) (ph : nat -> nat -> R).
Hypothesis HF : forall i j, (i < ny)%nat -> (j < nx)%nat -> F i j = RtoC (A i j).
Hypothesis HT : forall i j, (i < ny)%nat -> (j < nx)%nat -> 0 <= Tc i j.
Definition raw_back := fft2 ny nx (fun i j => (RtoC (Tc i j) * cis (carg (ifft2 ny nx (fun i j => (F i j * cis (ph i j))%C) i j)))%C).
Lemma gs_step_gain : (0 < ny)%nat -> (0 < nx)%nat ->
  raw_error ny nx F Tc (gs_step ny nx F Tc ph) + rsum2 ny nx (fun i j => A i j * Cmod (raw_back i j) * Cmod (cis (gs_step ny nx F Tc ph i j) - cis (ph i j))%C ^ 2) / INR (ny * nx) <= raw_error ny nx F Tc ph.
Proof.
  intros Hy Hx. set (img := ifft2 ny nx (fun i j => (F i j * cis (ph i j))%C)).
  set (cor := fun i j => (RtoC (Tc i j) * cis (carg (img i j)))%C). set (G := raw_back). set (ph' := gs_step ny nx F Tc ph).
  assert (EG : G = fft2 ny nx cor) by reflexivity.
  assert (Eph : forall i j, ph' i j = carg (G i j)) by reflexivity.
  set (img' := ifft2 ny nx (fun i j => (F i j * cis (ph' i j))%C)).
  assert (HN : 0 < INR (ny * nx)) by (apply lt_0_INR; nia).
  assert (S1 : raw_error ny nx F Tc ph' <= rsum2 ny nx (fun i j => cnorm2 (img' i j - cor i j)%C)).
  { apply rsum2_le. intros i j Hi Hj. fold img'. replace (Tc i j) with (Cmod (cor i j)); [apply circle_lower|].
    unfold cor. rewrite !Cmod_mult, !Cmod_cis, Cmod_R, Rabs_pos_eq by auto. ring. }
  assert (S2 : forall f, INR (ny * nx) * rsum2 ny nx (fun i j => cnorm2 (ifft2 ny nx f i j - cor i j)%C) = rsum2 ny nx (fun i j => cnorm2 (f i j - G i j)%C)).
  { intros f. rewrite <- (ifft2_parseval ny nx (fun i j => (f i j - G i j)%C)). f_equal. apply rsum2_ext. intros i j Hi Hj.
    rewrite ifft2_minus, EG, ifft2_fft2 by assumption. reflexivity. }
  assert (S4 : rsum2 ny nx (fun i j => cnorm2 (img i j - cor i j)%C) = raw_error ny nx F Tc ph).
  { apply rsum2_ext. intros i j Hi Hj. apply near_circle; auto. }
  assert (S3 : rsum2 ny nx (fun i j => cnorm2 (F i j * cis (ph' i j) - G i j)%C) + rsum2 ny nx (fun i j => A i j * Cmod (G i j) * Cmod (cis (ph' i j) - cis (ph i j))%C ^ 2) = rsum2 ny nx (fun i j => cnorm2 (F i j * cis (ph i j) - G i j)%C)).
  { rewrite <- rsum2_plus. apply rsum2_ext. intros i j Hi Hj. rewrite HF, Eph by assumption. rewrite (phase_gain (A i j) (ph i j)), <- cnorm2_Cmod. reflexivity. }
  assert (E1 := S2 (fun i j => (F i j * cis (ph' i j))%C)). assert (E2 := S2 (fun i j => (F i j * cis (ph i j))%C)). cbn beta in E1, E2.
  fold img' in E1. fold img in E2. rewrite <- S4. apply Rmult_le_reg_l with (1 := HN). rewrite E2, <- S3, Rmult_plus_distr_l. unfold Rdiv. rewrite (Rmult_comm (rsum2 _ _ _) (/ _)), <- Rmult_assoc, Rinv_r, Rmult_1_l by lra.
  apply Rplus_le_compat_r. rewrite <- E1. apply Rmult_le_compat_l; [lra|exact S1].
Qed.
End Raw.
Section Device.
Variables (s : slm) (F : nat -> nat -> C) (A T : nat -> nat -> R).
Let ny := s_Ny s.
Let nx := s_Nx s.
Let Tc := ifftshift2 ny nx T.
Lemma back_corrected g : corrected_beam s F T g (raw_back ny nx F Tc g).
Proof.
  set (img := ifft2 ny nx (modulated F g)).
  assert (OO : forall u v, (offs ny nx u v * cconj (offs ny nx u v))%C = RtoC 1) by (intros; unfold offs; apply cis_conj_cis).
  exists (fun u v => (cis (carg (img (shift_idx ny u) (shift_idx nx v))) * cconj (offs ny nx u v))%C). split.
  - intros u v [Hu Hv]. cbv zeta. fold ny nx. split; [rewrite Cmod_mult, Cmod_cis, Cmod_cconj, Cmod_offs; ring|].
    assert (E := ifft2_image ny nx (modulated F g) u v Hu Hv). fold img in E.
    assert (EM : Cmod (image_of ny nx (modulated F g) u v) = Cmod (img (shift_idx ny u) (shift_idx nx v))) by (rewrite E, Cmod_mult, Cmod_offs; ring).
    rewrite EM, Cmult_assoc, <- polar, E, <- Cmult_assoc, OO. ring.
  - intros i j [Hi Hj]. unfold raw_back. apply fft2_spectrum; try assumption. intros u v Hu Hv. fold (modulated F g). fold img. unfold Tc. rewrite shifted_entry by assumption.
    rewrite <- !Cmult_assoc, (Cmult_comm (cconj _)), OO, Cmult_1_r. reflexivity.
Qed.
Hypothesis HF : forall i j, in_slm s i j -> F i j = RtoC (A i j) /\ 0 <= A i j.
Hypothesis HT : forall i j, in_slm s i j -> 0 <= T i j.
Lemma in_device i j : in_slm s i j -> (0 < ny)%nat /\ (0 < nx)%nat.
Proof. unfold in_slm, ny, nx. lia. Qed.
Lemma device_gain g : image_error ny nx F T (gs_step ny nx F Tc g) + movement s A (raw_back ny nx F Tc g) g (gs_step ny nx F Tc g) <= image_error ny nx F T g.
Proof.
  rewrite <- !raw_image_error. fold Tc. destruct (Nat.eq_dec ny 0) as [Z|Hy].
  { unfold movement, raw_error. fold ny. rewrite Z. cbn. unfold Rdiv. lra. }
  destruct (Nat.eq_dec nx 0) as [Z|Hx].
  { unfold movement, raw_error. fold nx. rewrite Z, !rsum2_nx0. unfold Rdiv. lra. }
  unfold movement. fold ny nx. apply gs_step_gain; try lia.
  - intros i j Hi Hj. apply (HF i j (conj Hi Hj)).
  - intros i j Hi Hj. unfold Tc, ifftshift2. apply HT. split; apply ishift_idx_lt; fold ny nx; lia.
Qed.
Lemma movement_pos B g g' : 0 <= movement s A B g g'.
Proof.
  unfold movement. fold ny nx. destruct (Nat.eq_dec (ny * nx) 0) as [Z|NZ].
  { rewrite Z. cbn [INR]. unfold Rdiv. rewrite Rinv_0. lra. }
  apply Rmult_le_pos; [|left; apply Rinv_0_lt_compat, lt_0_INR; lia]. apply rsum2_ge_0. intros i j Hi Hj.
  apply Rmult_le_pos; [apply Rmult_le_pos; [apply (HF i j (conj Hi Hj))|apply Cmod_ge_0]|apply pow2_ge_0].
Qed.
Lemma no_movement B g g' i j : movement s A B g g' <= 0 -> in_slm s i j -> F i j <> RtoC 0 -> B i j <> RtoC 0 -> cis (g' i j) = cis (g i j).
Proof.
  intros HM Hij NF NB. destruct Hij as [Hi Hj].
  assert (HN : 0 < INR (ny * nx)) by (apply lt_0_INR; unfold ny, nx; nia).
  unfold movement in HM. fold ny nx in HM. set (f := fun i j => A i j * Cmod (B i j) * Cmod (cis (g' i j) - cis (g i j))%C ^ 2) in HM.
  assert (Pf : forall x y, (x < ny)%nat -> (y < nx)%nat -> 0 <= f x y).
  { intros x y Hx Hy. apply Rmult_le_pos; [apply Rmult_le_pos; [apply (HF x y (conj Hx Hy))|apply Cmod_ge_0]|apply pow2_ge_0]. }
  assert (Z : rsum2 ny nx f <= 0).
  { apply Rmult_le_reg_r with (/ INR (ny * nx)); [apply Rinv_0_lt_compat, HN|]. rewrite Rmult_0_l. exact HM. }
  assert (L : f i j <= 0) by (rewrite (rsum2_eq_0 ny nx f Pf (Rle_antisym _ _ Z (rsum2_ge_0 ny nx f Pf)) i j Hi Hj); lra).
  destruct (HF i j (conj Hi Hj)) as [EF PA]. assert (NA : 0 < A i j). { destruct PA as [PA|PA]; [exact PA|]. exfalso. apply NF. rewrite EF, <- PA. reflexivity. }
  assert (PB := proj1 (Cmod_gt_0 (B i j)) NB). unfold f in L. set (d := (cis (g' i j) - cis (g i j))%C) in *.
  assert (PD := Cmod_ge_0 d). assert (D0 : Cmod d = 0). { assert (0 < A i j * Cmod (B i j)) by nra. destruct PD as [PD|PD]; [|auto]. assert (0 < Cmod d ^ 2) by (apply pow_lt; exact PD). nra. }
  apply Cmod_eq_0 in D0. unfold d in D0. replace (cis (g' i j)) with (cis (g' i j) - cis (g i j) + cis (g i j))%C by ring. rewrite D0. ring.
Qed.
Lemma same_beam_step g g' : (forall i j, in_slm s i j -> F i j <> RtoC 0 -> cis (g' i j) = cis (g i j)) -> forall i j, gs_step ny nx F Tc g' i j = gs_step ny nx F Tc g i j.
Proof.
  intros H i j. unfold gs_step. f_equal. apply fft2_ext. intros u v Hu Hv. f_equal. f_equal. f_equal. apply ifft2_ext. intros x y Hx Hy.
  destruct (Ceq_dec (F x y) (RtoC 0)) as [E|E]; [rewrite E; ring|]. rewrite (H x y (conj Hx Hy) E). reflexivity.
Qed.
Lemma lit_back g i j : no_zeros s F T (gs_field T) g -> in_slm s i j -> F i j <> RtoC 0 -> raw_back ny nx F Tc g i j <> RtoC 0.
Proof.
  intros [N1 N2] Hij NF. destruct (back_corrected g) as (U & HU & HB). rewrite HB by exact Hij. cbv zeta in *.
  rewrite (spectrum_of_ext (s_Ny s) (s_Nx s) _ (fun u v => gs_field T (image_of (s_Ny s) (s_Nx s) (modulated F g) u v) (unit_of (image_of (s_Ny s) (s_Nx s) (modulated F g) u v)) u v)); [exact (N2 i j Hij NF)|].
  intros u v Hu Hv. unfold gs_field. destruct (Req_dec (T u v) 0) as [E|E]; [rewrite E; ring|]. f_equal. destruct (HU u v (conj Hu Hv)) as [U1 U2]. apply unit_polar; try assumption. apply N1; [split; assumption|exact E].
Qed.
End Device.
