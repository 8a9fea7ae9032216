(** Whole runs of Gerchberg-Saxton and MRAF with rounding (C136). *)
From Coq Require Import Reals Lra Psatz ZArith Arith List Bool Lia FunctionalExtensionality.
From Coquelicot Require Import Complex.
From Verif Require FloatLink FringeErr2.
From Verif Require Import Cx Sums DFT PyBase ProfileModel SlmModel LibModel DmdModel SimModel SimSpec SimFacts HoloSpec DmdSpec HoloFacts HoloFacts2 AimSpec FloatModel FloatSpec FloatFacts FringeSpec FlSimModel FlSimSpec NormFacts FlSimFacts FftModel FftSpec FftFacts2 FftFacts3 FwdModel FwdSpec FwdFacts2 FlHoloModel FlHoloSpec FlHoloFacts FlHoloFacts4 FlGsModel FlGsFacts FlGsFacts2 FlGsFacts3 FlGsFacts4.
Open Scope R_scope.

Lemma err_is ny nx E T ph : err ny nx E (ifftshift2 ny nx T) ph = sqrt (image_error ny nx E T ph).
Proof. unfold err, norm. rewrite <- raw_image_error. unfold raw_error. f_equal. apply rsum2_ext. intros i j _ _. rewrite Cmod_R, pow2_abs. reflexivity. Qed.
Lemma norm_ishift ny nx (T : nat -> nat -> R) : norm ny nx (fun i j => RtoC (ifftshift2 ny nx T i j)) = norm ny nx (fun i j => RtoC (T i j)).
Proof. unfold norm. f_equal. exact (rsum2_ifftshift ny nx (fun i j => Cmod (RtoC (T i j)) ^ 2)). Qed.
Lemma ishift_lt {A} ny nx (T : nat -> nat -> A) (P : A -> Prop) : (forall i j, (i < ny)%nat -> (j < nx)%nat -> P (T i j)) -> forall i j, (i < ny)%nat -> (j < nx)%nat -> P (ifftshift2 ny nx T i j).
Proof. intros HP i j Hi Hj. unfold ifftshift2. apply HP; apply Nat.mod_upper_bound; lia. Qed.
Lemma iter_drift {A} (f : A -> A) (x : A) (g : A -> R) c n m : (n <= m)%nat -> (forall y, g (f y) <= g y + c) -> g (iter m f x) <= g (iter n f x) + INR (m - n) * c.
Proof.
  intros L H. induction L as [|m L IH]; [rewrite Nat.sub_diag; cbn [INR]; lra|]. cbn [iter]. eapply Rle_trans; [apply H|]. replace (S m - n)%nat with (S (m - n)) by lia. rewrite S_INR. lra.
Qed.
Lemma gs_run_rounded a u eta B v o q F G e d e' d' ny nx E A c T u0 N N' :
  arithmetic u eta B (rnd a) -> 0 <= u <= 1 / 8 -> 0 <= eta -> FringeSpec.accurate a v -> u <= v -> v <= / 16 -> accurate_polar q v o -> (0 < ny)%nat -> (0 < nx)%nat ->
  FlSimSpec.accurate a e d ny nx (F ny nx) -> accurate_forward a e' d' ny nx (G ny nx) -> 0 <= e <= / 16 -> 0 <= e' <= / 16 ->
  (forall i j, (i < ny)%nat -> (j < nx)%nat -> E i j = (RtoC (A i j) * cis c)%C /\ 0 <= A i j) -> (forall i j, (i < ny)%nat -> (j < nx)%nat -> 0 <= T i j) -> (N <= N')%Z ->
  let rN := sqrt (INR (ny * nx)) in
  sqrt (image_error ny nx E T (fl_gs_array a q F G ny nx E T u0 N')) <= sqrt (image_error ny nx E T (fl_gs_array a q F G ny nx E T u0 N)) +
    INR (Z.to_nat N' - Z.to_nat N) * ((2 * e + 16 * v) * (norm ny nx E / rN) + (2 * e' + 15 * v) * norm ny nx (fun i j => RtoC (T i j)) + 11 * eta * (1 + rN) + 2 * d + 2 * (d' / rN)).
Proof.
  intros H Hu He HA Huv Hv Q Hy Hx HF HG Pe Pe' HE HT HN rN. unfold fl_gs_array. rewrite <- !err_is.
  apply (iter_drift (fl_gs_step a q F G ny nx E (ifftshift2 ny nx T)) _ (err ny nx E (ifftshift2 ny nx T)) _ (Z.to_nat N) (Z.to_nat N') ltac:(lia)).
  intros ph. assert (S := gs_step_rounded a u eta B v o q F G e d e' d' ny nx H Hu He HA Huv Hv Q Hy Hx HF HG Pe Pe' E A c (ifftshift2 ny nx T) ph HE (ishift_lt ny nx T (fun x => 0 <= x) HT)).
  unfold step_loss in S. rewrite norm_ishift in S. exact S.
Qed.
(** ** MRAF *)
Definition ind (w : nat -> nat -> bool) (i j : nat) : R := if w i j then 1 else 0.
Lemma werr_is ny nx E w T ph : werr ny nx E (ifftshift2 ny nx w) (ifftshift2 ny nx T) ph = sqrt (window_error ny nx E (ind w) T ph).
Proof.
  unfold werr, norm, window_error. f_equal. rewrite <- rsum2_fftshift. apply rsum2_ext. intros i j Hi Hj. unfold fftshift2.
  rewrite ifft2_image by assumption. unfold ifftshift2, ind. rewrite !ishift_shift by assumption. destruct (w i j).
  - rewrite Cmod_R, pow2_abs, Cmod_mult, Cmod_offs, Rmult_1_r. unfold modulated. ring.
  - rewrite Cmod_0. ring.
Qed.
Lemma mraf_run_rounded a u eta B v o q F G e d e' d' ny nx E A c T W (w : nat -> nat -> bool) m u0 N N' :
  arithmetic u eta B (rnd a) -> (1 <= B)%Z -> 0 <= u <= 1 / 8 -> 0 <= eta -> FringeSpec.accurate a v -> u <= v -> v <= / 16 -> accurate_polar q v o -> (0 < ny)%nat -> (0 < nx)%nat ->
  FlSimSpec.accurate a e d ny nx (F ny nx) -> accurate_forward a e' d' ny nx (G ny nx) -> 0 <= e <= / 16 -> 0 <= e' <= / 16 -> 0 <= d ->
  (forall i j, (i < ny)%nat -> (j < nx)%nat -> E i j = (RtoC (A i j) * cis c)%C /\ 0 <= A i j) -> (forall i j, (i < ny)%nat -> (j < nx)%nat -> 0 <= T i j) ->
  (forall i j, (i < ny)%nat -> (j < nx)%nat -> W i j = if w i j then RtoC 1 else RtoC 0) -> (N <= N')%Z ->
  let m1 := rnd a m in let m2 := rnd a (1 - m1) in 0 <= m1 -> 0 < m2 -> let rN := sqrt (INR (ny * nx)) in let T' := fun i j => m1 / m2 * T i j in
  sqrt (window_error ny nx E (ind w) T' (fl_mraf_array a q F G ny nx E T W m u0 N')) <= sqrt (window_error ny nx E (ind w) T' (fl_mraf_array a q F G ny nx E T W m u0 N)) +
    INR (Z.to_nat N' - Z.to_nat N) * ((2 * e + 4 * e' + 47 * v) * (norm ny nx E / rN) + (2 * e' + 20 * v) * norm ny nx (fun i j => RtoC (T' i j)) + 21 * eta + 4 * d + (15 * eta * rN + 2 * (d' / rN)) / m2).
Proof.
  intros H HB Hu He HA Huv Hv Q Hy Hx HF HG Pe Pe' Pd HE HT HW HN m1 m2 Hm1 Hm2 rN T'. unfold fl_mraf_array. rewrite <- !werr_is.
  apply (iter_drift (fl_mraf_step a q F G ny nx E (ifftshift2 ny nx T) (ifftshift2 ny nx W) m) _ (werr ny nx E (ifftshift2 ny nx w) (ifftshift2 ny nx T')) _ (Z.to_nat N) (Z.to_nat N') ltac:(lia)).
  intros ph. assert (HW' : forall i j, (i < ny)%nat -> (j < nx)%nat -> ifftshift2 ny nx W i j = if ifftshift2 ny nx w i j then RtoC 1 else RtoC 0) by (intros i j Hi Hj; unfold ifftshift2; apply HW; apply Nat.mod_upper_bound; lia).
  assert (S := mraf_step_rounded a u eta B v o q F G e d e' d' ny nx H HB Hu He HA Huv Hv Q Hy Hx HF HG Pe Pe' E A c (ifftshift2 ny nx T) (ifftshift2 ny nx W) (ifftshift2 ny nx w) m ph HE (ishift_lt ny nx T (fun x => 0 <= x) HT) HW' Pd Hm1 Hm2).
  cbv zeta in S. unfold mraf_loss in S. change (fun i j => fst (fl_mix a m) / snd (fl_mix a m) * ifftshift2 ny nx T i j) with (ifftshift2 ny nx T') in S.
  change (fun i j => RtoC (fst (fl_mix a m) / snd (fl_mix a m) * ifftshift2 ny nx T i j)) with (fun i j => RtoC (ifftshift2 ny nx T' i j)) in S. rewrite norm_ishift in S. exact S.
Qed.
(** ** Without rounding *)
Lemma gs_exact ny nx E T u0 N : fl_gs_array exact exact_polar ifft2 fft2 ny nx E T u0 N = gs_array ny nx E T u0 N.
Proof. reflexivity. Qed.
Lemma mraf_exact ny nx E T W m u0 N : fl_mraf_array exact exact_polar ifft2 fft2 ny nx E T W m u0 N = mraf_array ny nx E T W m u0 N.
Proof. reflexivity. Qed.
Lemma runs_exact h l input target E T kw u0 : full_input h (l_slm l) input E -> real_target h (l_slm l) target T -> let s := l_slm l in
  stores s (calculate_hologram h l input target MGs kw u0) (fl_gs_array exact exact_polar ifft2 fft2 (s_Ny s) (s_Nx s) E T u0 (dflt (lk_N kw) 200%Z)) /\
  forall w W, lk_window kw = Some w -> full_target h s w W ->
    stores s (calculate_hologram h l input target MMraf kw u0) (fl_mraf_array exact exact_polar ifft2 fft2 (s_Ny s) (s_Nx s) E T W (dflt (lk_mix kw) 0.4) u0 (dflt (lk_N kw) 200%Z)).
Proof.
  intros FI FT s. split; [rewrite gs_exact; apply gs_stores; assumption|]. intros w W HW FW. rewrite mraf_exact. apply (mraf_stores h l input target E T FI FT kw w W u0 HW FW).
Qed.
(** ** Single precision with NumPy's transforms *)
Lemma gs_single tab tab' ly lx E A c T u0 N N' :
  good_table (2 * / 2 ^ 53) tab -> good_forward_table (2 * / 2 ^ 53) tab' -> Forall (fun r => 2 <= r)%nat (ly ++ lx) -> (size ly <= 4096)%nat -> (size lx <= 4096)%nat ->
  let ny := size ly in let nx := size lx in let F := fun _ _ : nat => numpy_ifft2 single double tab (direct double tab) ly lx in let G := fun _ _ : nat => numpy_fft2 single double tab' (direct double tab') ly lx in let q := rounded_polar binary32 in
  (forall i j, (i < ny)%nat -> (j < nx)%nat -> E i j = (RtoC (A i j) * cis c)%C /\ 0 <= A i j) -> (forall i j, (i < ny)%nat -> (j < nx)%nat -> 0 <= T i j) -> (N <= N')%Z ->
  sqrt (image_error ny nx E T (fl_gs_array single q F G ny nx E T u0 N')) <= sqrt (image_error ny nx E T (fl_gs_array single q F G ny nx E T u0 N)) +
    INR (Z.to_nat N' - Z.to_nat N) * ((norm ny nx E / sqrt (INR (ny * nx)) + norm ny nx (fun i j => RtoC (T i j))) / 100000 + / 2 ^ 100).
Proof.
  intros TB TB' FL Ly Lx ny nx F G q HE HT HN.
  assert (PL : forall l, Forall (fun r => 2 <= r)%nat l -> (0 < size l)%nat). { induction l as [|r l IH]; intros HF; cbn; [lia|]. inversion HF; subst. assert (X := IH H2). change (0 < r * size l)%nat. nia. }
  apply Forall_app in FL as FL'. destruct FL' as [Fy Fx].
  assert (NF := numpy_single tab ly lx TB FL Ly Lx). assert (NG := numpy_forward tab' ly lx TB' FL Ly Lx). fold ny nx in NF, NG.
  assert (AC : FringeSpec.accurate single (/ 2 ^ 21)) by (apply (FringeErr2.accurate_more single (/ 2 ^ 23)); [exact FringeErr2.single_accurate|lra]).
  assert (P150 := inv_le 130 150 ltac:(lia)).
  assert (A1 : 0 <= / 2 ^ 24 <= 1 / 8) by lra. assert (A2 : 0 <= / 2 ^ 150) by lra. assert (A3 : / 2 ^ 24 <= / 2 ^ 21) by lra. assert (A4 : / 2 ^ 21 <= / 16) by lra. assert (A5 : 0 <= / 2 ^ 20 <= / 16) by lra. assert (A6 : 0 <= / 2 ^ 22 <= / 16) by lra.
  assert (R := gs_run_rounded single (/ 2 ^ 24) (/ 2 ^ 150) (2 ^ 24) (/ 2 ^ 21) (/ 2 ^ 150) q F G (/ 2 ^ 20) (/ 2 ^ 120) (/ 2 ^ 22) (/ 2 ^ 120) ny nx E A c T u0 N N' binary32_arithmetic A1 A2 AC A3 A4 (proj1 machine_polar) (PL ly Fy) (PL lx Fx) NF NG A5 A6 HE HT HN). cbv zeta in R.
  eapply Rle_trans; [exact R|]. apply Rplus_le_compat_l. apply Rmult_le_compat_l; [apply pos_INR|].
  set (rN := sqrt (INR (ny * nx))) in *. assert (R1 : 1 <= rN). { unfold rN. rewrite <- sqrt_1 at 1. apply sqrt_le_1_alt. change 1 with (INR 1). apply le_INR. assert (Py := PL ly Fy). assert (Px := PL lx Fx). fold ny in Py. fold nx in Px. nia. }
  assert (R2 : rN <= 4096). { unfold rN. replace 4096 with (sqrt (4096 ^ 2)) by (apply sqrt_pow2; lra). apply sqrt_le_1_alt. rewrite mult_INR. replace (4096 ^ 2) with (4096 * 4096) by ring. apply Rmult_le_compat; try apply pos_INR; (replace 4096 with (INR 4096) by (rewrite INR_IZR_INZ; f_equal; vm_compute; reflexivity)); apply le_INR; assumption. }
  assert (E0 : 0 <= norm ny nx E / rN) by (apply Rmult_le_pos; [apply norm_ge_0|left; apply Rinv_0_lt_compat; lra]). assert (T0 := norm_ge_0 ny nx (fun i j => RtoC (T i j))).
  assert (I1 : / 2 ^ 120 / rN <= / 2 ^ 120 * 1). { apply Rmult_le_compat_l; [lra|]. rewrite <- Rinv_1. apply Rinv_le_contravar; lra. }
  set (nE := norm ny nx E / rN) in *. set (nT := norm ny nx (fun i j => RtoC (T i j))) in *. set (dr := / 2 ^ 120 / rN) in *. set (e5 := / 2 ^ 150) in *. clearbody nE nT dr e5 rN. clear - R1 R2 E0 T0 I1 P150.
  assert (e5 * (1 + rN) <= / 2 ^ 130 * 4097) by (apply Rmult_le_compat; lra). replace (11 * e5 * (1 + rN)) with (11 * (e5 * (1 + rN))) by ring. set (t := e5 * (1 + rN)) in *. clearbody t. lra.
Qed.
Lemma mix_bounds m : 0 <= m <= 99 / 100 -> 0 <= binary32 m /\ / 128 <= binary32 (1 - binary32 m).
Proof.
  intros Hm. assert (M1 : 0 <= binary32 m). { rewrite <- (FloatFacts.fl_0 _ _ _ _ binary32_arithmetic ltac:(lia)). apply (ar_monotone _ _ _ _ binary32_arithmetic). lra. }
  split; [exact M1|]. assert (P150 := inv_le 130 150 ltac:(lia)). assert (ER := ar_error _ _ _ _ binary32_arithmetic m). rewrite (Rabs_pos_eq m) in ER by lra. assert (Y := Rle_abs (binary32 m - m)).
  assert (X : binary32 m <= 995 / 1000). { set (e5 := / 2 ^ 150) in *. clearbody e5. assert (/ 2 ^ 24 * m <= / 2 ^ 24 * 1) by (apply Rmult_le_compat_l; lra). lra. }
  assert (EX := ar_exact _ _ _ _ binary32_arithmetic 1 7 ltac:(lia) ltac:(lia)). replace (/ 128) with (IZR 1 / 2 ^ 7) by lra. rewrite <- EX. apply (ar_monotone _ _ _ _ binary32_arithmetic). lra.
Qed.
Lemma mraf_single tab tab' ly lx E A c T W (w : nat -> nat -> bool) m u0 N N' :
  good_table (2 * / 2 ^ 53) tab -> good_forward_table (2 * / 2 ^ 53) tab' -> Forall (fun r => 2 <= r)%nat (ly ++ lx) -> (size ly <= 4096)%nat -> (size lx <= 4096)%nat ->
  let ny := size ly in let nx := size lx in let F := fun _ _ : nat => numpy_ifft2 single double tab (direct double tab) ly lx in let G := fun _ _ : nat => numpy_fft2 single double tab' (direct double tab') ly lx in let q := rounded_polar binary32 in
  (forall i j, (i < ny)%nat -> (j < nx)%nat -> E i j = (RtoC (A i j) * cis c)%C /\ 0 <= A i j) -> (forall i j, (i < ny)%nat -> (j < nx)%nat -> 0 <= T i j) ->
  (forall i j, (i < ny)%nat -> (j < nx)%nat -> W i j = if w i j then RtoC 1 else RtoC 0) -> 0 <= m <= 99 / 100 -> (N <= N')%Z ->
  let m1 := binary32 m in let m2 := binary32 (1 - m1) in let T' := fun i j => m1 / m2 * T i j in
  sqrt (window_error ny nx E (ind w) T' (fl_mraf_array single q F G ny nx E T W m u0 N')) <= sqrt (window_error ny nx E (ind w) T' (fl_mraf_array single q F G ny nx E T W m u0 N)) +
    INR (Z.to_nat N' - Z.to_nat N) * ((norm ny nx E / sqrt (INR (ny * nx)) + norm ny nx (fun i j => RtoC (T' i j))) / 39000 + / 2 ^ 100).
Proof.
  intros TB TB' FL Ly Lx ny nx F G q HE HT HW Hm HN m1 m2 T'.
  assert (PL : forall l, Forall (fun r => 2 <= r)%nat l -> (0 < size l)%nat). { induction l as [|r l IH]; intros HF; cbn; [lia|]. inversion HF; subst. assert (X := IH H2). change (0 < r * size l)%nat. nia. }
  apply Forall_app in FL as FL'. destruct FL' as [Fy Fx].
  assert (NF := numpy_single tab ly lx TB FL Ly Lx). assert (NG := numpy_forward tab' ly lx TB' FL Ly Lx). fold ny nx in NF, NG.
  assert (AC : FringeSpec.accurate single (/ 2 ^ 21)) by (apply (FringeErr2.accurate_more single (/ 2 ^ 23)); [exact FringeErr2.single_accurate|lra]).
  assert (P150 := inv_le 130 150 ltac:(lia)).
  assert (A1 : 0 <= / 2 ^ 24 <= 1 / 8) by lra. assert (A2 : 0 <= / 2 ^ 150) by lra. assert (A3 : / 2 ^ 24 <= / 2 ^ 21) by lra. assert (A4 : / 2 ^ 21 <= / 16) by lra. assert (A5 : 0 <= / 2 ^ 20 <= / 16) by lra. assert (A6 : 0 <= / 2 ^ 22 <= / 16) by lra. assert (A7 : 0 <= / 2 ^ 120) by lra.
  destruct (mix_bounds m Hm) as [M1 M2]. change (0 <= m1) in M1. change (/ 128 <= m2) in M2.
  assert (R := mraf_run_rounded single (/ 2 ^ 24) (/ 2 ^ 150) (2 ^ 24) (/ 2 ^ 21) (/ 2 ^ 150) q F G (/ 2 ^ 20) (/ 2 ^ 120) (/ 2 ^ 22) (/ 2 ^ 120) ny nx E A c T W w m u0 N N' binary32_arithmetic ltac:(lia) A1 A2 AC A3 A4 (proj1 machine_polar) (PL ly Fy) (PL lx Fx) NF NG A5 A6 A7 HE HT HW HN M1 ltac:(apply Rlt_le_trans with (2 := M2); lra)). cbv zeta in R.
  eapply Rle_trans; [exact R|]. apply Rplus_le_compat_l. apply Rmult_le_compat_l; [apply pos_INR|]. change (rnd single m) with m1. change (rnd single (1 - m1)) with m2. change (fun i j => RtoC (m1 / m2 * T i j)) with (fun i j => RtoC (T' i j)).
  set (rN := sqrt (INR (ny * nx))) in *. assert (R1 : 1 <= rN). { unfold rN. rewrite <- sqrt_1 at 1. apply sqrt_le_1_alt. change 1 with (INR 1). apply le_INR. assert (Py := PL ly Fy). assert (Px := PL lx Fx). fold ny in Py. fold nx in Px. nia. }
  assert (R2 : rN <= 4096). { unfold rN. replace 4096 with (sqrt (4096 ^ 2)) by (apply sqrt_pow2; lra). apply sqrt_le_1_alt. rewrite mult_INR. replace (4096 ^ 2) with (4096 * 4096) by ring. apply Rmult_le_compat; try apply pos_INR; (replace 4096 with (INR 4096) by (rewrite INR_IZR_INZ; f_equal; vm_compute; reflexivity)); apply le_INR; assumption. }
  assert (E0 : 0 <= norm ny nx E / rN) by (apply Rmult_le_pos; [apply norm_ge_0|left; apply Rinv_0_lt_compat; lra]). assert (T0 := norm_ge_0 ny nx (fun i j => RtoC (T' i j))).
  assert (I1 : / 2 ^ 120 / rN <= / 2 ^ 120 * 1). { apply Rmult_le_compat_l; [lra|]. rewrite <- Rinv_1. apply Rinv_le_contravar; lra. }
  assert (I2 : 0 <= / 2 ^ 120 / rN) by (apply Rmult_le_pos; [lra|left; apply Rinv_0_lt_compat; lra]).
  assert (I3 : 0 < / m2 <= 128). { split; [apply Rinv_0_lt_compat; apply Rlt_le_trans with (2 := M2); lra|]. replace 128 with (/ / 128) by lra. apply Rinv_le_contravar; [lra|exact M2]. }
  set (nE := norm ny nx E / rN) in *. set (nT := norm ny nx (fun i j => RtoC (T' i j))) in *. set (dr := / 2 ^ 120 / rN) in *. set (e5 := / 2 ^ 150) in *. set (im := / m2) in *.
  assert (Z : (15 * e5 * rN + 2 * dr) / m2 <= (15 * (/ 2 ^ 130 * 4096) + 2 * (/ 2 ^ 120)) * 128).
  { change ((15 * e5 * rN + 2 * dr) * im <= (15 * (/ 2 ^ 130 * 4096) + 2 * (/ 2 ^ 120)) * 128). clearbody dr e5 rN im. clear - R1 R2 I1 I2 I3 P150.
    assert (e5 * rN <= / 2 ^ 130 * 4096) by (apply Rmult_le_compat; lra). assert (0 <= e5 * rN) by (apply Rmult_le_pos; lra). replace (15 * e5 * rN) with (15 * (e5 * rN)) by ring. set (t := e5 * rN) in *. clearbody t. apply Rmult_le_compat; lra. }
  set (z := (15 * e5 * rN + 2 * dr) / m2) in *. clearbody z nE nT e5. clear - E0 T0 Z P150. lra.
Qed.
