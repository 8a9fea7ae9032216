(** Centred versus plain transforms; Gerchberg-Saxton and MRAF (C40-C44). *)
From Coq Require Import Reals Lra Psatz ZArith Arith List Bool Lia FunctionalExtensionality.
From Coquelicot Require Import Complex.
From Verif Require Import Cx Sums DFT PyBase ProfileModel SlmModel LibModel DmdModel SimModel SimSpec GridFacts SimFacts SimFacts2 DmdSpec DmdFacts DmdFacts2 DmdFacts3 AmpFacts AmpFacts3 HoloSpec.
Import ListNotations.
Open Scope R_scope.

Definition offs (ny nx u v : nat) : C :=
  cis (2 * PI * (INR (ny / 2) * IZR (centred ny u) / INR ny + INR (nx / 2) * IZR (centred nx v) / INR nx)).
Lemma shift_ker1 n i u : (i < n)%nat -> (u < n)%nat -> exists k : Z,
  INR (i * shift_idx n u) / INR n = IZR (centred n i * centred n u) / INR n + INR (n / 2) * IZR (centred n u) / INR n + IZR k.
Proof.
  intros Hi Hu. destruct (shift_idx_Z n u Hu) as [k Hk]. exists (Z.of_nat i * k)%Z.
  rewrite mult_INR, (INR_IZR_INZ (shift_idx n u)), Hk. unfold centred. rewrite mult_IZR, !minus_IZR, mult_IZR, plus_IZR, minus_IZR, mult_IZR, <- !INR_IZR_INZ.
  field. apply INR_neq_0. lia.
Qed.
Lemma ker_offs ny nx i j u v : (i < ny)%nat -> (j < nx)%nat -> (u < ny)%nat -> (v < nx)%nat ->
  cis (2 * PI * (INR (i * shift_idx ny u) / INR ny + INR (j * shift_idx nx v) / INR nx)) = (wave ny nx i j u v * offs ny nx u v)%C.
Proof.
  intros Hi Hj Hu Hv. destruct (shift_ker1 ny i u Hi Hu) as [a Ha]. destruct (shift_ker1 nx j v Hj Hv) as [b Hb].
  unfold wave, offs. rewrite <- cis_plus. apply cis_int_shift. exists (a + b)%Z. rewrite Ha, Hb, plus_IZR. ring.
Qed.
(** The plain inverse transform, read at the shifted pixel, is the centred image times a unit phase. *)
Lemma ifft2_image ny nx E u v : (u < ny)%nat -> (v < nx)%nat ->
  ifft2 ny nx E (shift_idx ny u) (shift_idx nx v) = (image_of ny nx E u v * offs ny nx u v)%C.
Proof.
  intros Hu Hv. unfold ifft2, image_of.
  rewrite (csum2_ext ny nx _ (fun i j => (E i j * wave ny nx i j u v * offs ny nx u v)%C)).
  - rewrite csum2_scal_r. unfold Cdiv. ring.
  - intros i j Hi Hj. rewrite ker_offs by assumption. ring.
Qed.
Lemma fft2_spectrum ny nx G H i j : (i < ny)%nat -> (j < nx)%nat ->
  (forall u v, (u < ny)%nat -> (v < nx)%nat -> G (shift_idx ny u) (shift_idx nx v) = (H u v * offs ny nx u v)%C) ->
  fft2 ny nx G i j = spectrum_of ny nx H i j.
Proof.
  intros Hi Hj HG. unfold fft2, spectrum_of. rewrite <- csum2_fftshift. apply csum2_ext. intros u v Hu Hv. unfold fftshift2.
  rewrite HG, cis_neg, ker_offs by assumption. rewrite cconj_mult.
  transitivity (H u v * (offs ny nx u v * cconj (offs ny nx u v)) * cconj (wave ny nx i j u v))%C; [ring|].
  unfold offs. rewrite cis_conj_cis. ring.
Qed.
Lemma Cmod_offs ny nx u v : Cmod (offs ny nx u v) = 1.
Proof. apply Cmod_cis. Qed.

(** ** Error reduction *)
Lemma near_circle (a b : R) (z w : C) : 0 <= b -> Cmod z = a -> w = (RtoC b * cis (carg z))%C -> cnorm2 (z - w)%C = (a - b) ^ 2.
Proof.
  intros Hb Ha ->. rewrite (polar z) at 1. rewrite Ha.
  replace (RtoC a * cis (carg z) - RtoC b * cis (carg z))%C with (RtoC (a - b) * cis (carg z))%C by (rewrite RtoC_minus; ring).
  rewrite cnorm2_mult, cnorm2_RtoC, cnorm2_cis. ring.
Qed.
Lemma circle_lower (z w : C) : (Cmod z - Cmod w) ^ 2 <= cnorm2 (z - w)%C.
Proof.
  rewrite cnorm2_Cmod. assert (H1 := Cmod_triangle (z - w)%C w). assert (H2 := Cmod_triangle (w - z)%C z).
  replace (z - w + w)%C with z in H1 by ring. replace (w - z + z)%C with w in H2 by ring.
  assert (E : Cmod (w - z)%C = Cmod (z - w)%C) by (rewrite <- Cmod_opp; f_equal; ring).
  assert (H3 := Cmod_ge_0 (z - w)%C). apply pow_maj_Rabs. apply Rabs_le. lra.
Qed.
(** Replacing the phase of a modulated beam by the phase of G brings it nearest to G. *)
Lemma best_phase (a t : R) (G : C) : 0 <= a -> cnorm2 (RtoC a * cis (carg G) - G)%C <= cnorm2 (RtoC a * cis t - G)%C.
Proof.
  intros Ha. replace (cnorm2 (RtoC a * cis (carg G) - G)%C) with ((Cmod G - a) ^ 2).
  - replace ((Cmod G - a) ^ 2) with ((Cmod (RtoC a * cis t)%C - Cmod G) ^ 2); [apply circle_lower|].
    rewrite Cmod_mult, Cmod_cis, Cmod_R, Rabs_pos_eq by exact Ha. ring.
  - rewrite <- (near_circle (Cmod G) a G (RtoC a * cis (carg G))%C Ha eq_refl eq_refl). rewrite <- cnorm2_opp. f_equal. ring.
Qed.
Definition raw_error (ny nx : nat) (F : nat -> nat -> C) (Tc ph : nat -> nat -> R) : R :=
  rsum2 ny nx (fun i j => (Cmod (ifft2 ny nx (fun i j => (F i j * cis (ph i j))%C) i j) - Tc i j) ^ 2).
Lemma gs_step_error ny nx F A c Tc ph : (forall i j, (i < ny)%nat -> (j < nx)%nat -> F i j = (RtoC (A i j) * cis c)%C /\ 0 <= A i j) ->
  (forall i j, (i < ny)%nat -> (j < nx)%nat -> 0 <= Tc i j) ->
  raw_error ny nx F Tc (gs_step ny nx F Tc ph) <= raw_error ny nx F Tc ph.
Proof.
  intros HF HT. destruct (Nat.eq_dec (ny * nx) 0) as [Z|NZ].
  { unfold raw_error. apply Nat.eq_mul_0 in Z. destruct Z as [-> | ->]; [cbn; lra|rewrite !rsum2_nx0; lra]. }
  set (img := ifft2 ny nx (fun i j => (F i j * cis (ph i j))%C)).
  set (cor := fun i j => (RtoC (Tc i j) * cis (carg (img i j)))%C).
  set (G := fft2 ny nx cor). set (ph' := gs_step ny nx F Tc ph).
  assert (Eph : forall i j, ph' i j = carg (G i j)) by reflexivity.
  set (img' := ifft2 ny nx (fun i j => (F i j * cis (ph' i j))%C)).
  assert (HN : 0 < INR (ny * nx)) by (apply lt_0_INR; lia).
  assert (S1 : raw_error ny nx F Tc ph' <= rsum2 ny nx (fun i j => cnorm2 (img' i j - cis c * cor i j)%C)).
  { apply rsum2_le. intros i j Hi Hj. fold img'. replace (Tc i j) with (Cmod (cis c * cor i j)%C); [apply circle_lower|].
    unfold cor. rewrite !Cmod_mult, !Cmod_cis, Cmod_R, Rabs_pos_eq by auto. ring. }
  assert (S2 : forall k f, INR (ny * nx) * rsum2 ny nx (fun i j => cnorm2 (ifft2 ny nx f i j - k * cor i j)%C) = rsum2 ny nx (fun i j => cnorm2 (f i j - k * G i j)%C)).
  { intros k f. rewrite <- (ifft2_parseval ny nx (fun i j => (f i j - k * G i j)%C)). f_equal. apply rsum2_ext. intros i j Hi Hj.
    rewrite ifft2_minus, ifft2_scal. unfold G. rewrite ifft2_fft2 by assumption. reflexivity. }
  assert (S3 : rsum2 ny nx (fun i j => cnorm2 (F i j * cis (ph' i j) - cis c * G i j)%C) <= rsum2 ny nx (fun i j => cnorm2 (F i j * cis (ph i j) - RtoC 1 * G i j)%C)).
  { apply rsum2_le. intros i j Hi Hj. destruct (HF i j Hi Hj) as [-> HA]. rewrite Eph.
    replace (RtoC (A i j) * cis c * cis (carg (G i j)) - cis c * G i j)%C with (cis c * (RtoC (A i j) * cis (carg (G i j)) - G i j))%C by ring.
    rewrite cnorm2_mult, cnorm2_cis, Rmult_1_l.
    replace (RtoC (A i j) * cis c * cis (ph i j) - RtoC 1 * G i j)%C with (RtoC (A i j) * cis (c + ph i j) - G i j)%C by (rewrite cis_plus; ring).
    apply best_phase, HA. }
  assert (S4 : rsum2 ny nx (fun i j => cnorm2 (img i j - RtoC 1 * cor i j)%C) = raw_error ny nx F Tc ph).
  { apply rsum2_ext. intros i j Hi Hj. rewrite Cmult_1_l. apply near_circle; auto. }
  assert (E1 := S2 (cis c) (fun i j => (F i j * cis (ph' i j))%C)). assert (E2 := S2 (RtoC 1) (fun i j => (F i j * cis (ph i j))%C)). cbn beta in E1, E2.
  apply Rle_trans with (1 := S1). rewrite <- S4. apply Rmult_le_reg_l with (1 := HN). unfold img', img. rewrite E1, E2. exact S3.
Qed.
Lemma raw_image_error ny nx F T ph : raw_error ny nx F (ifftshift2 ny nx T) ph = image_error ny nx F T ph.
Proof.
  unfold raw_error, image_error. rewrite <- rsum2_fftshift. apply rsum2_ext. intros u v Hu Hv. unfold fftshift2.
  rewrite ifft2_image by assumption. rewrite Cmod_mult, Cmod_offs, Rmult_1_r. unfold ifftshift2. rewrite !ishift_shift by assumption. reflexivity.
Qed.
Lemma iter_S {A} n (f : A -> A) a : iter (S n) f a = f (iter n f a). Proof. reflexivity. Qed.
Lemma gs_error_mono ny nx F A c T u N N' : (forall i j, (i < ny)%nat -> (j < nx)%nat -> F i j = (RtoC (A i j) * cis c)%C /\ 0 <= A i j) ->
  (forall i j, (i < ny)%nat -> (j < nx)%nat -> 0 <= T i j) -> (N <= N')%Z ->
  image_error ny nx F T (gs_array ny nx F T u N') <= image_error ny nx F T (gs_array ny nx F T u N).
Proof.
  intros HF HT HN. rewrite <- !raw_image_error. unfold gs_array.
  assert (M : forall k n ph0, raw_error ny nx F (ifftshift2 ny nx T) (iter (k + n) (gs_step ny nx F (ifftshift2 ny nx T)) ph0)
                        <= raw_error ny nx F (ifftshift2 ny nx T) (iter n (gs_step ny nx F (ifftshift2 ny nx T)) ph0)).
  { induction k as [|k IH]; intros n ph0; [cbn [Nat.add]; lra|]. cbn [Nat.add]. rewrite iter_S.
    eapply Rle_trans; [|apply IH]. apply gs_step_error with (A := A) (c := c); [exact HF|].
    intros i j Hi Hj. unfold ifftshift2. apply HT; apply ishift_idx_lt; lia. }
  replace (Z.to_nat N') with ((Z.to_nat N' - Z.to_nat N) + Z.to_nat N)%nat by lia. apply M.
Qed.
