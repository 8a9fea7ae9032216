(** Reflections of phase-retrieval runs on a device (C125). *)
From Coq Require Import Reals Lra Psatz ZArith Arith List Bool Lia.
From Coquelicot Require Import Complex.
From Verif Require Import Cx Sums DFT PyBase ProfileModel SlmModel LibModel DmdModel SimModel SimSpec GridFacts SimFacts SimFacts2 DmdSpec DmdFacts DmdFacts2 AmpFacts5 HoloSpec HoloFacts HoloFacts2 HoloThms IftaSym DmdExamples SimExamples HoloExamples ReflSpec ReflFacts.
Open Scope R_scope.

Section Steps.
Variables (ny nx : nat) (F F' : nat -> nat -> C) (T T' : nat -> nat -> R) (W W' : nat -> nat -> C) (m : R).
(** ** The conjugate beam and the reflected target *)
Section Conj.
Hypothesis HF : forall i j, (i < ny)%nat -> (j < nx)%nat -> F' i j = cconj (F i j).
Hypothesis HT : forall u v, (u < ny)%nat -> (v < nx)%nat -> T' u v = T (reflect ny u) (reflect nx v).
Hypothesis HW : forall u v, (u < ny)%nat -> (v < nx)%nat -> W' u v = cconj (W (reflect ny u) (reflect nx v)).
Let related (p p' : nat -> nat -> R) := forall i j, (i < ny)%nat -> (j < nx)%nat -> cis (p' i j) = cconj (cis (p i j)).
Lemma image_conj p p' u v : related p p' -> (u < ny)%nat -> (v < nx)%nat ->
  ifft2 ny nx (fun i j => (F' i j * cis (p' i j))%C) u v = cconj (ifft2 ny nx (fun i j => (F i j * cis (p i j))%C) (opposite ny u) (opposite nx v)).
Proof.
  intros R Hu Hv. rewrite <- ifft2_of_conj by assumption. apply ifft2_ext. intros i j Hi Hj. rewrite HF, R, cconj_mult by assumption. reflexivity.
Qed.
Lemma shifted_target u v : (u < ny)%nat -> (v < nx)%nat -> ifftshift2 ny nx T' u v = ifftshift2 ny nx T (opposite ny u) (opposite nx v).
Proof.
  intros Hu Hv. unfold ifftshift2. rewrite HT by (apply ishift_idx_lt; lia). rewrite !ishift_opposite by assumption. reflexivity.
Qed.
Lemma shifted_window u v : (u < ny)%nat -> (v < nx)%nat -> ifftshift2 ny nx W' u v = cconj (ifftshift2 ny nx W (opposite ny u) (opposite nx v)).
Proof.
  intros Hu Hv. unfold ifftshift2. rewrite HW by (apply ishift_idx_lt; lia). rewrite !ishift_opposite by assumption. reflexivity.
Qed.
Lemma gs_step_conj p p' : related p p' -> related (gs_step ny nx F (ifftshift2 ny nx T) p) (gs_step ny nx F' (ifftshift2 ny nx T') p').
Proof.
  intros R i j Hi Hj. unfold gs_step. rewrite <- cis_carg_conj. f_equal. f_equal. rewrite <- fft2_of_conj by assumption. apply fft2_ext. intros u v Hu Hv.
  rewrite cconj_mult, cconj_RtoC, shifted_target, (image_conj p p') by assumption. rewrite cis_carg_conj. reflexivity.
Qed.
Lemma mraf_step_conj p p' : related p p' -> related (mraf_step ny nx F (ifftshift2 ny nx T) (ifftshift2 ny nx W) m p) (mraf_step ny nx F' (ifftshift2 ny nx T') (ifftshift2 ny nx W') m p').
Proof.
  intros R i j Hi Hj. unfold mraf_step. rewrite <- cis_carg_conj. f_equal. f_equal. rewrite <- fft2_of_conj by assumption. apply fft2_ext. intros u v Hu Hv.
  rewrite cconj_plus, !cconj_mult, !cconj_RtoC, shifted_target, shifted_window, (image_conj p p') by assumption. rewrite cis_carg_conj.
  f_equal. f_equal. cring.
Qed.
Lemma gs_conj u u' N : (forall i j, (i < ny)%nat -> (j < nx)%nat -> cis (2 * PI * u' i j) = cconj (cis (2 * PI * u i j))) ->
  related (gs_array ny nx F T u N) (gs_array ny nx F' T' u' N).
Proof.
  intros Hu. unfold gs_array. induction (Z.to_nat N) as [|n IH]; cbn [iter]; [exact Hu|]. apply gs_step_conj. exact IH.
Qed.
Lemma mraf_conj u u' N : (forall i j, (i < ny)%nat -> (j < nx)%nat -> cis (2 * PI * u' i j) = cconj (cis (2 * PI * u i j))) ->
  related (mraf_array ny nx F T W m u N) (mraf_array ny nx F' T' W' m u' N).
Proof.
  intros Hu. unfold mraf_array. induction (Z.to_nat N) as [|n IH]; cbn [iter]; [exact Hu|]. apply mraf_step_conj. exact IH.
Qed.
End Conj.
(** ** Beam, target and random numbers reversed alike *)
Section Flip.
Variables a b : bool.
Let rf (c : bool) n k := if c then reflect n k else k.
Hypothesis HF : forall i j, (i < ny)%nat -> (j < nx)%nat -> F' i j = F (opp_if b ny i) (opp_if a nx j).
Hypothesis HT : forall u v, (u < ny)%nat -> (v < nx)%nat -> T' u v = T (rf b ny u) (rf a nx v).
Hypothesis HW : forall u v, (u < ny)%nat -> (v < nx)%nat -> W' u v = W (rf b ny u) (rf a nx v).
Let related (p p' : nat -> nat -> R) := forall i j, (i < ny)%nat -> (j < nx)%nat -> p' i j = p (opp_if b ny i) (opp_if a nx j).
Lemma ishift_rf c n k : (k < n)%nat -> rf c n (ishift_idx n k) = ishift_idx n (opp_if c n k).
Proof. intros H. destruct c; cbn [rf opp_if]; [symmetry; apply ishift_opposite; exact H|reflexivity]. Qed.
Lemma image_flip p p' u v : related p p' -> (u < ny)%nat -> (v < nx)%nat ->
  ifft2 ny nx (fun i j => (F' i j * cis (p' i j))%C) u v = ifft2 ny nx (fun i j => (F i j * cis (p i j))%C) (opp_if b ny u) (opp_if a nx v).
Proof.
  intros R Hu Hv. rewrite <- (ifft2_flip a b ny nx (fun i j => (F i j * cis (p i j))%C)) by assumption. apply ifft2_ext. intros i j Hi Hj. rewrite HF, R by assumption. reflexivity.
Qed.
Lemma flipped_target u v : (u < ny)%nat -> (v < nx)%nat -> ifftshift2 ny nx T' u v = ifftshift2 ny nx T (opp_if b ny u) (opp_if a nx v).
Proof. intros Hu Hv. unfold ifftshift2. rewrite HT by (apply ishift_idx_lt; lia). rewrite !ishift_rf by assumption. reflexivity. Qed.
Lemma flipped_window u v : (u < ny)%nat -> (v < nx)%nat -> ifftshift2 ny nx W' u v = ifftshift2 ny nx W (opp_if b ny u) (opp_if a nx v).
Proof. intros Hu Hv. unfold ifftshift2. rewrite HW by (apply ishift_idx_lt; lia). rewrite !ishift_rf by assumption. reflexivity. Qed.
Lemma gs_step_flip p p' : related p p' -> related (gs_step ny nx F (ifftshift2 ny nx T) p) (gs_step ny nx F' (ifftshift2 ny nx T') p').
Proof.
  intros R i j Hi Hj. unfold gs_step. f_equal. rewrite <- (fft2_flip a b ny nx) by assumption. apply fft2_ext. intros u v Hu Hv.
  rewrite flipped_target, (image_flip p p') by assumption. reflexivity.
Qed.
Lemma mraf_step_flip p p' : related p p' -> related (mraf_step ny nx F (ifftshift2 ny nx T) (ifftshift2 ny nx W) m p) (mraf_step ny nx F' (ifftshift2 ny nx T') (ifftshift2 ny nx W') m p').
Proof.
  intros R i j Hi Hj. unfold mraf_step. f_equal. rewrite <- (fft2_flip a b ny nx) by assumption. apply fft2_ext. intros u v Hu Hv.
  rewrite flipped_target, flipped_window, (image_flip p p') by assumption. reflexivity.
Qed.
Lemma gs_flip u u' N : (forall i j, (i < ny)%nat -> (j < nx)%nat -> u' i j = u (opp_if b ny i) (opp_if a nx j)) ->
  related (gs_array ny nx F T u N) (gs_array ny nx F' T' u' N).
Proof.
  intros Hu. unfold gs_array. induction (Z.to_nat N) as [|n IH]; cbn [iter]; [intros i j Hi Hj; rewrite Hu by assumption; reflexivity|]. apply gs_step_flip. exact IH.
Qed.
Lemma mraf_flip u u' N : (forall i j, (i < ny)%nat -> (j < nx)%nat -> u' i j = u (opp_if b ny i) (opp_if a nx j)) ->
  related (mraf_array ny nx F T W m u N) (mraf_array ny nx F' T' W' m u' N).
Proof.
  intros Hu. unfold mraf_array. induction (Z.to_nat N) as [|n IH]; cbn [iter]; [intros i j Hi Hj; rewrite Hu by assumption; reflexivity|]. apply mraf_step_flip. exact IH.
Qed.
End Flip.
End Steps.
(** ** On a device *)
Lemma hologram_conj h l input input' target target' F F' T T' u u' N : let s := l_slm l in
  full_input h s input F -> full_input h s input' F' -> real_target h s target T -> real_target h s target' T' ->
  (forall i j, in_slm s i j -> F' i j = cconj (F i j) /\ T' i j = flipped_image s true true T i j /\ cis (2 * PI * u' i j) = cconj (cis (2 * PI * u i j))) ->
  exists p p', stores s (calculate_hologram h l input target MGs (gs_kwargs N) u) p /\ stores s (calculate_hologram h l input' target' MGs (gs_kwargs N) u') p' /\
    (forall i j, in_slm s i j -> cis (p' i j) = cconj (cis (p i j))).
Proof.
  intros s HF HF' HT HT' H. do 2 eexists. split; [exact (gs_stores h l input target F T HF HT (gs_kwargs N) u)|]. split; [exact (gs_stores h l input' target' F' T' HF' HT' (gs_kwargs N) u')|].
  intros i j [Hi Hj]. apply gs_conj; try assumption.
  - intros. apply (H i0 j0 (conj H0 H1)).
  - intros. apply (H u0 v (conj H0 H1)).
  - intros. apply (H i0 j0 (conj H0 H1)).
Qed.
Lemma mraf_hologram_conj h l input input' target target' w w' F F' T T' W W' m u u' N : let s := l_slm l in
  full_input h s input F -> full_input h s input' F' -> real_target h s target T -> real_target h s target' T' -> full_target h s w W -> full_target h s w' W' ->
  (forall i j, in_slm s i j -> F' i j = cconj (F i j) /\ T' i j = flipped_image s true true T i j /\ W' i j = cconj (flipped_image s true true W i j) /\ cis (2 * PI * u' i j) = cconj (cis (2 * PI * u i j))) ->
  exists p p', stores s (calculate_hologram h l input target MMraf (mraf_kwargs N w m) u) p /\ stores s (calculate_hologram h l input' target' MMraf (mraf_kwargs N w' m) u') p' /\
    (forall i j, in_slm s i j -> cis (p' i j) = cconj (cis (p i j))).
Proof.
  intros s HF HF' HT HT' HW HW' H. do 2 eexists.
  split; [exact (mraf_stores h l input target F T HF HT (mraf_kwargs N w m) w W u eq_refl HW)|]. split; [exact (mraf_stores h l input' target' F' T' HF' HT' (mraf_kwargs N w' m) w' W' u' eq_refl HW')|].
  intros i j [Hi Hj]. apply mraf_conj; try assumption; intros x y Hx Hy; apply (H x y (conj Hx Hy)).
Qed.
Lemma hologram_flip h l input input' target target' F F' T T' u u' N a b : let s := l_slm l in
  full_input h s input F -> full_input h s input' F' -> real_target h s target T -> real_target h s target' T' ->
  (forall i j, in_slm s i j -> F' i j = flipped_beam s a b F i j /\ T' i j = flipped_image s a b T i j /\ u' i j = flipped_beam s a b u i j) ->
  exists p p', stores s (calculate_hologram h l input target MGs (gs_kwargs N) u) p /\ stores s (calculate_hologram h l input' target' MGs (gs_kwargs N) u') p' /\
    (forall i j, in_slm s i j -> p' i j = flipped_beam s a b p i j).
Proof.
  intros s HF HF' HT HT' H. do 2 eexists. split; [exact (gs_stores h l input target F T HF HT (gs_kwargs N) u)|]. split; [exact (gs_stores h l input' target' F' T' HF' HT' (gs_kwargs N) u')|].
  intros i j [Hi Hj]. apply (gs_flip _ _ F F' T T' a b); try assumption; intros x y Hx Hy; apply (H x y (conj Hx Hy)).
Qed.
Lemma mraf_hologram_flip h l input input' target target' w w' F F' T T' W W' m u u' N a b : let s := l_slm l in
  full_input h s input F -> full_input h s input' F' -> real_target h s target T -> real_target h s target' T' -> full_target h s w W -> full_target h s w' W' ->
  (forall i j, in_slm s i j -> F' i j = flipped_beam s a b F i j /\ T' i j = flipped_image s a b T i j /\ W' i j = flipped_image s a b W i j /\ u' i j = flipped_beam s a b u i j) ->
  exists p p', stores s (calculate_hologram h l input target MMraf (mraf_kwargs N w m) u) p /\ stores s (calculate_hologram h l input' target' MMraf (mraf_kwargs N w' m) u') p' /\
    (forall i j, in_slm s i j -> p' i j = flipped_beam s a b p i j).
Proof.
  intros s HF HF' HT HT' HW HW' H. do 2 eexists.
  split; [exact (mraf_stores h l input target F T HF HT (mraf_kwargs N w m) w W u eq_refl HW)|]. split; [exact (mraf_stores h l input' target' F' T' HF' HT' (mraf_kwargs N w' m) w' W' u' eq_refl HW')|].
  intros i j [Hi Hj]. apply (mraf_flip _ _ F F' T T' W W' m a b); try assumption; intros x y Hx Hy; apply (H x y (conj Hx Hy)).
Qed.
(** ** What a device with a real beam displays *)
Lemma rsum2_reflect ny nx f : rsum2 ny nx (fun u v => f (reflect ny u) (reflect nx v)) = rsum2 ny nx f.
Proof.
  assert (E := csum2_reflect ny nx (fun u v => RtoC (f u v))). rewrite !csum2_RtoC in E. injection E. auto.
Qed.
Lemma reflect_reflect n k : (k < n)%nat -> reflect n (reflect n k) = k.
Proof.
  intros H. assert (E1 := shift_ishift n). assert (Q := ishift_opposite n (shift_idx n k) ltac:(apply shift_idx_lt; lia)). rewrite ishift_shift in Q by exact H.
  rewrite <- Q. rewrite <- ishift_opposite by (apply opposite_lt; lia). rewrite opposite_opposite by (apply shift_idx_lt; lia). apply ishift_shift. exact H.
Qed.
Lemma shown_error h l input target F A T T' u N m : let s := l_slm l in
  full_input h s input F -> real_target h s target T' -> (forall i j, in_slm s i j -> F i j = RtoC (A i j) /\ T' i j = flipped_image s true true T i j) ->
  scaling_factor s <> 0 -> pad_x m = 0%Z -> pad_y m = 0%Z ->
  exists l' m' E p, calculate_hologram h l input target MGs (gs_kwargs N) u = (l', Ok tt) /\ stores s (l', Ok tt) p /\ propagate_to_image h (DevLcos l') m input = (m', Ok tt) /\
    field_is (f_image m') (s_Ny s) (s_Nx s) E /\ display_error s (Rabs (eta_scale s)) E T = eta_scale s ^ 2 * image_error (s_Ny s) (s_Nx s) F T' p.
Proof.
  intros s HF HT H Hs Px Py. assert (St := gs_stores h l input target F T' HF HT (gs_kwargs N) u). destruct (calculate_hologram h l input target MGs (gs_kwargs N) u) as [l' r] eqn:EC.
  destruct St as [S1 S2]. cbn [fst snd] in S1, S2. subst r l'. set (p := gs_array _ _ _ _ _ _) in *. fold s in EC |- *.
  destruct (lcos_displayed h {| l_slm := s; l_state := LReal (s_Ny s) (s_Nx s) p |} input F A p m HF eq_refl Hs Px Py) as (m' & E & P & FI & _ & V). cbn [l_slm] in *.
  do 4 eexists. split; [reflexivity|]. split; [split; reflexivity|]. split; [exact P|]. split; [exact FI|].
  unfold display_error, image_error. rewrite <- rsum2_scal_l. rewrite <- (rsum2_reflect _ _ (fun i j => eta_scale s ^ 2 * (Cmod (image_of (s_Ny s) (s_Nx s) (modulated F p) i j) - T' i j) ^ 2)).
  apply rsum2_ext. intros i j Hi Hj. rewrite V by (try (split; assumption); intros x y Hxy; apply (H x y Hxy)).
  assert (Ri : (reflect (s_Ny s) i < s_Ny s)%nat) by (apply reflect_lt; lia). assert (Rj : (reflect (s_Nx s) j < s_Nx s)%nat) by (apply reflect_lt; lia).
  rewrite (proj2 (H _ _ (conj Ri Rj))). unfold flipped_image. rewrite !reflect_reflect by assumption. rewrite <- Rmult_minus_distr_l, Rpow_mult_distr, pow2_abs. reflexivity.
Qed.
Lemma reflected_target_monotone h l input target F A T T' u N N' m : let s := l_slm l in
  full_input h s input F -> real_target h s target T' ->
  (forall i j, in_slm s i j -> F i j = RtoC (A i j) /\ 0 <= A i j /\ 0 <= T i j /\ T' i j = flipped_image s true true T i j) ->
  scaling_factor s <> 0 -> pad_x m = 0%Z -> pad_y m = 0%Z -> (N <= N')%Z ->
  exists l1 l2 m1 m2 E1 E2,
    calculate_hologram h l input target MGs (gs_kwargs N) u = (l1, Ok tt) /\ propagate_to_image h (DevLcos l1) m input = (m1, Ok tt) /\ field_is (f_image m1) (s_Ny s) (s_Nx s) E1 /\
    calculate_hologram h l input target MGs (gs_kwargs N') u = (l2, Ok tt) /\ propagate_to_image h (DevLcos l2) m input = (m2, Ok tt) /\ field_is (f_image m2) (s_Ny s) (s_Nx s) E2 /\
    display_error s (Rabs (eta_scale s)) E2 T <= display_error s (Rabs (eta_scale s)) E1 T.
Proof.
  intros s HF HT H Hs Px Py HN.
  assert (H' : forall i j, in_slm s i j -> F i j = RtoC (A i j) /\ T' i j = flipped_image s true true T i j) by (intros i j Hij; split; apply (H i j Hij)).
  destruct (shown_error h l input target F A T T' u N m HF HT H' Hs Px Py) as (l1 & m1 & E1 & p1 & C1 & S1 & P1 & I1 & D1).
  destruct (shown_error h l input target F A T T' u N' m HF HT H' Hs Px Py) as (l2 & m2 & E2 & p2 & C2 & S2 & P2 & I2 & D2).
  exists l1, l2, m1, m2, E1, E2. repeat (split; [assumption|]). fold s in D1, D2. rewrite D1, D2. apply Rmult_le_compat_l; [apply pow2_ge_0|].
  destruct (gs_monotone h l input target F A 0 T' u N N' HF HT) as (q1 & q2 & Q1 & Q2 & M); [| |exact HN|].
  - intros i j Hij. destruct (H i j Hij) as (-> & HA & _ & _). split; [rewrite cis_0; ring|exact HA].
  - intros i j [Hi Hj]. rewrite (proj2 (H' i j (conj Hi Hj))). unfold flipped_image. apply (H (reflect (s_Ny s) i) (reflect (s_Nx s) j)). split; apply reflect_lt; fold s in Hi, Hj; lia.
  - rewrite C1 in Q1. rewrite C2 in Q2. destruct Q1 as [_ Q1]. destruct Q2 as [_ Q2]. destruct S1 as [_ S1]. destruct S2 as [_ S2]. cbn [fst] in *.
    assert (p1 = q1) by (rewrite S1 in Q1; injection Q1; auto). assert (p2 = q2) by (rewrite S2 in Q2; injection Q2; auto). subst q1 q2. exact M.
Qed.
(** ** Case: a uniform beam and a spot *)
Definition mirrored3 : parg := AConstR (T2 1 3 (flipped_image slm3 true true (spot 0 2))).
Definition start_a (i j : nat) : R := INR (S j) / 4.
Lemma refl_case : full_input ex_heap slm3 flat3 (fun _ _ => RtoC 1) /\ real_target ex_heap slm3 spot3 (spot 0 2) /\ real_target ex_heap slm3 mirrored3 (flipped_image slm3 true true (spot 0 2)) /\
  (forall i j, in_slm slm3 i j -> RtoC 1 = cconj (RtoC 1) /\ flipped_image slm3 true true (spot 0 2) i j = flipped_image slm3 true true (spot 0 2) i j /\ cis (2 * PI * (1 - start_a i j)) = cconj (cis (2 * PI * start_a i j))) /\
  (forall i j, in_slm slm3 i j -> RtoC 1 = RtoC 1 /\ 0 <= 1 /\ 0 <= spot 0 2 i j /\ flipped_image slm3 true true (spot 0 2) i j = flipped_image slm3 true true (spot 0 2) i j) /\
  scaling_factor slm3 <> 0 /\ pad_x ex_sim0 = 0%Z /\ pad_y ex_sim0 = 0%Z /\
  flipped_image slm3 true true (spot 0 2) 0%nat 0%nat = 1 /\ flipped_image slm3 true true (spot 0 2) 0%nat 2%nat = 0 /\
  (forall i j, in_slm slm3 i j -> 0 <= 1 - start_a i j < 1).
Proof.
  repeat apply conj; try reflexivity.
  - intros i j H. split; [rewrite cconj_RtoC; reflexivity|]. split; [reflexivity|]. rewrite <- cis_neg. replace (2 * PI * (1 - start_a i j)) with (- (2 * PI * start_a i j) + 2 * PI * IZR 1) by ring. apply cis_period.
  - intros i j H. repeat apply conj; try reflexivity; try lra. unfold spot. destruct (_ && _)%bool; lra.
  - unfold scaling_factor, slm3. cbn [wavelength focal_length]. lra.
  - intros i j H. unfold start_a. destruct (in3 i j H) as [-> [-> | [-> | ->]]]; cbn [INR]; lra.
Qed.
(** ** A spot, wherever it is wanted *)
Lemma spot_shown h l input target a b u m : let s := l_slm l in in_slm s a b ->
  full_input h s input (fun _ _ => RtoC 1) -> real_target h s target (spot (reflect (s_Ny s) a) (reflect (s_Nx s) b)) -> scaling_factor s <> 0 -> pad_x m = 0%Z -> pad_y m = 0%Z ->
  exists l' m' E, calculate_hologram h l input target MGs (gs_kwargs 1) u = (l', Ok tt) /\ propagate_to_image h (DevLcos l') m input = (m', Ok tt) /\
    field_is (f_image m') (s_Ny s) (s_Nx s) E /\ (forall i j, in_slm s i j -> Cmod (E i j) = if (Nat.eqb i a && Nat.eqb j b)%bool then Rabs (eta_scale s) else 0).
Proof.
  intros s [Ha Hb] HF HT Hs Px Py. assert (St := gs_stores h l input target _ _ HF HT (gs_kwargs 1) u). destruct (calculate_hologram h l input target MGs (gs_kwargs 1) u) as [l' r] eqn:EC.
  destruct St as [S1 S2]. cbn [fst snd] in S1, S2. subst r l'. cbn [gs_kwargs lk_N dflt] in *. set (p := gs_array _ _ _ _ _ _) in *. fold s in EC |- *.
  destruct (lcos_displayed h {| l_slm := s; l_state := LReal (s_Ny s) (s_Nx s) p |} input (fun _ _ => RtoC 1) (fun _ _ => 1) p m HF eq_refl Hs Px Py) as (m' & E & P & FI & _ & V). cbn [l_slm] in *.
  exists {| l_slm := s; l_state := LReal (s_Ny s) (s_Nx s) p |}, m', E. split; [reflexivity|]. split; [exact P|]. split; [exact FI|]. intros i j [Hi Hj]. rewrite V by (try (split; assumption); reflexivity).
  assert (Ri : (reflect (s_Ny s) i < s_Ny s)%nat) by (apply reflect_lt; lia). assert (Rj : (reflect (s_Nx s) j < s_Nx s)%nat) by (apply reflect_lt; lia).
  assert (Ra : (reflect (s_Ny s) a < s_Ny s)%nat) by (apply reflect_lt; lia). assert (Rb : (reflect (s_Nx s) b < s_Nx s)%nat) by (apply reflect_lt; lia).
  unfold p. fold s. rewrite gs_spot by assumption. unfold spot.
  replace (Nat.eqb (reflect (s_Ny s) i) (reflect (s_Ny s) a)) with (Nat.eqb i a).
  2: { destruct (Nat.eqb_spec i a) as [-> |N]; [rewrite Nat.eqb_refl; reflexivity|]. symmetry. apply Nat.eqb_neq. intros Q. apply N. rewrite <- (reflect_reflect (s_Ny s) i), Q, reflect_reflect by assumption. reflexivity. }
  replace (Nat.eqb (reflect (s_Nx s) j) (reflect (s_Nx s) b)) with (Nat.eqb j b).
  2: { destruct (Nat.eqb_spec j b) as [-> |N]; [rewrite Nat.eqb_refl; reflexivity|]. symmetry. apply Nat.eqb_neq. intros Q. apply N. rewrite <- (reflect_reflect (s_Nx s) j), Q, reflect_reflect by assumption. reflexivity. }
  destruct (_ && _)%bool; ring.
Qed.
