(** Final forms of the LCOS theorems, and the counterexamples (C40-C44, C58). *)
From Coq Require Import Reals Lra Psatz ZArith Arith List Bool Lia FunctionalExtensionality.
From Coquelicot Require Import Complex.
From Verif Require Import Cx Sums DFT PyBase ProfileModel SlmModel LibModel DmdModel SimModel SimSpec GridFacts SimFacts SimFacts2 SimExamples DmdSpec DmdFacts DmdFacts2 DmdFacts3 AmpFacts AmpFacts3 AmpFacts4 HoloSpec HoloFacts HoloFacts2.
Import ListNotations.
Open Scope R_scope.

Lemma gs_monotone h l input target F A c T u N N' : full_input h (l_slm l) input F -> real_target h (l_slm l) target T ->
  (forall i j, in_slm (l_slm l) i j -> F i j = (RtoC (A i j) * cis c)%C /\ 0 <= A i j) ->
  (forall i j, in_slm (l_slm l) i j -> 0 <= T i j) -> (N <= N')%Z ->
  exists p p', stores (l_slm l) (calculate_hologram h l input target MGs (gs_kwargs N) u) p /\
    stores (l_slm l) (calculate_hologram h l input target MGs (gs_kwargs N') u) p' /\
    image_error (s_Ny (l_slm l)) (s_Nx (l_slm l)) F T p' <= image_error (s_Ny (l_slm l)) (s_Nx (l_slm l)) F T p.
Proof.
  intros HF HT HA HT0 HN. do 2 eexists. split; [apply gs_stores; eassumption|]. split; [apply gs_stores; eassumption|].
  cbn [gs_kwargs lk_N dflt]. apply gs_error_mono with (A := A) (c := c); [| |exact HN]; intros i j Hi Hj; [apply HA|apply HT0]; split; assumption.
Qed.
Lemma mraf_contains_gs h l input target w F T W u N m : full_input h (l_slm l) input F -> real_target h (l_slm l) target T ->
  full_target h (l_slm l) w W -> (forall i j, in_slm (l_slm l) i j -> W i j = RtoC 1) -> 0 < m ->
  same_hologram (l_slm l) (calculate_hologram h l input target MMraf (mraf_kwargs N w m) u) (calculate_hologram h l input target MGs (gs_kwargs N) u).
Proof.
  intros HF HT HW H1 Hm. do 2 eexists. split; [eapply mraf_stores; try eassumption; reflexivity|]. split; [apply gs_stores; eassumption|].
  cbn [gs_kwargs mraf_kwargs lk_N lk_mix dflt]. intros i j [Hi Hj]. apply mraf_is_gs; [exact Hm| |exact Hi|exact Hj]. intros a b Ha Hb. apply H1. split; assumption.
Qed.
Lemma mraf_ignores_target h l input target target' w F T T' W u N : full_input h (l_slm l) input F -> real_target h (l_slm l) target T ->
  real_target h (l_slm l) target' T' -> full_target h (l_slm l) w W ->
  same_hologram (l_slm l) (calculate_hologram h l input target MMraf (mraf_kwargs N w 0) u) (calculate_hologram h l input target' MMraf (mraf_kwargs N w 0) u).
Proof.
  intros HF HT HT' HW. do 2 eexists. split; [eapply mraf_stores; try eassumption; reflexivity|]. split; [eapply mraf_stores; try eassumption; reflexivity|].
  cbn [gs_kwargs mraf_kwargs lk_N lk_mix dflt]. intros i j [Hi Hj]. apply mraf_no_mixing; assumption.
Qed.
Lemma gs_scaling h l input target input' target' F T a b kw u : full_input h (l_slm l) input F -> real_target h (l_slm l) target T ->
  full_input h (l_slm l) input' (fun i j => (RtoC a * F i j)%C) -> real_target h (l_slm l) target' (fun i j => b * T i j) -> 0 < a -> 0 < b ->
  same_hologram (l_slm l) (calculate_hologram h l input' target' MGs kw u) (calculate_hologram h l input target MGs kw u).
Proof.
  intros HF HT HF' HT' Ha Hb. do 2 eexists. split; [apply gs_stores; eassumption|]. split; [apply gs_stores; eassumption|].
  intros i j [Hi Hj]. apply gs_scale; assumption.
Qed.
Lemma mraf_scaling h l input target input' target' F T w W c kw u : full_input h (l_slm l) input F -> real_target h (l_slm l) target T ->
  full_input h (l_slm l) input' (fun i j => (RtoC c * F i j)%C) -> real_target h (l_slm l) target' (fun i j => c * T i j) -> 0 < c ->
  lk_window kw = Some w -> full_target h (l_slm l) w W ->
  same_hologram (l_slm l) (calculate_hologram h l input' target' MMraf kw u) (calculate_hologram h l input target MMraf kw u).
Proof.
  intros HF HT HF' HT' Hc Ew HW. do 2 eexists. split; [eapply mraf_stores; eassumption|]. split; [eapply mraf_stores; eassumption|].
  intros i j [Hi Hj]. apply mraf_scale; assumption.
Qed.
Lemma ranges h l input target F T kw u : full_input h (l_slm l) input F -> real_target h (l_slm l) target T ->
  (forall i j, in_slm (l_slm l) i j -> 0 <= u i j < 1) ->
  (exists p, stores (l_slm l) (calculate_hologram h l input target MGs kw u) p /\ forall i j, in_slm (l_slm l) i j ->
     ((1 <= dflt (lk_N kw) 200)%Z -> - PI < p i j <= PI) /\ ((dflt (lk_N kw) 200 <= 0)%Z -> 0 <= p i j < 2 * PI)) /\
  (forall w W, lk_window kw = Some w -> full_target h (l_slm l) w W ->
   exists p, stores (l_slm l) (calculate_hologram h l input target MMraf kw u) p /\ forall i j, in_slm (l_slm l) i j ->
     ((1 <= dflt (lk_N kw) 200)%Z -> - PI < p i j <= PI) /\ ((dflt (lk_N kw) 200 <= 0)%Z -> 0 <= p i j < 2 * PI)) /\
  (lk_window kw = None -> calculate_hologram h l input target MMraf kw u = (l, Err KeyError)) /\
  calculate_hologram h l input target MLUnknown kw u = (l, Err ValueError).
Proof.
  intros HF HT Hu. split; [|split; [|split]].
  - eexists. split; [apply gs_stores; eassumption|]. intros i j Hij. split; intros HN; [apply gs_range, HN|apply zero_range; auto].
  - intros w W Ew HW. eexists. split; [eapply mraf_stores; eassumption|]. intros i j Hij. split; intros HN; [apply mraf_range, HN|apply zero_range_mraf; auto].
  - intros E. eapply mraf_no_window; eassumption.
  - eapply holo_unknown; eassumption.
Qed.
Lemma lcos_displayed h l input F A phi m : full_input h (l_slm l) input F -> l_state l = LReal (s_Ny (l_slm l)) (s_Nx (l_slm l)) phi ->
  scaling_factor (l_slm l) <> 0 -> pad_x m = 0%Z -> pad_y m = 0%Z ->
  exists m' E, propagate_to_image h (DevLcos l) m input = (m', Ok tt) /\ field_is (f_image m') (s_Ny (l_slm l)) (s_Nx (l_slm l)) E /\
    (forall u v, in_slm (l_slm l) u v -> E u v = (RtoC (eta_scale (l_slm l)) * image_of (s_Ny (l_slm l)) (s_Nx (l_slm l)) (modulated F (fun i j => Ropp (phi i j))) u v)%C) /\
    ((forall i j, in_slm (l_slm l) i j -> F i j = RtoC (A i j)) -> forall u v, in_slm (l_slm l) u v ->
       Cmod (E u v) = Rabs (eta_scale (l_slm l)) *
         Cmod (image_of (s_Ny (l_slm l)) (s_Nx (l_slm l)) (modulated F phi) (reflect (s_Ny (l_slm l)) u) (reflect (s_Nx (l_slm l)) v))).
Proof.
  intros HF E Hs Hx Hy. destruct (lcos_simulated h l input F phi m HF E Hs Hx Hy) as (m' & P & Hi).
  exists m'. eexists. split; [exact P|]. split; [exact Hi|]. split; [intros; reflexivity|]. cbn beta. intros HA u v [Hu Hv].
  rewrite (image_reflect _ _ F A phi u v Hu Hv) by (intros i j Hi' Hj'; apply HA; split; assumption).
  rewrite Cmod_mult, Cmod_R, Cmod_cconj. reflexivity.
Qed.

(** ** A spot target is reached exactly in one iteration by a flat beam. *)
Definition spot (p q i j : nat) : R := if (Nat.eqb i p && Nat.eqb j q)%bool then 1 else 0.
Lemma gs_spot ny nx p q (u : nat -> nat -> R) a b : (p < ny)%nat -> (q < nx)%nat -> (a < ny)%nat -> (b < nx)%nat ->
  Cmod (image_of ny nx (modulated (fun _ _ => RtoC 1) (gs_array ny nx (fun _ _ => RtoC 1) (spot p q) u 1)) a b) = spot p q a b.
Proof.
  intros Hp Hq Ha Hb. unfold gs_array. change (Z.to_nat 1) with 1%nat. cbn [iter]. set (ph0 := fun i j => 2 * PI * u i j). unfold gs_step.
  set (cor := fun i j => (RtoC (ifftshift2 ny nx (spot p q) i j) * cis (carg (ifft2 ny nx (fun i j => (RtoC 1 * cis (ph0 i j))%C) i j)))%C).
  set (k := cis (carg (ifft2 ny nx (fun i j => (RtoC 1 * cis (ph0 i j))%C) (shift_idx ny p) (shift_idx nx q)))).
  assert (G : forall i j, (i < ny)%nat -> (j < nx)%nat -> Cmod (fft2 ny nx cor i j) = 1).
  { intros i j Hi Hj. unfold fft2. rewrite (csum2_single ny nx (shift_idx ny p) (shift_idx nx q)).
    - unfold cor at 1. fold k. unfold ifftshift2. rewrite !ishift_shift by assumption. unfold spot. rewrite !Nat.eqb_refl. cbn [andb].
      unfold k. rewrite !Cmod_mult, !Cmod_cis, Cmod_R, Rabs_R1. ring.
    - apply shift_idx_lt; lia.
    - apply shift_idx_lt; lia.
    - intros x y Hx Hy Hne. unfold cor, ifftshift2, spot.
      replace (Nat.eqb (ishift_idx ny x) p && Nat.eqb (ishift_idx nx y) q)%bool with false; [cbv iota; ring|].
      symmetry. apply not_true_iff_false. rewrite andb_true_iff, !Nat.eqb_eq. intros [E1 E2].
      assert (X1 : x = shift_idx ny p) by (rewrite <- E1, shift_ishift; auto). assert (X2 : y = shift_idx nx q) by (rewrite <- E2, shift_ishift; auto).
      destruct Hne; congruence. }
  assert (E : (image_of ny nx (modulated (fun _ _ => RtoC 1) (fun i j => carg (fft2 ny nx cor i j))) a b * offs ny nx a b)%C = cor (shift_idx ny a) (shift_idx nx b)).
  { rewrite <- ifft2_image by assumption. rewrite (ifft2_ext ny nx _ (fft2 ny nx cor)).
    - apply ifft2_fft2; apply shift_idx_lt; lia.
    - intros i j Hi Hj. unfold modulated. rewrite Cmult_1_l. rewrite (polar (fft2 ny nx cor i j)) at 2. rewrite G by assumption. rewrite Cmult_1_l. reflexivity. }
  apply (f_equal Cmod) in E. rewrite Cmod_mult, Cmod_offs, Rmult_1_r in E. rewrite E. unfold cor, ifftshift2. rewrite !ishift_shift by assumption.
  rewrite Cmod_mult, Cmod_cis, Cmod_R, Rmult_1_r. apply Rabs_pos_eq. unfold spot. destruct (_ && _)%bool; lra.
Qed.

(** ** C43: the displayed image is not the optimised one. *)
Definition slm3 : slm := {| wavelength := 1; focal_length := 1; s_Nx := 3; s_Ny := 1; pixel_size := 1 |}.
Definition flat3 : parg := AConstC (T2 1 3 (fun _ _ => RtoC 1)).
Definition spot3 : parg := AConstR (T2 1 3 (spot 0 2)).
Definition ex_sim0 : sim := {| pad_x := 0; pad_y := 0; f_input := None; f_output := None; f_image := None |}.
Lemma lcos_refutes : exists h l input target F T l' phi m m' E,
  full_input h (l_slm l) input F /\ real_target h (l_slm l) target T /\
  calculate_hologram h l input target MGs (gs_kwargs 1) (fun _ _ => 0) = (l', Ok tt) /\
  l_state l' = LReal (s_Ny (l_slm l)) (s_Nx (l_slm l)) phi /\
  image_error (s_Ny (l_slm l)) (s_Nx (l_slm l)) F T phi = 0 /\
  propagate_to_image h (DevLcos l') m input = (m', Ok tt) /\ field_is (f_image m') (s_Ny (l_slm l)) (s_Nx (l_slm l)) E /\
  exists u v, in_slm (l_slm l) u v /\ T u v = 1 /\ E u v = RtoC 0.
Proof.
  exists ex_heap, (lcos_new slm3), flat3, spot3, (fun _ _ => RtoC 1), (spot 0 2).
  destruct (gs_stores ex_heap (lcos_new slm3) flat3 spot3 (fun _ _ => RtoC 1) (spot 0 2) eq_refl eq_refl (gs_kwargs 1) (fun _ _ => 0)) as [E1 E2].
  destruct (calculate_hologram ex_heap (lcos_new slm3) flat3 spot3 MGs (gs_kwargs 1) (fun _ _ => 0)) as [l' r] eqn:EC. cbn [fst snd] in E1, E2. subst r.
  cbn [gs_kwargs lk_N dflt lcos_new l_slm] in E2. change (s_Ny slm3) with 1%nat in E2. change (s_Nx slm3) with 3%nat in E2.
  set (phi := gs_array 1 3 (fun _ _ => RtoC 1) (spot 0 2) (fun _ _ => 0) 1) in *.
  assert (SP : forall a b, (a < 1)%nat -> (b < 3)%nat -> Cmod (image_of 1 3 (modulated (fun _ _ => RtoC 1) phi) a b) = spot 0 2 a b)
    by (intros; apply gs_spot; lia).
  assert (Hl : l_state l' = LReal 1 3 phi) by (rewrite E2; reflexivity). assert (Hls : l_slm l' = slm3) by (rewrite E2; reflexivity).
  destruct (lcos_displayed ex_heap l' flat3 (fun _ _ => RtoC 1) (fun _ _ => 1) phi ex_sim0) as (m' & E & P & HE & _ & HR).
  { rewrite Hls. reflexivity. } { rewrite Hls. exact Hl. } { rewrite Hls. unfold scaling_factor, slm3. cbn [wavelength focal_length]. lra. } { reflexivity. } { reflexivity. }
  rewrite Hls in HE, HR.
  exists l', phi, ex_sim0, m', E. split; [reflexivity|]. split; [reflexivity|]. split; [reflexivity|]. split; [exact Hl|]. split; [|split; [exact P|split; [exact HE|]]].
  - unfold image_error. cbn [lcos_new l_slm]. change (s_Ny slm3) with 1%nat. change (s_Nx slm3) with 3%nat.
    rewrite (rsum2_ext 1 3 _ (fun _ _ => 0)); [apply rsum2_0|]. intros a b Ha Hb. rewrite SP by assumption. ring.
  - exists 0%nat, 2%nat. split; [split; cbn; lia|]. split; [reflexivity|]. apply Cmod_eq_0. rewrite HR by (try (intros; reflexivity); split; cbn; lia).
    change (reflect (s_Ny slm3) 0) with 0%nat. change (reflect (s_Nx slm3) 2) with 0%nat. change (s_Ny slm3) with 1%nat. change (s_Nx slm3) with 3%nat.
    rewrite SP by lia. unfold spot. cbn. ring.
Qed.

Lemma m1c : RtoC (-1) = (- RtoC 1)%C.
Proof. apply C_eq; cbn; lra. Qed.
(** ** C41: a beam with a sign change. *)
Lemma ifft12 f : ifft2 1 2 f 0 0 = ((f 0%nat 0%nat + f 0%nat 1%nat) / RtoC 2)%C /\ ifft2 1 2 f 0 1 = ((f 0%nat 0%nat - f 0%nat 1%nat) / RtoC 2)%C.
Proof.
  assert (P0 : forall x y, cis (2 * PI * (0 / x + 0 / y)) = RtoC 1) by (intros; replace (2 * PI * (0 / x + 0 / y)) with 0 by (unfold Rdiv; ring); apply cis_0).
  assert (P1 : cis (2 * PI * (0 / 1 + 1 / 2)) = RtoC (-1)) by (replace (2 * PI * (0 / 1 + 1 / 2)) with PI by field; unfold cis; rewrite cos_PI, sin_PI; reflexivity).
  unfold ifft2, csum2. cbn [csum Nat.mul]. split.
  - replace (INR (1 * 2)) with 2 by (simpl; ring). cbn [INR]. rewrite !P0. f_equal. ring.
  - replace (INR (1 * 2)) with 2 by (simpl; ring). cbn [INR Nat.add]. replace (1 + 1) with 2 by ring. rewrite !P0, P1. f_equal. rewrite m1c. ring.
Qed.
Lemma fft12 f : fft2 1 2 f 0 0 = (f 0%nat 0%nat + f 0%nat 1%nat)%C /\ fft2 1 2 f 0 1 = (f 0%nat 0%nat - f 0%nat 1%nat)%C.
Proof.
  assert (P0 : forall x y, cis (- (2 * PI * (0 / x + 0 / y))) = RtoC 1) by (intros; replace (- (2 * PI * (0 / x + 0 / y))) with 0 by (unfold Rdiv; ring); apply cis_0).
  assert (P1 : cis (- (2 * PI * (0 / 1 + 1 / 2))) = RtoC (-1)) by (replace (- (2 * PI * (0 / 1 + 1 / 2))) with (- PI) by field; unfold cis; rewrite cos_neg, sin_neg, cos_PI, sin_PI, Ropp_0; reflexivity).
  unfold fft2, csum2. cbn [csum Nat.mul]. split.
  - cbn [INR]. rewrite !P0. ring.
  - cbn [INR Nat.add]. replace (1 + 1) with 2 by ring. rewrite !P0, P1, m1c. ring.
Qed.
Definition slm2 : slm := {| wavelength := 1; focal_length := 1; s_Nx := 2; s_Ny := 1; pixel_size := 1 |}.
Definition F2 (i j : nat) : C := if Nat.eqb j 0 then RtoC 1 else RtoC (-1).
Definition in2 : parg := AConstC (T2 1 2 F2).
Definition tg2 : parg := AConstR (T2 1 2 (spot 0 1)).
Definition u2 (i j : nat) : R := if Nat.eqb j 0 then 0 else 1 / 2.
Lemma raw12 F Tc ph : raw_error 1 2 F Tc ph =
  (Cmod ((F 0%nat 0%nat * cis (ph 0%nat 0%nat) + F 0%nat 1%nat * cis (ph 0%nat 1%nat)) / RtoC 2)%C - Tc 0%nat 0%nat) ^ 2 +
  (Cmod ((F 0%nat 0%nat * cis (ph 0%nat 0%nat) - F 0%nat 1%nat * cis (ph 0%nat 1%nat)) / RtoC 2)%C - Tc 0%nat 1%nat) ^ 2.
Proof.
  unfold raw_error, rsum2. cbn [rsum]. destruct (ifft12 (fun i j => (F i j * cis (ph i j))%C)) as [-> ->]. ring.
Qed.
Lemma cis_PI : cis PI = RtoC (-1). Proof. unfold cis. rewrite cos_PI, sin_PI. reflexivity. Qed.
Lemma half_c (z : C) : ((z + z) / RtoC 2)%C = z.
Proof. replace (z + z)%C with (RtoC 2 * z)%C by (replace (RtoC 2) with (RtoC 1 + RtoC 1)%C by (rewrite <- RtoC_plus; f_equal; ring); ring). field. apply RtoC_neq_0. lra. Qed.
Lemma gs_sign_refutes : exists h l input target F T u p p',
  full_input h (l_slm l) input F /\ real_target h (l_slm l) target T /\
  (forall i j, in_slm (l_slm l) i j -> Cmod (F i j) = 1 /\ 0 <= T i j /\ 0 <= u i j < 1) /\
  stores (l_slm l) (calculate_hologram h l input target MGs (gs_kwargs 0) u) p /\
  stores (l_slm l) (calculate_hologram h l input target MGs (gs_kwargs 1) u) p' /\
  image_error (s_Ny (l_slm l)) (s_Nx (l_slm l)) F T p = 0 /\ image_error (s_Ny (l_slm l)) (s_Nx (l_slm l)) F T p' = 2.
Proof.
  exists ex_heap, (lcos_new slm2), in2, tg2, F2, (spot 0 1), u2. do 2 eexists. split; [reflexivity|]. split; [reflexivity|]. split.
  { intros i j _. split; [unfold F2; destruct (Nat.eqb j 0); rewrite Cmod_R; [apply Rabs_R1|rewrite Rabs_left; lra]|].
    split; [unfold spot; destruct (_ && _)%bool; lra|unfold u2; destruct (Nat.eqb j 0); lra]. }
  split; [apply gs_stores; reflexivity|]. split; [apply gs_stores; reflexivity|].
  cbn [lcos_new l_slm gs_kwargs lk_N dflt]. change (s_Ny slm2) with 1%nat. change (s_Nx slm2) with 2%nat.
  rewrite <- !raw_image_error, !raw12. unfold gs_array. change (Z.to_nat 0) with 0%nat. change (Z.to_nat 1) with 1%nat. cbn [iter].
  assert (T0 : ifftshift2 1 2 (spot 0 1) 0%nat 0%nat = 1) by reflexivity. assert (T1 : ifftshift2 1 2 (spot 0 1) 0%nat 1%nat = 0) by reflexivity.
  set (ph0 := fun i j => 2 * PI * u2 i j).
  assert (A0 : cis (ph0 0%nat 0%nat) = RtoC 1) by (unfold ph0, u2; cbn [Nat.eqb]; rewrite Rmult_0_r; apply cis_0).
  assert (A1 : cis (ph0 0%nat 1%nat) = RtoC (-1)) by (unfold ph0, u2; cbn [Nat.eqb]; replace (2 * PI * (1 / 2)) with PI by field; apply cis_PI).
  change (F2 0%nat 0%nat) with (RtoC 1). change (F2 0%nat 1%nat) with (RtoC (-1)).
  change (2 * PI * u2 0%nat 0%nat) with (ph0 0%nat 0%nat). change (2 * PI * u2 0%nat 1%nat) with (ph0 0%nat 1%nat).
  rewrite A0, A1, T0, T1.
  assert (G0 : (RtoC 1 * RtoC 1 + RtoC (-1) * RtoC (-1))%C = (RtoC 1 + RtoC 1)%C) by (rewrite !m1c; ring).
  assert (G1 : (RtoC 1 * RtoC 1 - RtoC (-1) * RtoC (-1))%C = RtoC 0) by (rewrite !m1c; ring).
  split.
  - rewrite G0, G1, half_c. unfold Cdiv. rewrite Cmult_0_l, Cmod_0, Cmod_1. ring.
  - set (cor := fun i j => (RtoC (ifftshift2 1 2 (spot 0 1) i j) * cis (carg (ifft2 1 2 (fun i0 j0 => (F2 i0 j0 * cis (ph0 i0 j0))%C) i j)))%C).
    set (k := cis (carg (ifft2 1 2 (fun i0 j0 => (F2 i0 j0 * cis (ph0 i0 j0))%C) 0%nat 0%nat))).
    assert (C0 : cor 0%nat 0%nat = k) by (unfold cor; rewrite T0; fold k; ring). assert (C1 : cor 0%nat 1%nat = RtoC 0) by (unfold cor; rewrite T1; ring).
    assert (Hk : k <> RtoC 0) by apply cis_neq_0.
    assert (Q0 : gs_step 1 2 F2 (ifftshift2 1 2 (spot 0 1)) ph0 0%nat 0%nat = carg k).
    { unfold gs_step. fold cor. destruct (fft12 cor) as [-> _]. rewrite C0, C1. f_equal. ring. }
    assert (Q1 : gs_step 1 2 F2 (ifftshift2 1 2 (spot 0 1)) ph0 0%nat 1%nat = carg k).
    { unfold gs_step. fold cor. destruct (fft12 cor) as [_ ->]. rewrite C0, C1. f_equal. ring. }
    change (gs_step 1 2 F2 (ifftshift2 1 2 (spot 0 1)) (fun i j : nat => 2 * PI * u2 i j)) with (gs_step 1 2 F2 (ifftshift2 1 2 (spot 0 1)) ph0).
    rewrite Q0, Q1. set (z := cis (carg k)).
    replace (RtoC 1 * z + RtoC (-1) * z)%C with (RtoC 0) by (rewrite m1c; ring).
    replace (RtoC 1 * z - RtoC (-1) * z)%C with (z + z)%C by (rewrite m1c; ring).
    rewrite half_c. unfold Cdiv. rewrite Cmult_0_l, Cmod_0. unfold z. rewrite Cmod_cis. ring.
Qed.

(** The errors after 0, 1, 2, ... iterations converge. *)
Lemma gs_error_converges h l input target F A c T u :
  full_input h (l_slm l) input F -> real_target h (l_slm l) target T ->
  (forall i j, in_slm (l_slm l) i j -> F i j = (RtoC (A i j) * cis c)%C /\ 0 <= A i j) ->
  (forall i j, in_slm (l_slm l) i j -> 0 <= T i j) ->
  exists p e, (forall N, stores (l_slm l) (calculate_hologram h l input target MGs (gs_kwargs (Z.of_nat N)) u) (p N)) /\
    Un_cv (fun N => image_error (s_Ny (l_slm l)) (s_Nx (l_slm l)) F T (p N)) e /\
    forall N, 0 <= e <= image_error (s_Ny (l_slm l)) (s_Nx (l_slm l)) F T (p N).
Proof.
  intros HF HT HA HP.
  set (p := fun N => match l_state (fst (calculate_hologram h l input target MGs (gs_kwargs (Z.of_nat N)) u)) with LReal _ _ f => f | LComplex _ _ _ => fun _ _ => 0 end).
  set (en := fun N => image_error (s_Ny (l_slm l)) (s_Nx (l_slm l)) F T (p N)).
  assert (K : forall N q, stores (l_slm l) (calculate_hologram h l input target MGs (gs_kwargs (Z.of_nat N)) u) q -> p N = q).
  { intros N q [_ E]. unfold p. rewrite E. reflexivity. }
  assert (D : Un_decreasing en).
  { intros N. destruct (gs_monotone h l input target F A c T u (Z.of_nat N) (Z.of_nat (S N)) HF HT HA HP) as (q & q' & S1 & S2 & L); [lia|].
    unfold en. rewrite (K _ _ S1), (K _ _ S2). exact L. }
  assert (P0 : forall N, 0 <= en N).
  { intros N. unfold en, image_error. apply rsum2_ge_0. intros. apply pow2_ge_0. }
  assert (LB : has_lb en).
  { exists 0. intros x [N ->]. unfold opp_seq. specialize (P0 N). lra. }
  destruct (decreasing_cv en D LB) as [e He]. exists p, e. split; [|split].
  - intros N. destruct (gs_monotone h l input target F A c T u (Z.of_nat N) (Z.of_nat N) HF HT HA HP) as (q & q' & S1 & _ & _); [lia|]. rewrite (K _ _ S1). exact S1.
  - exact He.
  - intros N. split; [|exact (decreasing_ineq en e D He N)].
    destruct (Rle_dec 0 e) as [L|L]; [exact L|]. exfalso. destruct (He (- e)) as [M HM]; [lra|]. specialize (HM M (Nat.le_refl M)). unfold R_dist in HM.
    apply Rabs_def2 in HM. specialize (P0 M). lra.
Qed.

(** ** The loops of Gerchberg-Saxton and MRAF in the coordinates of the image plane. *)
Lemma carg_spec z : - PI < carg z <= PI /\ z = (RtoC (Cmod z) * cis (carg z))%C /\ (z = RtoC 0 -> carg z = 0).
Proof. split; [apply carg_range|]. split; [apply polar|]. intros ->. apply carg_pos_real; lra. Qed.
Lemma loop_run ny nx F u0 N wanted step :
  (forall ph, exists cor : nat -> nat -> C, let img := ifft2 ny nx (modulated F ph) in
     (forall i j, step ph i j = carg (fft2 ny nx cor i j)) /\
     forall u v, (u < ny)%nat -> (v < nx)%nat -> let U := (cis (carg (img (shift_idx ny u) (shift_idx nx v))) * cconj (offs ny nx u v))%C in
       cor (shift_idx ny u) (shift_idx nx v) = (wanted (image_of ny nx (modulated F ph) u v) U u v * offs ny nx u v)%C) ->
  retrieval_run ny nx F wanted u0 N (iter (Z.to_nat N) step (fun i j => 2 * PI * u0 i j)).
Proof.
  intros H. exists (fun k => iter k step (fun i j => 2 * PI * u0 i j)). split; [reflexivity|]. split; [|reflexivity].
  intros k _. set (ph := iter k step (fun i j => 2 * PI * u0 i j)). destruct (H ph) as (cor & Hs & Hc). cbv zeta in *.
  set (img := ifft2 ny nx (modulated F ph)) in *.
  exists (fun u v => (cis (carg (img (shift_idx ny u) (shift_idx nx v))) * cconj (offs ny nx u v))%C).
  assert (OO : forall u v, (offs ny nx u v * cconj (offs ny nx u v))%C = RtoC 1) by (intros; unfold offs; apply cis_conj_cis).
  split.
  - intros u v Hu Hv. split; [rewrite Cmod_mult, Cmod_cis, Cmod_cconj, Cmod_offs; ring|].
    assert (E := ifft2_image ny nx (modulated F ph) u v Hu Hv). fold img in E.
    assert (EM : Cmod (image_of ny nx (modulated F ph) u v) = Cmod (img (shift_idx ny u) (shift_idx nx v))) by (rewrite E, Cmod_mult, Cmod_offs; ring).
    rewrite EM, Cmult_assoc, <- polar, E, <- Cmult_assoc, OO. ring.
  - intros i j Hi Hj. cbn [iter]. fold ph. rewrite Hs.
    rewrite (fft2_spectrum ny nx cor _ i j Hi Hj Hc). apply carg_spec.
Qed.
Lemma shifted_entry {A} ny nx (T : nat -> nat -> A) u v : (u < ny)%nat -> (v < nx)%nat -> ifftshift2 ny nx T (shift_idx ny u) (shift_idx nx v) = T u v.
Proof. intros. unfold ifftshift2. rewrite !ishift_shift by assumption. reflexivity. Qed.
Lemma gs_is_run h l input target F T kw u0 N : full_input h (l_slm l) input F -> real_target h (l_slm l) target T -> given (lk_N kw) 200%Z N ->
  exists phi, stores (l_slm l) (calculate_hologram h l input target MGs kw u0) phi /\
   retrieval_run (s_Ny (l_slm l)) (s_Nx (l_slm l)) F (fun _ U u v => (RtoC (T u v) * U)%C) u0 N phi.
Proof.
  intros HF HT HN. eexists. split; [apply gs_stores; eassumption|].
  replace (dflt (lk_N kw) 200%Z) with N by (destruct HN as [-> |[-> ->]]; reflexivity). unfold gs_array. apply loop_run.
  intros ph. eexists. cbv zeta. split; [intros; reflexivity|]. intros u v Hu Hv. cbv beta. rewrite shifted_entry by assumption.
  assert (OO : (offs (s_Ny (l_slm l)) (s_Nx (l_slm l)) u v * cconj (offs (s_Ny (l_slm l)) (s_Nx (l_slm l)) u v))%C = RtoC 1) by (unfold offs; apply cis_conj_cis).
  fold (modulated F ph). rewrite <- !Cmult_assoc, (Cmult_comm (cconj _)), OO, Cmult_1_r. reflexivity.
Qed.
Lemma mraf_is_run h l input target w F T W kw u0 N m : full_input h (l_slm l) input F -> real_target h (l_slm l) target T ->
  lk_window kw = Some w -> full_target h (l_slm l) w W -> given (lk_N kw) 200%Z N -> given (lk_mix kw) 0.4 m ->
  exists phi, stores (l_slm l) (calculate_hologram h l input target MMraf kw u0) phi /\
   retrieval_run (s_Ny (l_slm l)) (s_Nx (l_slm l)) F
     (fun I U u v => (RtoC m * (RtoC (T u v) * U) * W u v + RtoC (1 - m) * I * (RtoC 1 - W u v))%C) u0 N phi.
Proof.
  intros HF HT Ew HW HN Hm. eexists. split; [eapply mraf_stores; eassumption|].
  replace (dflt (lk_N kw) 200%Z) with N by (destruct HN as [-> |[-> ->]]; reflexivity).
  replace (dflt (lk_mix kw) 0.4) with m by (destruct Hm as [-> |[-> ->]]; reflexivity). unfold mraf_array. apply loop_run.
  intros ph. eexists. cbv zeta. split; [intros; reflexivity|]. intros u v Hu Hv. cbv beta. rewrite !shifted_entry by assumption.
  assert (OO : (offs (s_Ny (l_slm l)) (s_Nx (l_slm l)) u v * cconj (offs (s_Ny (l_slm l)) (s_Nx (l_slm l)) u v))%C = RtoC 1) by (unfold offs; apply cis_conj_cis).
  fold (modulated F ph). set (img := ifft2 _ _ (modulated F ph)).
  rewrite (ifft2_image _ _ (modulated F ph) u v Hu Hv : img _ _ = _) at 2. set (o := offs _ _ u v) in *.
  transitivity (RtoC m * RtoC (T u v) * cis (carg (img (shift_idx (s_Ny (l_slm l)) u) (shift_idx (s_Nx (l_slm l)) v))) * W u v * (o * cconj o) + RtoC (1 - m) * image_of (s_Ny (l_slm l)) (s_Nx (l_slm l)) (modulated F ph) u v * o * (RtoC 1 - W u v))%C; [rewrite OO; ring|ring].
Qed.
