(** Moving the target of a phase-retrieval run moves the image (C100). *)
From Coq Require Import Reals Lra ZArith Arith List Bool Lia.
From Coquelicot Require Import Complex.
From Verif Require Import Cx Sums DFT PyBase ProfileModel SlmModel LibModel DmdModel SimModel SimSpec DmdSpec HoloSpec EquiSpec AmpFacts3 AmpFacts5 HoloFacts HoloFacts2 HoloThms MoveFacts.
Open Scope R_scope.

(** One iteration, as in [retrieval_run]. *)
Definition step_rel (ny nx : nat) (F : nat -> nat -> C) (wanted : C -> C -> nat -> nat -> C) (g g' : nat -> nat -> R) : Prop :=
  exists U : nat -> nat -> C,
    let I := image_of ny nx (modulated F g) in
    (forall u v, (u < ny)%nat -> (v < nx)%nat -> Cmod (U u v) = 1 /\ I u v = (RtoC (Cmod (I u v)) * U u v)%C) /\
    let B := spectrum_of ny nx (fun u v => wanted (I u v) (U u v) u v) in
    forall i j, (i < ny)%nat -> (j < nx)%nat -> B i j = (RtoC (Cmod (B i j)) * cis (g' i j))%C.
Lemma step_rel_ext ny nx F wanted g g' h h' : (forall i j, (i < ny)%nat -> (j < nx)%nat -> g i j = h i j) -> (forall i j, (i < ny)%nat -> (j < nx)%nat -> g' i j = h' i j) ->
  step_rel ny nx F wanted g g' -> step_rel ny nx F wanted h h'.
Proof.
  intros E E' (U & H1 & H2). exists U. cbv zeta in *.
  assert (EI : forall u v, image_of ny nx (modulated F g) u v = image_of ny nx (modulated F h) u v).
  { intros u v. unfold image_of. f_equal. apply csum2_ext. intros i j Hi Hj. unfold modulated. rewrite E by assumption. reflexivity. }
  split.
  - intros u v Hu Hv. rewrite <- EI. exact (H1 u v Hu Hv).
  - intros i j Hi Hj. rewrite <- E' by assumption.
    rewrite <- (spectrum_of_ext ny nx (fun u v => wanted (image_of ny nx (modulated F g) u v) (U u v) u v)); [exact (H2 i j Hi Hj)|]. intros u v _ _. rewrite EI. reflexivity.
Qed.
Lemma run_step ny nx F wanted ph step : (forall u0, retrieval_run ny nx F wanted u0 1 (iter 1 step (fun i j => 2 * PI * u0 i j))) ->
  (forall g h, (forall i j, (i < ny)%nat -> (j < nx)%nat -> g i j = h i j) -> forall i j, (i < ny)%nat -> (j < nx)%nat -> step g i j = step h i j) ->
  step_rel ny nx F wanted ph (step ph).
Proof.
  intros HR HE. assert (P : forall x, 2 * PI * (x / (2 * PI)) = x) by (intros x; field; assert (Q := PI_RGT_0); lra).
  destruct (HR (fun i j => ph i j / (2 * PI))) as (G & H0 & HS & H1). destruct (HS O ltac:(change (Z.to_nat 1) with 1%nat; lia)) as (U & HU & HB).
  apply (step_rel_ext ny nx F wanted (G O) (G 1%nat)).
  - intros i j Hi Hj. rewrite H0 by assumption. apply P.
  - intros i j Hi Hj. change (Z.to_nat 1) with 1%nat in H1. rewrite <- H1 by assumption. cbn [iter]. apply HE; try assumption. intros. apply P.
  - exists U. cbv zeta in *. split; [exact HU|]. intros i j Hi Hj. exact (proj1 (proj2 (HB i j Hi Hj))).
Qed.
Lemma unit_polar z U : Cmod U = 1 -> z = (RtoC (Cmod z) * U)%C -> z <> RtoC 0 -> U = unit_of z.
Proof.
  intros HU Hz N0. assert (P : z = (RtoC (Cmod z) * unit_of z)%C) by apply polar.
  assert (M0 : RtoC (Cmod z) <> RtoC 0) by (intros E; apply N0; apply Cmod_eq_0; injection E; auto).
  rewrite Hz in P at 1. apply (f_equal (fun w => (/ RtoC (Cmod z) * w)%C)) in P. rewrite !Cmult_assoc, Cinv_l, !Cmult_1_l in P by exact M0. exact P.
Qed.
Section Shift.
Variables (ny nx : nat) (F : nat -> nat -> C) (T : nat -> nat -> R) (wanted wanted' : C -> C -> nat -> nat -> C) (a b : Z) (c : R).
Let su u := Z.to_nat ((Z.of_nat u + b) mod Z.of_nat ny).
Let sv v := Z.to_nat ((Z.of_nat v - a) mod Z.of_nat nx).
Hypothesis HW : forall k z U U' u v, (u < ny)%nat -> (v < nx)%nat -> Cmod k = 1 -> (T (su u) (sv v) <> 0 -> U' = (k * U)%C) ->
  wanted' (k * z)%C U' u v = (k * wanted z U (su u) (sv v))%C.
Hypothesis HW0 : forall z U U' u v, (T u v <> 0 -> U' = U) -> wanted z U' u v = wanted z U u v.
Let K := cis c.
Let hp := half_pixel_phase ny nx a b.
Definition matched (g g' : nat -> nat -> R) : Prop := forall i j, (i < ny)%nat -> (j < nx)%nat -> F i j <> RtoC 0 -> cis (g' i j) = cis (c + g i j - ramp ny nx a b i j).
Lemma in_shift u v : (u < ny)%nat -> (v < nx)%nat -> (su u < ny)%nat /\ (sv v < nx)%nat.
Proof.
  intros Hu Hv. unfold su, sv. split; apply Nat2Z.inj_lt; rewrite Z2Nat.id by (apply Z.mod_pos_bound; lia); apply Z.mod_pos_bound; lia.
Qed.
Lemma image_of_ext E E' u v : (forall i j, (i < ny)%nat -> (j < nx)%nat -> E i j = E' i j) -> image_of ny nx E u v = image_of ny nx E' u v.
Proof. intros H. unfold image_of. f_equal. apply csum2_ext. intros i j Hi Hj. rewrite H by assumption. reflexivity. Qed.
Lemma image_of_scal k E u v : image_of ny nx (fun i j => (k * E i j)%C) u v = (k * image_of ny nx E u v)%C.
Proof.
  unfold image_of, Cdiv. rewrite Cmult_assoc. f_equal. rewrite <- csum2_scal_l. apply csum2_ext. intros. ring.
Qed.
Lemma image_matched g g' u v : matched g g' -> (u < ny)%nat -> (v < nx)%nat ->
  image_of ny nx (modulated F g') u v = (K * hp * image_of ny nx (modulated F g) (su u) (sv v))%C.
Proof.
  intros Hm Hu Hv.
  rewrite (image_of_ext _ (fun i j => (K * (modulated F g i j * cis (- ramp ny nx a b i j)))%C)).
  - rewrite image_of_scal, (image_of_carrier ny nx (modulated F g) (ramp ny nx a b) a b) by (assumption || reflexivity). unfold displaced, hp. fold (su u) (sv v). ring.
  - intros i j Hi Hj. unfold modulated, K. destruct (C_dec0 (F i j)) as [E|E]; [rewrite E; ring|].
    rewrite (Hm i j Hi Hj E). replace (c + g i j - ramp ny nx a b i j) with (c + (g i j + - ramp ny nx a b i j)) by ring. rewrite !cis_plus. ring.
Qed.
Lemma khp : Cmod (K * hp)%C = 1.
Proof. unfold K, hp, half_pixel_phase. rewrite Cmod_mult, !Cmod_cis. ring. Qed.
Lemma step_matched g g' g1 g1' : matched g g' -> step_rel ny nx F wanted g g1 -> step_rel ny nx F wanted' g' g1' ->
  (forall u v, (u < ny)%nat -> (v < nx)%nat -> T u v <> 0 -> image_of ny nx (modulated F g) u v <> RtoC 0) ->
  (forall i j, (i < ny)%nat -> (j < nx)%nat -> F i j <> RtoC 0 ->
    spectrum_of ny nx (fun u v => wanted (image_of ny nx (modulated F g) u v) (unit_of (image_of ny nx (modulated F g) u v)) u v) i j <> RtoC 0) ->
  matched g1 g1'.
Proof.
  intros Hm (U & HU & HB) (U' & HU' & HB') R1 R2 i j Hi Hj HF. cbv zeta in *. specialize (HB i j Hi Hj). specialize (HB' i j Hi Hj). specialize (R2 i j Hi Hj HF).
  set (I := image_of ny nx (modulated F g)) in *. set (I' := image_of ny nx (modulated F g')) in *.
  assert (EI : forall u v, (u < ny)%nat -> (v < nx)%nat -> I' u v = (K * hp * I (su u) (sv v))%C) by (intros; apply image_matched; assumption).
  assert (EB : spectrum_of ny nx (fun u v => wanted' (I' u v) (U' u v) u v) i j = (K * (cis (- ramp ny nx a b i j) * spectrum_of ny nx (fun u v => wanted (I u v) (U u v) u v) i j))%C).
  { rewrite <- spectrum_displaced by assumption. rewrite <- spectrum_of_scal. apply spectrum_of_ext. intros u v Hu Hv. destruct (in_shift u v Hu Hv) as [Su Sv].
    rewrite EI by assumption. rewrite (HW (K * hp)%C _ (U (su u) (sv v))); [|exact Hu|exact Hv|exact khp|].
    - unfold displaced. fold (su u) (sv v). fold hp. ring.
    - intros NT. assert (NI := R1 _ _ Su Sv NT). destruct (HU _ _ Su Sv) as [U1 U2]. destruct (HU' u v Hu Hv) as [V1 V2].
      apply (unit_polar _ _ V1) in V2; [|rewrite EI by assumption; apply Cmult_neq_0; [intros E; assert (Q := khp); rewrite E, Cmod_0 in Q; lra|exact NI]].
      rewrite V2. symmetry. apply unit_polar; [rewrite Cmod_mult, khp, U1; ring| |].
      + rewrite EI by assumption. rewrite (Cmod_mult (K * hp)%C), khp, Rmult_1_l. rewrite U2 at 1. ring.
      + rewrite EI by assumption. apply Cmult_neq_0; [intros E; assert (Q := khp); rewrite E, Cmod_0 in Q; lra|exact NI]. }
  assert (EW : spectrum_of ny nx (fun u v => wanted (I u v) (U u v) u v) i j = spectrum_of ny nx (fun u v => wanted (I u v) (unit_of (I u v)) u v) i j).
  { apply spectrum_of_ext. intros u v Hu Hv. apply HW0. intros NT. destruct (HU u v Hu Hv) as [U1 U2]. apply unit_polar; auto. }
  rewrite <- EW in R2. set (B := spectrum_of ny nx (fun u v => wanted (I u v) (U u v) u v) i j) in *.
  rewrite EB in HB'. assert (M : Cmod (K * (cis (- ramp ny nx a b i j) * B))%C = Cmod B) by (unfold K; rewrite !Cmod_mult, !Cmod_cis; ring).
  rewrite M in HB'. rewrite HB in HB' at 1.
  assert (M0 : RtoC (Cmod B) <> RtoC 0) by (intros E; apply R2; apply Cmod_eq_0; injection E; auto).
  apply (f_equal (fun w => (/ RtoC (Cmod B) * w)%C)) in HB'. rewrite !Cmult_assoc, Cinv_l, Cmult_1_l in HB' by exact M0.
  rewrite <- HB'. replace (c + g1 i j - ramp ny nx a b i j) with (c + (- ramp ny nx a b i j + g1 i j)) by ring. rewrite !cis_plus. fold K.
  transitivity (K * (cis (- ramp ny nx a b i j) * cis (g1 i j)) * (/ RtoC (Cmod B) * RtoC (Cmod B)))%C; [ring|]. rewrite Cinv_l by exact M0. ring.
Qed.
End Shift.

(** ** Gerchberg-Saxton and MRAF *)
Lemma gs_step_rel ny nx F T ph : step_rel ny nx F (gs_field T) ph (gs_step ny nx F (ifftshift2 ny nx T) ph).
Proof.
  apply run_step.
  - intros u0. apply (loop_run ny nx F u0 1 (gs_field T)). intros p. eexists. cbv zeta. split; [intros; reflexivity|]. intros u v Hu Hv. cbv beta. rewrite shifted_entry by assumption.
    assert (OO : (offs ny nx u v * cconj (offs ny nx u v))%C = RtoC 1) by (unfold offs; apply cis_conj_cis).
    fold (modulated F p). unfold gs_field. rewrite <- !Cmult_assoc, (Cmult_comm (cconj _)), OO, Cmult_1_r. reflexivity.
  - intros g h E i j Hi Hj. unfold gs_step. f_equal. apply fft2_ext. intros k q Hk Hq. f_equal. f_equal. f_equal. apply ifft2_ext. intros. rewrite E by assumption. reflexivity.
Qed.
Lemma mraf_step_rel ny nx F T W m ph : step_rel ny nx F (mraf_field T W m) ph (mraf_step ny nx F (ifftshift2 ny nx T) (ifftshift2 ny nx W) m ph).
Proof.
  apply run_step.
  - intros u0. apply (loop_run ny nx F u0 1 (mraf_field T W m)). intros p. eexists. cbv zeta. split; [intros; reflexivity|]. intros u v Hu Hv. cbv beta. rewrite !shifted_entry by assumption.
    assert (OO : (offs ny nx u v * cconj (offs ny nx u v))%C = RtoC 1) by (unfold offs; apply cis_conj_cis).
    fold (modulated F p). set (img := ifft2 _ _ (modulated F p)). unfold mraf_field.
    rewrite (ifft2_image _ _ (modulated F p) u v Hu Hv : img _ _ = _) at 2. set (o := offs _ _ u v) in *.
    transitivity (RtoC m * RtoC (T u v) * cis (carg (img (shift_idx ny u) (shift_idx nx v))) * W u v * (o * cconj o) + RtoC (1 - m) * image_of ny nx (modulated F p) u v * o * (RtoC 1 - W u v))%C; [rewrite OO; ring|ring].
  - intros g h E i j Hi Hj. unfold mraf_step. f_equal. apply fft2_ext. intros k q Hk Hq.
    assert (EE : forall x y, (x < ny)%nat -> (y < nx)%nat -> (F x y * cis (g x y))%C = (F x y * cis (h x y))%C) by (intros x y Hx Hy; rewrite E by assumption; reflexivity).
    rewrite (ifft2_ext ny nx _ _ k q EE). reflexivity.
Qed.
Section Loop.
Variables (s : slm) (F : nat -> nat -> C) (T : nat -> nat -> R) (wanted wanted' : C -> C -> nat -> nat -> C) (step step' : (nat -> nat -> R) -> nat -> nat -> R) (a b : Z) (c : R) (u u' : nat -> nat -> R) (N : nat).
Let ny := s_Ny s. Let nx := s_Nx s.
Hypotheses (HS : forall ph, step_rel ny nx F wanted ph (step ph)) (HS' : forall ph, step_rel ny nx F wanted' ph (step' ph)).
Hypothesis HW : forall k z U U' i j, (i < ny)%nat -> (j < nx)%nat -> Cmod k = 1 -> (moved_array s a b T i j <> 0 -> U' = (k * U)%C) ->
  wanted' (k * z)%C U' i j = (k * wanted z U (Z.to_nat ((Z.of_nat i + b) mod Z.of_nat ny)) (Z.to_nat ((Z.of_nat j - a) mod Z.of_nat nx)))%C.
Hypothesis HW0 : forall z U U' u v, (T u v <> 0 -> U' = U) -> wanted z U' u v = wanted z U u v.
Hypothesis Hst : forall i j, in_slm s i j -> F i j <> RtoC 0 -> cis (2 * PI * u' i j) = cis (c + 2 * PI * u i j - tilt s a b i j).
Hypothesis Hz : forall k, (k < N)%nat -> no_zeros s F T wanted (iter k step (fun i j => 2 * PI * u i j)).
Lemma loop_shift k : (k <= N)%nat -> matched ny nx F a b c (iter k step (fun i j => 2 * PI * u i j)) (iter k step' (fun i j => 2 * PI * u' i j)).
Proof.
  induction k as [|k IH]; intros Hk.
  - intros i j Hi Hj HF. cbn [iter]. exact (Hst i j (conj Hi Hj) HF).
  - cbn [iter]. destruct (Hz k ltac:(lia)) as [Z1 Z2]. cbv zeta in Z1, Z2.
    apply (step_matched ny nx F T wanted wanted' a b c HW HW0 _ _ _ _ (IH ltac:(lia)) (HS _) (HS' _)).
    + intros i j Hi Hj. exact (Z1 i j (conj Hi Hj)).
    + intros i j Hi Hj. exact (Z2 i j (conj Hi Hj)).
Qed.
Lemma loop_image p p' i j : matched ny nx F a b c p p' -> in_slm s i j ->
  Cmod (image_of ny nx (modulated F p') i j) = moved_array s a b (fun i j => Cmod (image_of ny nx (modulated F p) i j)) i j.
Proof.
  intros Hm [Hi Hj]. rewrite (image_matched ny nx F a b c p p' i j Hm Hi Hj), Cmod_mult, khp. unfold moved_array. rewrite Rmult_1_l. reflexivity.
Qed.
End Loop.
Lemma gs_shift h l input target target' F T u u' N a b c : let s := l_slm l in
  full_input h s input F -> real_target h s target T -> real_target h s target' (moved_array s a b T) ->
  (forall i j, in_slm s i j -> F i j <> RtoC 0 -> cis (2 * PI * u' i j) = cis (c + 2 * PI * u i j - tilt s a b i j)) ->
  (forall k p, (0 <= k < N)%Z -> stores s (calculate_hologram h l input target MGs (gs_kwargs k) u) p -> no_zeros s F T (gs_field T) p) ->
  exists p p', stores s (calculate_hologram h l input target MGs (gs_kwargs N) u) p /\ stores s (calculate_hologram h l input target' MGs (gs_kwargs N) u') p' /\
    (forall i j, in_slm s i j -> F i j <> RtoC 0 -> cis (p' i j) = cis (c + p i j - tilt s a b i j)) /\
    (forall i j, in_slm s i j -> Cmod (image_of (s_Ny s) (s_Nx s) (modulated F p') i j) = moved_array s a b (fun i j => Cmod (image_of (s_Ny s) (s_Nx s) (modulated F p) i j)) i j).
Proof.
  intros s HF HT HT' Hst Hz.
  assert (S1 := fun k => gs_stores h l input target F T HF HT (gs_kwargs k) u). assert (S2 := gs_stores h l input target' F (moved_array s a b T) HF HT' (gs_kwargs N) u').
  do 2 eexists. split; [exact (S1 N)|]. split; [exact S2|]. cbn [dflt lk_N gs_kwargs]. fold s.
  assert (M : matched (s_Ny s) (s_Nx s) F a b c (gs_array (s_Ny s) (s_Nx s) F T u N) (gs_array (s_Ny s) (s_Nx s) F (moved_array s a b T) u' N)).
  { unfold gs_array. apply (loop_shift s F T (gs_field T) (gs_field (moved_array s a b T)) _ _ a b c u u' (Z.to_nat N)); try assumption.
    - intros. apply gs_step_rel.
    - intros. apply gs_step_rel.
    - intros k z U U' i j Hi Hj Hk HU. unfold gs_field, moved_array in *. destruct (Req_EM_T (T (Z.to_nat ((Z.of_nat i + b) mod Z.of_nat (s_Ny s))) (Z.to_nat ((Z.of_nat j - a) mod Z.of_nat (s_Nx s)))) 0) as [E|E]; [rewrite E; ring|]. rewrite (HU E). ring.
    - intros z U U' i j HU. unfold gs_field. destruct (Req_EM_T (T i j) 0) as [E|E]; [rewrite E; ring|]. rewrite (HU E). reflexivity.
    - intros k Hk. apply (Hz (Z.of_nat k)); [lia|]. assert (Q := S1 (Z.of_nat k)). cbn [dflt lk_N gs_kwargs] in Q. unfold gs_array in Q. rewrite Nat2Z.id in Q. exact Q.
    - lia. }
  split; [intros i j [Hi Hj] Hf; exact (M i j Hi Hj Hf)|]. intros i j Hij. apply (loop_image s F a b c _ _ i j M Hij).
Qed.
Lemma mraf_shift h l input target target' w w' F T W m u u' N a b c : let s := l_slm l in
  full_input h s input F -> real_target h s target T -> real_target h s target' (moved_array s a b T) -> full_target h s w W -> full_target h s w' (moved_array s a b W) ->
  (forall i j, in_slm s i j -> F i j <> RtoC 0 -> cis (2 * PI * u' i j) = cis (c + 2 * PI * u i j - tilt s a b i j)) ->
  (forall k p, (0 <= k < N)%Z -> stores s (calculate_hologram h l input target MMraf (mraf_kwargs k w m) u) p -> no_zeros s F T (mraf_field T W m) p) ->
  exists p p', stores s (calculate_hologram h l input target MMraf (mraf_kwargs N w m) u) p /\ stores s (calculate_hologram h l input target' MMraf (mraf_kwargs N w' m) u') p' /\
    (forall i j, in_slm s i j -> F i j <> RtoC 0 -> cis (p' i j) = cis (c + p i j - tilt s a b i j)) /\
    (forall i j, in_slm s i j -> Cmod (image_of (s_Ny s) (s_Nx s) (modulated F p') i j) = moved_array s a b (fun i j => Cmod (image_of (s_Ny s) (s_Nx s) (modulated F p) i j)) i j).
Proof.
  intros s HF HT HT' HW HW' Hst Hz.
  assert (S1 := fun k => mraf_stores h l input target F T HF HT (mraf_kwargs k w m) w W u eq_refl HW).
  assert (S2 := mraf_stores h l input target' F (moved_array s a b T) HF HT' (mraf_kwargs N w' m) w' (moved_array s a b W) u' eq_refl HW').
  do 2 eexists. split; [exact (S1 N)|]. split; [exact S2|]. cbn [dflt lk_N lk_mix mraf_kwargs]. fold s.
  assert (M : matched (s_Ny s) (s_Nx s) F a b c (mraf_array (s_Ny s) (s_Nx s) F T W m u N) (mraf_array (s_Ny s) (s_Nx s) F (moved_array s a b T) (moved_array s a b W) m u' N)).
  { unfold mraf_array. apply (loop_shift s F T (mraf_field T W m) (mraf_field (moved_array s a b T) (moved_array s a b W) m) _ _ a b c u u' (Z.to_nat N)); try assumption.
    - intros. apply mraf_step_rel.
    - intros. apply mraf_step_rel.
    - intros k z U U' i j Hi Hj Hk HU. unfold mraf_field, moved_array in *. destruct (Req_EM_T (T (Z.to_nat ((Z.of_nat i + b) mod Z.of_nat (s_Ny s))) (Z.to_nat ((Z.of_nat j - a) mod Z.of_nat (s_Nx s)))) 0) as [E|E]; [rewrite E; ring|]. rewrite (HU E). ring.
    - intros z U U' i j HU. unfold mraf_field. destruct (Req_EM_T (T i j) 0) as [E|E]; [rewrite E; ring|]. rewrite (HU E). reflexivity.
    - intros k Hk. apply (Hz (Z.of_nat k)); [lia|]. assert (Q := S1 (Z.of_nat k)). cbn [dflt lk_N lk_mix mraf_kwargs] in Q. unfold mraf_array in Q. rewrite Nat2Z.id in Q. exact Q.
    - lia. }
  split; [intros i j [Hi Hj] Hf; exact (M i j Hi Hj Hf)|]. intros i j Hij. apply (loop_image s F a b c _ _ i j M Hij).
Qed.
