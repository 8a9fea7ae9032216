(** Consequences of the run specification of Gerchberg-Saxton and MRAF (HoloThms): perfect holograms, masked targets. *)
From Coq Require Import Reals Lra ZArith Arith List Bool Lia.
From Coquelicot Require Import Complex.
From Verif Require Import Cx Sums DFT PyBase ProfileModel SlmModel LibModel DmdModel SimModel SimSpec SimExamples DmdSpec DmdFacts2 AmpFacts3 AmpFacts5 DmdExamples HoloSpec HoloFacts HoloFacts2 HoloThms.
Open Scope R_scope.

(** ** A loop which puts back a positive multiple of the image keeps the phases of the illuminated pixels. *)
Lemma run_keeps ny nx A c wanted u0 N phi s : 0 < s -> (forall i j, (i < ny)%nat -> (j < nx)%nat -> 0 <= A i j) ->
  (forall k U u v, (u < ny)%nat -> (v < nx)%nat ->
     let I0 := image_of ny nx (modulated (fun i j => (RtoC (A i j) * cis c)%C) (fun i j => 2 * PI * u0 i j)) u v in
     let I := (cis k * I0)%C in Cmod U = 1 -> I = (RtoC (Cmod I) * U)%C -> wanted I U u v = (RtoC s * I)%C) ->
  retrieval_run ny nx (fun i j => (RtoC (A i j) * cis c)%C) wanted u0 N phi ->
  forall i j, (i < ny)%nat -> (j < nx)%nat -> 0 < A i j -> cis (phi i j) = cis (2 * PI * u0 i j + INR (Z.to_nat N) * c).
Proof.
  intros Hs HA HW (G & G0 & GS & GN). cbv zeta in *. set (F := fun i j => (RtoC (A i j) * cis c)%C) in *.
  assert (K : forall k, (k <= Z.to_nat N)%nat -> forall i j, (i < ny)%nat -> (j < nx)%nat -> 0 < A i j -> cis (G k i j) = cis (2 * PI * u0 i j + INR k * c)).
  { induction k as [|k IH]; intros Hk i j Hi Hj HP.
    - rewrite G0 by assumption. f_equal. cbn [INR]. ring.
    - specialize (IH ltac:(lia)). destruct (GS k ltac:(lia)) as (U & HU & HB).
      assert (EM : forall a b, (a < ny)%nat -> (b < nx)%nat -> modulated F (G k) a b = (cis (INR k * c) * modulated F (fun i j => 2 * PI * u0 i j)%R a b)%C).
      { intros a b Ha Hb. unfold modulated, F. destruct (Rle_lt_or_eq_dec _ _ (HA a b Ha Hb)) as [Q|Q].
        - rewrite IH by assumption. rewrite cis_plus. ring.
        - rewrite <- Q. ring. }
      assert (EI : forall u v, image_of ny nx (modulated F (G k)) u v = (cis (INR k * c) * image_of ny nx (modulated F (fun i j => 2 * PI * u0 i j)%R) u v)%C).
      { intros u v. rewrite (image_of_ext ny nx _ _ u v EM). unfold image_of, Cdiv. rewrite Cmult_assoc. f_equal. rewrite <- csum2_scal_l. apply csum2_ext. intros; ring. }
      destruct (HB i j Hi Hj) as (_ & HP' & _). clear HB.
      assert (ES : spectrum_of ny nx (fun u v => wanted (image_of ny nx (modulated F (G k)) u v) (U u v) u v) i j = (RtoC (s * A i j) * cis (c + G k i j))%C).
      { rewrite (spectrum_of_ext ny nx _ (fun u v => (RtoC s * image_of ny nx (modulated F (G k)) u v)%C)).
        - rewrite spectrum_of_scal, spectrum_of_image by assumption. unfold modulated, F. rewrite RtoC_mult, cis_plus. ring.
        - intros u v Hu Hv. destruct (HU u v Hu Hv) as [H1 H2]. rewrite EI in *. apply HW; assumption. }
      rewrite ES in HP'. assert (P2 : 0 < s * A i j) by (apply Rmult_lt_0_compat; assumption).
      rewrite Cmod_mult, Cmod_cis, Cmod_R, Rmult_1_r, Rabs_pos_eq in HP' by lra.
      assert (Q : cis (c + G k i j) = cis (G (S k) i j)).
      { assert (NZ : RtoC (s * A i j) <> RtoC 0) by (intros X; apply RtoC_inj in X; lra).
        rewrite <- (Cmult_1_l (cis (c + _))), <- (Cmult_1_l (cis (G (S k) i j))), <- (Cinv_l _ NZ), <- !Cmult_assoc. f_equal. exact HP'. }
      rewrite <- Q, cis_plus, (IH i j Hi Hj HP), S_INR, !cis_plus, Rmult_plus_distr_r, cis_plus, Rmult_1_l. ring. }
  intros i j Hi Hj HP. rewrite GN by assumption. apply K; [lia|assumption..].
Qed.
Lemma Cmod_turn k z : Cmod (cis k * z)%C = Cmod z.
Proof. rewrite Cmod_mult, Cmod_cis. ring. Qed.

Lemma gs_keeps h l input target T A c kw u0 N : full_input h (l_slm l) input (fun i j => (RtoC (A i j) * cis c)%C) -> real_target h (l_slm l) target T ->
  (forall i j, in_slm (l_slm l) i j -> 0 <= A i j) -> given (lk_N kw) 200%Z N ->
  (forall u v, in_slm (l_slm l) u v ->
     Cmod (image_of (s_Ny (l_slm l)) (s_Nx (l_slm l)) (modulated (fun i j => (RtoC (A i j) * cis c)%C) (fun i j => 2 * PI * u0 i j)) u v) = T u v) ->
  exists phi, stores (l_slm l) (calculate_hologram h l input target MGs kw u0) phi /\
    forall i j, in_slm (l_slm l) i j -> 0 < A i j -> cis (phi i j) = cis (2 * PI * u0 i j + INR (Z.to_nat N) * c).
Proof.
  intros HF HT HA HN HP. destruct (gs_is_run h l input target _ T kw u0 N HF HT HN) as (phi & St & Ru). exists phi. split; [exact St|].
  intros i j [Hi Hj]. revert i j Hi Hj. refine (run_keeps _ _ A c _ u0 N phi 1 ltac:(lra) _ _ Ru).
  - intros i j Hi Hj. apply HA. split; assumption.
  - cbv zeta. intros k U u v Hu Hv H1 H2. rewrite H2 at 1. rewrite Cmod_turn, HP by (split; assumption). ring.
Qed.
Lemma mraf_keeps h l input target w T W A c kw u0 N : full_input h (l_slm l) input (fun i j => (RtoC (A i j) * cis c)%C) -> real_target h (l_slm l) target T ->
  (forall i j, in_slm (l_slm l) i j -> 0 <= A i j) -> lk_window kw = Some w -> full_target h (l_slm l) w W -> given (lk_N kw) 200%Z N -> lk_mix kw = Some (1 / 2) ->
  (forall u v, in_slm (l_slm l) u v -> W u v <> RtoC 0 ->
     Cmod (image_of (s_Ny (l_slm l)) (s_Nx (l_slm l)) (modulated (fun i j => (RtoC (A i j) * cis c)%C) (fun i j => 2 * PI * u0 i j)) u v) = T u v) ->
  exists phi, stores (l_slm l) (calculate_hologram h l input target MMraf kw u0) phi /\
    forall i j, in_slm (l_slm l) i j -> 0 < A i j -> cis (phi i j) = cis (2 * PI * u0 i j + INR (Z.to_nat N) * c).
Proof.
  intros HF HT HA Ew HW HN Hm HP.
  destruct (mraf_is_run h l input target w _ T W kw u0 N (1 / 2) HF HT Ew HW HN (or_introl Hm)) as (phi & St & Ru). exists phi. split; [exact St|].
  intros i j [Hi Hj]. revert i j Hi Hj. refine (run_keeps _ _ A c _ u0 N phi (1 / 2) ltac:(lra) _ _ Ru).
  - intros i j Hi Hj. apply HA. split; assumption.
  - cbv zeta. intros k U u v Hu Hv H1 H2. replace (1 - 1 / 2) with (1 / 2) by lra. destruct (Ceq_dec (W u v) (RtoC 0)) as [Z|Z].
    + rewrite Z. ring.
    + set (I := (cis k * _)%C) in *. assert (EI : (RtoC (T u v) * U)%C = I).
      { symmetry. rewrite H2. f_equal. f_equal. unfold I. rewrite Cmod_turn, HP by (try split; assumption). reflexivity. }
      rewrite EI. ring.
Qed.

(** ** Mixing factor 1: Gerchberg-Saxton for the target multiplied by the window. *)
Lemma mraf_one_is_gs h l input target target' w F T W u N : full_input h (l_slm l) input F -> real_target h (l_slm l) target T ->
  full_target h (l_slm l) w (fun i j => RtoC (W i j)) -> real_target h (l_slm l) target' (fun i j => T i j * W i j) ->
  same_hologram (l_slm l) (calculate_hologram h l input target MMraf (mraf_kwargs N w 1) u) (calculate_hologram h l input target' MGs (gs_kwargs N) u).
Proof.
  intros HF HT HW HT'. do 2 eexists. split; [eapply mraf_stores; try eassumption; reflexivity|]. split; [apply gs_stores; eassumption|].
  cbn [gs_kwargs mraf_kwargs lk_N lk_mix dflt]. intros i j [Hi Hj]. revert i j Hi Hj. unfold mraf_array, gs_array. apply iter_agree.
  intros a b Hab i j Hi Hj. unfold mraf_step, gs_step. f_equal. apply fft2_ext. intros k q Hk Hq. rewrite (ifft2_modulated_ext _ _ F a b k q Hab).
  unfold ifftshift2. replace (1 - 1) with 0 by ring. rewrite RtoC_mult. ring.
Qed.

(** ** The default mixing factor spoils a perfect hologram. *)
Definition slm2 : slm := {| wavelength := 1; focal_length := 1; s_Nx := 2; s_Ny := 1; pixel_size := 1 |}.
Definition flat2 : parg := AConstC (T2 1 2 (fun _ _ => RtoC 1)).
Definition T2h : nat -> nat -> R := fun _ _ => sqrt 2 / 2.
Definition half2 : parg := AConstR (T2 1 2 T2h).
Definition W2h : nat -> nat -> C := fun _ v => if Nat.eqb v 1 then RtoC 1 else RtoC 0.
Definition win2 : parg := AConstC (T2 1 2 W2h).
Definition quarter (i j : nat) : R := if Nat.eqb j 1 then 1 / 4 else 0.
Lemma wave_00 : wave 1 2 0 0 0 0 = (- RtoC 1)%C.
Proof. unfold wave. change (centred 1 0) with 0%Z. change (centred 2 0) with (-1)%Z. replace (2 * PI * _) with PI by (cbn [INR Z.mul Pos.mul]; field). unfold cis. rewrite cos_PI, sin_PI. unfold Copp, RtoC. cbn [fst snd]. f_equal; ring. Qed.
Lemma wave_1 j v : (j < 2)%nat -> (v < 2)%nat -> (j = 1 \/ v = 1)%nat -> wave 1 2 0 j 0 v = RtoC 1.
Proof.
  intros Hj Hv H. unfold wave. change (centred 1 0) with 0%Z. replace (centred 2 j * centred 2 v)%Z with 0%Z.
  - replace (2 * PI * _) with 0 by (cbn [INR Z.mul]; field). apply cis_0.
  - unfold centred. change (2 / 2)%nat with 1%nat. destruct H as [-> | ->]; cbn; lia.
Qed.
Lemma image2 E : image_of 1 2 E 0 0 = ((E O 1%nat - E O O) / RtoC 2)%C /\ image_of 1 2 E 0 1 = ((E O O + E O 1%nat) / RtoC 2)%C.
Proof.
  unfold image_of, csum2. cbn [csum]. split.
  - rewrite wave_00, (wave_1 1 0) by lia. replace (RtoC (INR (1 * 2))) with (RtoC 2) by (cbn; f_equal; ring). f_equal. ring.
  - rewrite !wave_1 by lia. replace (RtoC (INR (1 * 2))) with (RtoC 2) by (cbn; f_equal; ring). f_equal. ring.
Qed.
Lemma spectrum2 V : spectrum_of 1 2 V 0 0 = (V O 1%nat - V O O)%C /\ spectrum_of 1 2 V 0 1 = (V O O + V O 1%nat)%C.
Proof.
  assert (Q : forall r, cconj (RtoC r) = RtoC r) by (intros r; unfold cconj, RtoC; cbn [fst snd]; f_equal; ring).
  unfold spectrum_of, csum2. cbn [csum]. split.
  - replace (cconj (wave 1 2 0 0 0 0)) with (- RtoC 1)%C by (rewrite wave_00; unfold cconj, Copp, RtoC; cbn [fst snd]; f_equal; ring). rewrite (wave_1 0 1), !Q by lia. ring.
  - rewrite !wave_1, !Q by lia. ring.
Qed.
Lemma perfect2 : forall u v, in_slm slm2 u v -> Cmod (image_of 1 2 (modulated (fun _ _ => RtoC 1) (fun i j => 2 * PI * quarter i j)) u v) = T2h u v.
Proof.
  assert (E0 : modulated (fun _ _ => RtoC 1) (fun i j => 2 * PI * quarter i j) 0 0 = (1, 0)).
  { unfold modulated, quarter. cbn [Nat.eqb]. rewrite Rmult_0_r, cis_0. unfold Cmult, RtoC. cbn [fst snd]. f_equal; ring. }
  assert (E1 : modulated (fun _ _ => RtoC 1) (fun i j => 2 * PI * quarter i j) 0 1 = (0, 1)).
  { unfold modulated, quarter. cbn [Nat.eqb]. replace (2 * PI * (1 / 4)) with (PI / 2) by field. unfold cis. rewrite cos_PI2, sin_PI2. unfold Cmult, RtoC. cbn [fst snd]. f_equal; ring. }
  assert (S2 : sqrt (1 / 2) = sqrt 2 / 2). { rewrite <- (sqrt_Rsqr (sqrt 2 / 2)) by (apply Rmult_le_pos; [apply sqrt_pos|lra]). f_equal. unfold Rsqr. replace (sqrt 2 / 2 * (sqrt 2 / 2)) with (sqrt 2 * sqrt 2 / 4) by field. rewrite sqrt_sqrt by lra. field. }
  intros u v [Hu Hv]. cbn in Hu, Hv. assert (u = 0%nat) as -> by lia. unfold T2h. rewrite <- S2. unfold Cmod.
  assert (v = 0 \/ v = 1)%nat as [-> | ->] by lia; [rewrite (proj1 (image2 _))|rewrite (proj2 (image2 _))]; rewrite E0, E1; f_equal;
  unfold Cdiv, Cinv, Cminus, Cplus, Copp, Cmult, RtoC; cbn [fst snd]; field.
Qed.
Lemma mraf_spoils : exists h l input target w F T W u0 phi,
  full_input h (l_slm l) input F /\ real_target h (l_slm l) target T /\ full_target h (l_slm l) w W /\
  (forall u v, in_slm (l_slm l) u v -> W u v = RtoC 1 \/ W u v = RtoC 0) /\
  (forall u v, in_slm (l_slm l) u v -> Cmod (image_of (s_Ny (l_slm l)) (s_Nx (l_slm l)) (modulated F (fun i j => 2 * PI * u0 i j)) u v) = T u v) /\
  stores (l_slm l) (calculate_hologram h l input target MMraf {| lk_N := Some 1%Z; lk_window := Some w; lk_mix := None |} u0) phi /\
  exists u v, in_slm (l_slm l) u v /\ W u v = RtoC 1 /\ Cmod (image_of (s_Ny (l_slm l)) (s_Nx (l_slm l)) (modulated F phi) u v) < T u v.
Proof.
  destruct (mraf_is_run ex_heap (lcos_new slm2) flat2 half2 win2 (fun _ _ => RtoC 1) T2h W2h {| lk_N := Some 1%Z; lk_window := Some win2; lk_mix := None |} quarter 1%Z 0.4
    eq_refl eq_refl eq_refl eq_refl (or_introl eq_refl) (or_intror (conj eq_refl eq_refl))) as (phi & St & Ru).
  change (s_Ny (l_slm (lcos_new slm2))) with 1%nat in Ru. change (s_Nx (l_slm (lcos_new slm2))) with 2%nat in Ru.
  exists ex_heap, (lcos_new slm2), flat2, half2, win2, (fun _ _ => RtoC 1), T2h, W2h, quarter, phi.
  assert (E0 : modulated (fun _ _ => RtoC 1) (fun i j => 2 * PI * quarter i j) 0 0 = (1, 0)).
  { unfold modulated, quarter. cbn [Nat.eqb]. rewrite Rmult_0_r, cis_0. unfold Cmult, RtoC. cbn [fst snd]. f_equal; ring. }
  assert (E1 : modulated (fun _ _ => RtoC 1) (fun i j => 2 * PI * quarter i j) 0 1 = (0, 1)).
  { unfold modulated, quarter. cbn [Nat.eqb]. replace (2 * PI * (1 / 4)) with (PI / 2) by field. unfold cis. rewrite cos_PI2, sin_PI2. unfold Cmult, RtoC. cbn [fst snd]. f_equal; ring. }
  assert (I0 : image_of 1 2 (modulated (fun _ _ => RtoC 1) (fun i j => 2 * PI * quarter i j)) 0 0 = (-1 / 2, 1 / 2)).
  { rewrite (proj1 (image2 _)), E0, E1. unfold Cdiv, Cinv, Cminus, Cplus, Copp, Cmult, RtoC. cbn [fst snd]. f_equal; field. }
  assert (I1 : image_of 1 2 (modulated (fun _ _ => RtoC 1) (fun i j => 2 * PI * quarter i j)) 0 1 = (1 / 2, 1 / 2)).
  { rewrite (proj2 (image2 _)), E0, E1. unfold Cdiv, Cinv, Cminus, Cplus, Copp, Cmult, RtoC. cbn [fst snd]. f_equal; field. }
  assert (S2 : sqrt (1 / 2) = sqrt 2 / 2). { rewrite <- (sqrt_Rsqr (sqrt 2 / 2)) by (apply Rmult_le_pos; [apply sqrt_pos|lra]). f_equal. unfold Rsqr. replace (sqrt 2 / 2 * (sqrt 2 / 2)) with (sqrt 2 * sqrt 2 / 4) by field. rewrite sqrt_sqrt by lra. field. }
  assert (M0 : Cmod (-1 / 2, 1 / 2) = sqrt 2 / 2) by (rewrite <- S2; unfold Cmod; cbn [fst snd]; f_equal; field).
  assert (M1 : Cmod (1 / 2, 1 / 2) = sqrt 2 / 2) by (rewrite <- S2; unfold Cmod; cbn [fst snd]; f_equal; field).
  split; [reflexivity|]. split; [reflexivity|]. split; [reflexivity|]. split; [intros u v _; unfold W2h; destruct (Nat.eqb v 1); auto|].
  split; [|split; [exact St|]].
  { intros u v [Hu Hv]. cbn in Hu, Hv. assert (u = 0%nat) as -> by lia. assert (v = 0 \/ v = 1)%nat as [-> | ->] by lia; cbn [lcos_new l_slm slm2 s_Ny s_Nx]; [rewrite I0; exact M0|rewrite I1; exact M1]. }
  exists O, 1%nat. split; [split; cbn; lia|]. split; [reflexivity|]. cbn [lcos_new l_slm slm2 s_Ny s_Nx].
  destruct Ru as (G & G0 & GS & GN). destruct (GS O ltac:(cbn; lia)) as (U & HU & HB). cbv zeta in HU, HB. clear GS.
  assert (EI : forall u v, image_of 1 2 (modulated (fun _ _ => RtoC 1) (G O)) u v = image_of 1 2 (modulated (fun _ _ => RtoC 1) (fun i j => 2 * PI * quarter i j)) u v).
  { intros u v. apply image_of_ext. intros i j Hi Hj. unfold modulated. rewrite G0 by assumption. reflexivity. }
  assert (HU1 := proj2 (HU 0%nat 1%nat ltac:(lia) ltac:(lia))). rewrite EI, I1, M1 in HU1.
  assert (ET : (RtoC (T2h 0 1) * U 0%nat 1%nat)%C = (1 / 2, 1 / 2)) by (symmetry; exact HU1).
  set (V := fun u v => _) in HB.
  assert (V0 : V 0%nat 0%nat = (-3 / 10, 3 / 10)).
  { unfold V. rewrite EI, I0. unfold W2h. cbn [Nat.eqb]. unfold Cminus, Cplus, Copp, Cmult, RtoC. cbn [fst snd]. f_equal; lra. }
  assert (V1 : V 0%nat 1%nat = (2 / 10, 2 / 10)).
  { unfold V. rewrite EI, I1, ET. unfold W2h. cbn [Nat.eqb]. unfold Cminus, Cplus, Copp, Cmult, RtoC. cbn [fst snd]. f_equal; lra. }
  destruct (HB 0%nat 0%nat ltac:(lia) ltac:(lia)) as (_ & B0 & _). destruct (HB 0%nat 1%nat ltac:(lia) ltac:(lia)) as (_ & B1 & _).
  rewrite (proj1 (spectrum2 V)), V0, V1 in B0. rewrite (proj2 (spectrum2 V)), V0, V1 in B1.
  set (r := sqrt (26 / 100)).
  assert (Hr : 0 < r) by (apply sqrt_lt_R0; lra). assert (Hrr : r * r = 26 / 100) by (apply sqrt_sqrt; lra).
  assert (RA : Cmod (((2 / 10)%R, (2 / 10)%R) - ((-3 / 10)%R, (3 / 10)%R))%C = r) by (unfold r, Cmod, Cminus, Cplus, Copp; cbn [fst snd]; f_equal; field).
  assert (RB : Cmod (((-3 / 10)%R, (3 / 10)%R) + ((2 / 10)%R, (2 / 10)%R))%C = r) by (unfold r, Cmod, Cplus; cbn [fst snd]; f_equal; field).
  rewrite RA in B0. rewrite RB in B1.
  rewrite (image_of_ext 1 2 _ (modulated (fun _ _ => RtoC 1) (G 1%nat))) by (intros i j Hi Hj; unfold modulated; rewrite GN by assumption; reflexivity).
  rewrite (proj2 (image2 _)). unfold modulated.
  set (e0 := cis (G 1%nat 0%nat 0%nat)) in *. set (e1 := cis (G 1%nat 0%nat 1%nat)) in *.
  assert (Q : Cmod ((RtoC 1 * e0 + RtoC 1 * e1) / RtoC 2)%C * r = Cmod (2 / 10, 2 / 10)).
  { rewrite <- (Rabs_pos_eq r) at 1 by lra. rewrite <- Cmod_R, <- Cmod_mult. f_equal.
    transitivity ((RtoC r * e0 + RtoC r * e1) * / RtoC 2)%C; [unfold Cdiv; ring|]. change e0 with (cis (G 1%nat 0%nat 0%nat)). 
    unfold e0, e1 in *. rewrite <- B0, <- B1. unfold Cdiv, Cinv, Cminus, Cplus, Copp, Cmult, RtoC. cbn [fst snd]. f_equal; field. }
  assert (QM : Cmod (2 / 10, 2 / 10) = 2 / 5 * (sqrt 2 / 2)).
  { replace (2 / 10, 2 / 10) with (RtoC (2 / 5) * ((1 / 2)%R, (1 / 2)%R))%C by (unfold Cmult, RtoC; cbn [fst snd]; f_equal; field). rewrite Cmod_mult, M1, Cmod_R, Rabs_pos_eq by lra. reflexivity. }
  rewrite QM in Q. assert (0 < sqrt 2 / 2) by (assert (0 < sqrt 2) by (apply sqrt_lt_R0; lra); lra). unfold T2h.
  assert (2 / 5 < r) by nra. nra.
Qed.
Lemma perfect_case : full_input ex_heap slm2 flat2 (fun i j => (RtoC 1 * cis 0)%C) /\ real_target ex_heap slm2 half2 T2h /\ full_target ex_heap slm2 win2 W2h /\
  forall u v, in_slm slm2 u v -> Cmod (image_of 1 2 (modulated (fun i j => (RtoC 1 * cis 0)%C) (fun i j => 2 * PI * quarter i j)) u v) = T2h u v.
Proof.
  assert (E : (RtoC 1 * cis 0)%C = RtoC 1) by (rewrite cis_0; apply Cmult_1_l).
  rewrite E. repeat split. apply perfect2.
Qed.
