(** Mean image and noise of the random grating (C76). *)
From Coq Require Import Reals Lra ZArith Arith List Bool Lia FunctionalExtensionality.
From Coquelicot Require Import Hierarchy RInt Complex.
From Verif Require Import Cx Sums DFT PyBase ProfileModel SlmModel LibModel DmdModel SimModel SimSpec GridFacts GridFacts2 SimFacts SimFacts2 SimFacts4 DmdSpec DmdFacts DmdFacts2 DmdFacts3 RandomFacts AmpFacts5 PhaseFacts DmdThms StatSpec StatFacts.
Import ListNotations.
Open Scope R_scope.

(** Contribution of mirror (i, j) to the image at (X, Y). *)
Definition share (s : slm) (F : nat -> nat -> C) (X Y : R) (i j : nat) : C :=
  (cis (2 * PI * (half_offset (s_Nx s) * X - half_offset (s_Ny s) * Y) * pixel_size s / scaling_factor s) *
   (RtoC (pixel_size s ^ 2 / scaling_factor s) * (F i j * cis (2 * PI * ((INR j - INR (s_Nx s) / 2) * pixel_size s * X
                                                  + (INR (s_Ny s) / 2 - INR i) * pixel_size s * Y) / scaling_factor s))))%C.
Lemma share_sum s F S X Y : image_function s (fun i j => (F i j * S i j)%C) X Y = csum2 (s_Ny s) (s_Nx s) (fun i j => (share s F X Y i j * S i j)%C).
Proof.
  unfold image_function. rewrite <- !csum2_scal_l. apply csum2_ext; intros i j _ _. unfold share. ring.
Qed.
Lemma share_mod s F X Y i j : Cmod (share s F X Y i j) ^ 2 = (pixel_size s ^ 2 / scaling_factor s) ^ 2 * Cmod (F i j) ^ 2.
Proof. unfold share. rewrite !Cmod_mult, !Cmod_cis, Cmod_R. rewrite Rmult_1_l, Rmult_1_r, Rpow_mult_distr, pow2_abs. reflexivity. Qed.

Lemma random_mean h dg m a F g (b : (nat -> nat -> R) -> nat -> nat -> bool) (D : (nat -> nat -> R) -> dmd) N I n_g Ig :
  let s := d_slm dg in
  full_input h s a F -> (forall i j, (i < s_Ny s)%nat -> (j < s_Nx s)%nat -> 0 <= g i j <= 1) ->
  (forall u, d_slm (D u) = s /\ d_state (D u) = DBool (s_Ny s) (s_Nx s) (b u)) ->
  (forall u i j, (i < s_Ny s)%nat -> (j < s_Nx s)%nat -> (b u i j = true <-> u i j < g i j)) ->
  (forall u, propagate_to_image h (DevDmd (D u)) m a = (N u, Ok tt) /\ field_is (f_image (N u)) (NY s m) (NX s m) (I u)) ->
  d_state dg = DFloat (s_Ny s) (s_Nx s) (fun i j => Fin (g i j)) ->
  propagate_to_image h (DevDmd dg) m a = (n_g, Ok tt) -> field_is (f_image n_g) (NY s m) (NX s m) Ig ->
  (0 < s_Nx s)%nat -> (0 < s_Ny s)%nat -> pixel_size s <> 0 ->
  forall p q, (p < NY s m)%nat -> (q < NX s m)%nat ->
  is_mean (mirrors (s_Ny s) (s_Nx s)) (fun u => fst (I u p q)) (fun _ => fst (Ig p q)) /\
  is_mean (mirrors (s_Ny s) (s_Nx s)) (fun u => snd (I u p q)) (fun _ => snd (Ig p q)) /\
  is_mean (mirrors (s_Ny s) (s_Nx s)) (fun u => Cmod (I u p q) ^ 2)
    (fun _ => Cmod (Ig p q) ^ 2 + (pixel_size s ^ 2 / (wavelength s * focal_length s)) ^ 2 * rsum2 (s_Ny s) (s_Nx s) (fun i j => g i j * (1 - g i j) * Cmod (F i j) ^ 2)).
Proof.
  intros s HF Hg HD Hb HP Dg Pg HIg Hnx Hny Hps p q Hp Hq.
  assert (HSg := state_float dg g Dg).
  destruct (propagate_inv h (DevDmd dg) m a F _ n_g HF HSg Pg) as (Hy & Hx & Hsf & _).
  assert (exists X Y, grid_is (image_plane_padded_grid s m) (NY s m) (NX s m) X Y) as (X & Y & GX).
  { do 2 eexists. exact (image_grid_of_is (NX s m) (NY s m) (pixel_size s) (scaling_factor s) Hps). }
  set (z0 := fun _ : nat -> nat -> R => RtoC 0). set (c := share s F (X p q) (Y p q)). set (l := mirrors (s_Ny s) (s_Nx s)).
  assert (EI : forall u, I u p q = sums c g z0 l u).
  { intros u. destruct (HD u) as [E1 E2]. destruct (HP u) as [P1 P2].
    assert (HSu := state_bool (D u) (b u) ltac:(rewrite E1; exact E2)).
    assert (Su := image_sampled h (DevDmd (D u)) m a F (fun i j => RtoC (if b u i j then 1 else 0)) (N u) X Y). cbv zeta in Su. cbn [dev_slm] in Su. rewrite E1 in Su.
    specialize (Su HF HSu P1 Hnx Hny Hps GX). destruct (field_is_inj _ _ _ _ _ _ _ P2 Su) as (_ & _ & ->); [|assumption|assumption].
    rewrite share_sum. unfold sums, z0, l. rewrite lsum_mirrors, Cplus_0_l. apply csum2_ext; intros i j Hi Hj. fold c. f_equal. f_equal.
    unfold on. specialize (Hb u i j Hi Hj). destruct (Rlt_dec (u i j) (g i j)) as [L|L], (b u i j); try reflexivity; exfalso; [apply Hb in L; discriminate|apply L, Hb; reflexivity]. }
  assert (Eg : forall u, Ig p q = greys c g z0 l u).
  { intros u. assert (Sg := image_sampled h (DevDmd dg) m a F (fun i j => RtoC (g i j)) n_g X Y HF HSg Pg Hnx Hny Hps GX).
    destruct (field_is_inj _ _ _ _ _ _ _ HIg Sg) as (_ & _ & ->); [|assumption|assumption]. cbn [dev_slm]. fold s.
    rewrite share_sum. unfold greys, z0, l. rewrite lsum_mirrors, Cplus_0_l. reflexivity. }
  assert (Bl : blind l z0) by (intros i j u t _; reflexivity). assert (Hgl : forall i j, In (i, j) l -> 0 <= g i j <= 1) by (intros i j H; apply in_mirrors in H; apply Hg; tauto).
  assert (ND := mirrors_nodup (s_Ny s) (s_Nx s)). fold l in ND.
  assert (Q1 := mean_linear c g (fun z => fst z) l z0 (fun z w => eq_refl) ND Hgl Bl). cbv beta in Q1.
  assert (Q2 := mean_linear c g (fun z => snd z) l z0 (fun z w => eq_refl) ND Hgl Bl). cbv beta in Q2.
  assert (Q3 := mean_square c g l z0 ND Hgl Bl).
  specialize (Q1 ltac:(intros [x y] r; cbn [Cmult RtoC fst snd]; ring)). specialize (Q2 ltac:(intros [x y] r; cbn [Cmult RtoC fst snd]; ring)).
  assert (EM : forall M M', (forall u, M u = M' u) -> forall V, is_mean l V M -> is_mean l V M').
  { intros M M' E V. replace M' with M; [auto|]. apply FunctionalExtensionality.functional_extensionality. exact E. }
  repeat split.
  - eapply is_mean_ext; [|eapply EM; [|exact Q1]]; intros u; cbv beta; [rewrite EI|rewrite <- Eg]; reflexivity.
  - eapply is_mean_ext; [|eapply EM; [|exact Q2]]; intros u; cbv beta; [rewrite EI|rewrite <- Eg]; reflexivity.
  - eapply is_mean_ext; [|eapply EM; [|exact Q3]]; intros u; cbv beta; [rewrite EI; reflexivity|rewrite <- Eg]. f_equal.
    unfold l. rewrite lrsum_mirrors. rewrite <- rsum2_scal_l. apply rsum2_ext; intros i j _ _. unfold c. rewrite share_mod. unfold scaling_factor. ring.
Qed.

Definition bools (st : dstate) : nat -> nat -> bool := match st with DBool _ _ f => f | DFloat _ _ _ => fun _ _ => false end.
(** Instance: set_dmd_grating_state(method="random"). *)
Lemma random_grating_mean h d amp pin pout A Pi Po kw m input F :
  let s := d_slm d in
  reads h s amp A -> reads h s pin Pi -> reads h s pout Po -> d_p d <> 0 -> 0 < dflt (k_r kw) 10 -> (forall i j, in_array d i j -> 0 <= A i j <= 1) ->
  full_input h s input F -> (0 < s_Nx s)%nat -> (0 < s_Ny s)%nat -> pixel_size s <> 0 ->
  exists g, (forall i j, in_array d i j -> 0 <= g i j < 1 /\ exists q, folded (carrier d i j - signed (d_neg d) (Po i j - Pi i j)) q /\ g i j = duty (dflt (k_r kw) 10) q (A i j)) /\
  forall N I n_g Ig,
  (forall u, propagate_to_image h (DevDmd (fst (set_dmd_grating_state h d amp pin pout MRandom kw u))) m input = (N u, Ok tt) /\ field_is (f_image (N u)) (NY s m) (NX s m) (I u)) ->
  propagate_to_image h (DevDmd (with_state d (DFloat (s_Ny s) (s_Nx s) (fun i j => Fin (g i j))))) m input = (n_g, Ok tt) -> field_is (f_image n_g) (NY s m) (NX s m) Ig ->
  forall p q, (p < NY s m)%nat -> (q < NX s m)%nat ->
  is_mean (mirrors (s_Ny s) (s_Nx s)) (fun u => fst (I u p q)) (fun _ => fst (Ig p q)) /\
  is_mean (mirrors (s_Ny s) (s_Nx s)) (fun u => snd (I u p q)) (fun _ => snd (Ig p q)) /\
  is_mean (mirrors (s_Ny s) (s_Nx s)) (fun u => Cmod (I u p q) ^ 2)
    (fun _ => Cmod (Ig p q) ^ 2 + (pixel_size s ^ 2 / (wavelength s * focal_length s)) ^ 2 * rsum2 (s_Ny s) (s_Nx s) (fun i j => g i j * (1 - g i j) * Cmod (F i j) ^ 2)).
Proof.
  intros s HA HPi HPo Hp Hr HA1 HF Hnx Hny Hps.
  set (th := fun i j => carrier d i j - signed (d_neg d) (Po i j - Pi i j)).
  set (g := fun i j => duty (dflt (k_r kw) 10) (acos (cos (th i j))) (A i j)). exists g.
  assert (Hg : forall i j, in_array d i j -> 0 <= g i j < 1) by (intros i j Hij; apply duty_range; [exact Hr|apply HA1; exact Hij]).
  split.
  { intros i j Hij. split; [apply Hg; exact Hij|]. exists (acos (cos (th i j))). split; [apply folded_acos|reflexivity]. }
  intros N I n_g Ig HP Pg HIg p q Hpp Hq.
  set (dg := with_state d (DFloat (s_Ny s) (s_Nx s) (fun i j => Fin (g i j)))) in *.
  set (D := fun u => fst (set_dmd_grating_state h d amp pin pout MRandom kw u)).
  apply (random_mean h dg m input F g (fun u => bools (d_state (D u))) D N I n_g Ig); try assumption; try reflexivity.
  - intros i j Hi Hj. specialize (Hg i j (conj Hi Hj)). lra.
  - intros u. unfold D. destruct (random_spec h d amp pin pout A Pi Po kw u HA HPi HPo Hp Hr) as (f & E & _). rewrite E. split; reflexivity.
  - intros u i j Hi Hj. unfold D. destruct (random_spec h d amp pin pout A Pi Po kw u HA HPi HPo Hp Hr) as (f & E & V). rewrite E. cbn [fst with_state d_state bools].
    destruct (V i j (conj Hi Hj)) as (V1 & _). destruct (V1 (HA1 i j (conj Hi Hj))) as (q' & Fq & V2 & _). rewrite V2. unfold g.
    rewrite (folded_unique _ _ _ Fq (folded_acos _)). reflexivity.
Qed.
(** Instance: calculate_dmd_state(method="random"). *)
Lemma random_hologram_mean h d input target w F T W kw m :
  let s := d_slm d in
  full_input h s input F -> full_target h s target T -> window_reads h s w W -> d_p d <> 0 ->
  (0 < s_Ny s)%nat -> (0 < s_Nx s)%nat -> scaling_factor s <> 0 -> pixel_size s <> 0 -> 0 < dflt (k_r kw) 10 ->
  (forall i j, in_array d i j -> F i j = RtoC 0 -> windowed d T W i j = RtoC 0) ->
  (exists i j, in_array d i j /\ windowed d T W i j <> RtoC 0) ->
  exists g M, 0 < M /\
  (forall i j, in_array d i j -> 0 <= g i j < 1 /\ exists q, folded (carrier d i j - signed (d_neg d) (phase_of (windowed d T W i j) - carg (F i j))) q /\
     g i j = duty (dflt (k_r kw) 10) q (Cmod (windowed d T W i j) / Cmod (F i j) / M)) /\
  (forall u, snd (calculate_dmd_state h d input target MRandom w kw u) = Ok (Fin (eta_scale s / M))) /\
  forall N I n_g Ig,
  (forall u, propagate_to_image h (DevDmd (fst (calculate_dmd_state h d input target MRandom w kw u))) m input = (N u, Ok tt) /\ field_is (f_image (N u)) (NY s m) (NX s m) (I u)) ->
  propagate_to_image h (DevDmd (with_state d (DFloat (s_Ny s) (s_Nx s) (fun i j => Fin (g i j))))) m input = (n_g, Ok tt) -> field_is (f_image n_g) (NY s m) (NX s m) Ig ->
  forall p q, (p < NY s m)%nat -> (q < NX s m)%nat ->
  is_mean (mirrors (s_Ny s) (s_Nx s)) (fun u => fst (I u p q)) (fun _ => fst (Ig p q)) /\
  is_mean (mirrors (s_Ny s) (s_Nx s)) (fun u => snd (I u p q)) (fun _ => snd (Ig p q)) /\
  is_mean (mirrors (s_Ny s) (s_Nx s)) (fun u => Cmod (I u p q) ^ 2)
    (fun _ => Cmod (Ig p q) ^ 2 + (pixel_size s ^ 2 / (wavelength s * focal_length s)) ^ 2 * rsum2 (s_Ny s) (s_Nx s) (fun i j => g i j * (1 - g i j) * Cmod (F i j) ^ 2)).
Proof.
  intros s HF HT HW Hp Hny Hnx Hsf Hps Hr Hd Hl.
  assert (HS := fun u => hologram_spec h d input target w F T W kw u HF HT HW Hp Hny Hnx Hsf Hd Hl). cbv zeta in HS.
  destruct (HS (fun _ _ => 0)) as (M & HM & P1 & (i1 & j1 & Q1 & R1) & _).
  set (th := fun i j => carrier d i j - signed (d_neg d) (phase_of (windowed d T W i j) - carg (F i j))).
  set (A := fun i j => Cmod (windowed d T W i j) / Cmod (F i j) / M).
  set (g := fun i j => duty (dflt (k_r kw) 10) (acos (cos (th i j))) (A i j)).
  assert (HU : forall u, exists f, calculate_dmd_state h d input target MRandom w kw u = (with_state d (DBool (s_Ny s) (s_Nx s) f), Ok (Fin (eta_scale s / M))) /\
     forall i j, in_array d i j -> (f i j = true <-> u i j < g i j)).
  { intros u. destruct (HS u) as (M' & HM' & P1' & (i1' & j1' & Q1' & R1') & _ & _ & (f & E & V)).
    assert (EM := max_unique _ _ M M' HM HM' R1 R1' (proj2 (P1 i1' j1' Q1')) (proj2 (P1' i1 j1 Q1))). subst M'.
    exists f. split; [exact E|]. intros i j Hij. destruct (V i j Hij) as (q & Fq & Vq). rewrite Vq. unfold g, A. rewrite (folded_unique _ _ _ Fq (folded_acos _)). reflexivity. }
  assert (Hg : forall i j, in_array d i j -> 0 <= g i j < 1) by (intros i j Hij; apply duty_range; [exact Hr|apply P1; exact Hij]).
  exists g, M. split; [exact HM|]. split; [|split].
  { intros i j Hij. split; [apply Hg; exact Hij|]. exists (acos (cos (th i j))). split; [apply folded_acos|reflexivity]. }
  { intros u. destruct (HU u) as (f & E & _). rewrite E. reflexivity. }
  intros N I n_g Ig HP Pg HIg p q Hpp Hq.
  set (dg := with_state d (DFloat (s_Ny s) (s_Nx s) (fun i j => Fin (g i j)))) in *.
  set (D := fun u => fst (calculate_dmd_state h d input target MRandom w kw u)).
  apply (random_mean h dg m input F g (fun u => bools (d_state (D u))) D N I n_g Ig); try assumption; try reflexivity.
  - intros i j Hi Hj. specialize (Hg i j (conj Hi Hj)). lra.
  - intros u. unfold D. destruct (HU u) as (f & E & _). rewrite E. split; reflexivity.
  - intros u i j Hi Hj. unfold D. destruct (HU u) as (f & E & V). rewrite E. cbn [fst with_state d_state bools]. apply V. split; assumption.
Qed.
