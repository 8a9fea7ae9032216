(** Runs of Gerchberg-Saxton on a device (C126). *)
From Coq Require Import Reals Lra Psatz ZArith Arith List Bool Lia.
From Coquelicot Require Import Complex.
From Verif Require Import Cx Sums DFT PyBase ProfileModel SlmModel LibModel DmdModel SimModel SimSpec GridFacts SimFacts SimFacts2 SimExamples DmdSpec DmdFacts DmdFacts2 DmdFacts3 DmdExamples AmpFacts AmpFacts3 AmpFacts5 HoloSpec HoloFacts HoloFacts2 HoloThms HoloExamples EquiSpec EquiFacts EquiExamples StallSpec StallFacts.
Open Scope R_scope.

Lemma array_next ny nx F T u k : gs_array ny nx F T u (Z.of_nat (S k)) = gs_step ny nx F (ifftshift2 ny nx T) (gs_array ny nx F T u (Z.of_nat k)).
Proof. unfold gs_array. rewrite !Nat2Z.id. reflexivity. Qed.
Lemma array_back ny nx F Tc g i j : raw_back ny nx F Tc g i j = (RtoC (Cmod (raw_back ny nx F Tc g i j)) * cis (gs_step ny nx F Tc g i j))%C.
Proof. apply polar. Qed.
Section Run.
Variables (h : heap) (l : lcos) (input target : parg) (F : nat -> nat -> C) (A T u : nat -> nat -> R).
Let s := l_slm l.
Hypothesis RF : full_input h s input F.
Hypothesis RT : real_target h s target T.
Hypothesis HF : forall i j, in_slm s i j -> F i j = RtoC (A i j) /\ 0 <= A i j.
Hypothesis HT : forall i j, in_slm s i j -> 0 <= T i j.
Let run N := calculate_hologram h l input target MGs (gs_kwargs (Z.of_nat N)) u.
Lemma gs_progress : exists p B, (forall N, stores s (run N) (p N)) /\ (forall k, corrected_beam s F T (p k) (B k)) /\
  (forall k i j, in_slm s i j -> B k i j = (RtoC (Cmod (B k i j)) * cis (p (S k) i j))%C) /\
  (forall k, 0 <= movement s A (B k) (p k) (p (S k)) <= image_error (s_Ny s) (s_Nx s) F T (p k) - image_error (s_Ny s) (s_Nx s) F T (p (S k))) /\
  (forall N, rsum N (fun k => movement s A (B k) (p k) (p (S k))) <= image_error (s_Ny s) (s_Nx s) F T (p O) - image_error (s_Ny s) (s_Nx s) F T (p N)) /\
  Un_cv (fun k => movement s A (B k) (p k) (p (S k))) 0.
Proof.
  set (p := fun N => gs_array (s_Ny s) (s_Nx s) F T u (Z.of_nat N)). set (B := fun k => raw_back (s_Ny s) (s_Nx s) F (ifftshift2 (s_Ny s) (s_Nx s) T) (p k)).
  exists p, B. assert (ST : forall N, stores s (run N) (p N)) by (intros N; exact (gs_stores h l input target F T RF RT (gs_kwargs (Z.of_nat N)) u)).
  assert (NEXT : forall k, p (S k) = gs_step (s_Ny s) (s_Nx s) F (ifftshift2 (s_Ny s) (s_Nx s) T) (p k)) by (intros k; apply array_next). clearbody p.
  assert (M : forall k, 0 <= movement s A (B k) (p k) (p (S k)) <= image_error (s_Ny s) (s_Nx s) F T (p k) - image_error (s_Ny s) (s_Nx s) F T (p (S k))).
  { intros k. split; [exact (movement_pos s F A HF (B k) (p k) (p (S k)))|]. assert (G := device_gain s F A T HF HT (p k)). rewrite NEXT. unfold B. lra. }
  assert (SUM : forall N, rsum N (fun k => movement s A (B k) (p k) (p (S k))) <= image_error (s_Ny s) (s_Nx s) F T (p O) - image_error (s_Ny s) (s_Nx s) F T (p N)).
  { induction N as [|N IH]; cbn [rsum]; [lra|]. specialize (M N). lra. }
  split; [exact ST|]. split; [intros k; exact (back_corrected s F T (p k))|]. split; [intros k i j _; rewrite NEXT; unfold B; exact (array_back (s_Ny s) (s_Nx s) F (ifftshift2 (s_Ny s) (s_Nx s) T) (p k) i j)|]. split; [exact M|]. split; [exact SUM|].
  assert (HA : forall i j, in_slm (l_slm l) i j -> F i j = (RtoC (A i j) * cis 0)%C /\ 0 <= A i j).
  { intros i j H. destruct (HF i j H) as [E1 E2]. rewrite cis_0, Cmult_1_r. split; assumption. }
  destruct (gs_error_converges h l input target F A 0 T u RF RT HA HT) as (q & e & Q1 & Q2 & _).

  assert (PQ : forall N, q N = p N) by (intros N; destruct (Q1 N) as [_ X]; destruct (ST N) as [_ Y]; unfold run in Y; fold s in X; rewrite Y in X; injection X; auto).
  intros eps He. destruct (Q2 (eps / 2)) as [N0 HN]; [lra|]. exists N0. intros n Hn. assert (X := HN n Hn). assert (Y := HN (S n) ltac:(lia)). unfold R_dist in *. fold s in X, Y. rewrite PQ in X, Y.
  rewrite Rminus_0_r. destruct (M n) as [M1 M2]. rewrite Rabs_pos_eq by exact M1. apply Rabs_def2 in X. apply Rabs_def2 in Y. lra.
Qed.
Lemma gs_stalled k p p' : stores s (run k) p -> stores s (run (S k)) p' -> no_zeros s F T (gs_field T) p ->
  image_error (s_Ny s) (s_Nx s) F T p <= image_error (s_Ny s) (s_Nx s) F T p' ->
  (forall i j, in_slm s i j -> F i j <> RtoC 0 -> cis (p' i j) = cis (p i j)) /\ (forall N, (k < N)%nat -> same_hologram s (run N) (run (S k))).
Proof.
  intros S1 S2 NZ E. assert (Q1 := gs_stores h l input target F T RF RT (gs_kwargs (Z.of_nat k)) u). assert (Q2 := gs_stores h l input target F T RF RT (gs_kwargs (Z.of_nat (S k))) u).
  cbn [gs_kwargs lk_N dflt] in Q1, Q2. set (g := gs_array _ _ _ _ _ (Z.of_nat k)) in Q1. rewrite array_next in Q2. fold g in Q2.
  assert (p = g) by (destruct S1 as [_ S1]; destruct Q1 as [_ Q1]; unfold run in S1; rewrite S1 in Q1; injection Q1; auto). subst p.
  assert (p' = gs_step (s_Ny s) (s_Nx s) F (ifftshift2 (s_Ny s) (s_Nx s) T) g) by (destruct S2 as [_ S2]; destruct Q2 as [_ Q2]; unfold run in S2; rewrite S2 in Q2; injection Q2; auto). subst p'.
  set (step := gs_step (s_Ny s) (s_Nx s) F (ifftshift2 (s_Ny s) (s_Nx s) T)) in *.
  assert (G := device_gain s F A T HF HT g). fold step in G.
  assert (C1 : forall i j, in_slm s i j -> F i j <> RtoC 0 -> cis (step g i j) = cis (g i j)).
  { intros i j Hij NF. apply (no_movement s F A HF (raw_back (s_Ny s) (s_Nx s) F (ifftshift2 (s_Ny s) (s_Nx s) T) g)); try assumption; [lra|]. apply lit_back; assumption. }
  split; [exact C1|]. intros N HN.
  assert (FIX : forall i j, step (step g) i j = step g i j) by (apply (same_beam_step s F T); exact C1).
  assert (IT : forall n i j, iter n step (step g) i j = step g i j).
  { induction n as [|n IH]; intros i j; [reflexivity|]. cbn [iter]. rewrite <- FIX. apply (same_beam_step s F T). intros x y Hxy _. rewrite IH. reflexivity. }
  exists (gs_array (s_Ny s) (s_Nx s) F T u (Z.of_nat N)), (step g). split; [exact (gs_stores h l input target F T RF RT (gs_kwargs (Z.of_nat N)) u)|]. split; [exact Q2|].
  intros i j _. rewrite <- (IT (N - S k)%nat i j). unfold gs_array. rewrite Nat2Z.id. fold step.
  assert (AD : forall a b (x : nat -> nat -> R), iter (a + b) step x = iter a step (iter b step x)) by (induction a as [|a IHa]; intros b x; [reflexivity|]; cbn [Nat.add iter]; rewrite IHa; reflexivity).
  replace N with ((N - S k) + S k)%nat at 1 by lia. rewrite AD. f_equal. unfold g, gs_array. rewrite Nat2Z.id. reflexivity.
Qed.
End Run.
(** ** Case: a spot twice as bright as the beam can make it *)
Definition double (i j : nat) : R := 2 * spot 0 1 i j.
Definition double3 : parg := AConstR (T2 1 3 double).
Lemma stall_case : exists p p', full_input ex_heap slm3 flat3 (fun _ _ => RtoC 1) /\ real_target ex_heap slm3 double3 double /\
  (forall i j, in_slm slm3 i j -> RtoC 1 = RtoC 1 /\ 0 <= 1) /\ (forall i j, in_slm slm3 i j -> 0 <= double i j) /\
  stores slm3 (calculate_hologram ex_heap (lcos_new slm3) flat3 double3 MGs (gs_kwargs (Z.of_nat 0)) (fun _ _ => 0)) p /\
  stores slm3 (calculate_hologram ex_heap (lcos_new slm3) flat3 double3 MGs (gs_kwargs (Z.of_nat 1)) (fun _ _ => 0)) p' /\
  no_zeros slm3 (fun _ _ => RtoC 1) double (gs_field double) p /\
  image_error (s_Ny slm3) (s_Nx slm3) (fun _ _ => RtoC 1) double p <= image_error (s_Ny slm3) (s_Nx slm3) (fun _ _ => RtoC 1) double p' /\
  1 <= image_error (s_Ny slm3) (s_Nx slm3) (fun _ _ => RtoC 1) double p.
Proof.
  assert (Q1 := gs_stores ex_heap (lcos_new slm3) flat3 double3 (fun _ _ => RtoC 1) double eq_refl eq_refl (gs_kwargs (Z.of_nat 0)) (fun _ _ => 0)).
  assert (Q2 := gs_stores ex_heap (lcos_new slm3) flat3 double3 (fun _ _ => RtoC 1) double eq_refl eq_refl (gs_kwargs (Z.of_nat 1)) (fun _ _ => 0)).
  change (l_slm (lcos_new slm3)) with slm3 in Q1, Q2. cbn [gs_kwargs lk_N dflt] in Q1, Q2. rewrite array_next in Q2.
  set (p := gs_array _ _ _ _ _ (Z.of_nat 0)) in *. set (p' := gs_step _ _ _ _ p) in *.
  assert (P0 : forall i j, p i j = 0) by (intros i j; cbn; ring).
  assert (E1 : image_of (s_Ny slm3) (s_Nx slm3) (modulated (fun _ _ => RtoC 1) p) 0 1 = RtoC 1).
  { unfold image_of, slm3. cbn [s_Ny s_Nx]. unfold csum2. cbn [csum]. rewrite !wave_centre. unfold modulated. rewrite !P0, !cis_0.
    change (INR (1 * 3)) with (2 + 1). apply injective_projections; cbn; field. }
  assert (U1 : unit_of (RtoC 1) = RtoC 1) by (unfold unit_of; replace (carg (RtoC 1)) with 0 by (symmetry; apply carg_pos_real; lra); apply cis_0).
  assert (D0 : double 0 0 = 0) by (unfold double, spot; cbn; ring). assert (D1 : double 0 1 = 2) by (unfold double, spot; cbn; ring). assert (D2 : double 0 2 = 0) by (unfold double, spot; cbn; ring).
  assert (SP : forall (U : nat -> nat -> C) i j, U 0%nat 1%nat = RtoC 1 -> spectrum_of (s_Ny slm3) (s_Nx slm3) (fun u v => (RtoC (double u v) * U u v)%C) i j = RtoC 2).
  { intros U i j HU. unfold spectrum_of, csum2. cbn [s_Ny s_Nx slm3 csum]. rewrite D0, D1, D2, HU, wave_centre. apply injective_projections; cbn; ring. }
  assert (NZ : no_zeros slm3 (fun _ _ => RtoC 1) double (gs_field double) p).
  { unfold no_zeros. cbv zeta. split.
    - intros u v Huv HT. destruct (in3 u v Huv) as [-> [-> | [-> | ->]]]; try (exfalso; apply HT; assumption). rewrite E1. intros X. injection X. lra.
    - intros i j Hij _. unfold gs_field. rewrite (SP (fun u v => unit_of (image_of (s_Ny slm3) (s_Nx slm3) (modulated (fun _ _ => RtoC 1) p) u v)) i j) by (rewrite E1; exact U1). intros X. injection X. lra. }
  assert (P1 : forall i j, in_slm slm3 i j -> p' i j = 0).
  { intros i j Hij. destruct (back_corrected slm3 (fun _ _ => RtoC 1) double p) as (U & HU & HB). assert (X : U 0%nat 1%nat = RtoC 1).
    { destruct (HU 0%nat 1%nat ltac:(split; cbn; lia)) as [V1 V2]. cbv zeta in V2. rewrite E1 in V2. rewrite Cmod_1, Cmult_1_l in V2. auto. }
    specialize (HB i j Hij). rewrite (SP U i j X) in HB. unfold p', gs_step. unfold raw_back in HB. rewrite HB. apply carg_pos_real. lra. }
  exists p, p'. split; [reflexivity|]. split; [reflexivity|]. split; [intros; split; [reflexivity|lra]|].
  split; [intros i j _; unfold double, spot; destruct (_ && _)%bool; lra|]. split; [exact Q1|]. split; [exact Q2|]. split; [exact NZ|]. split.
  - right. unfold image_error. apply rsum2_ext. intros u v _ _. do 3 f_equal. apply image_of_ext. intros i j Hi Hj. unfold modulated. rewrite P1, P0 by (split; assumption). reflexivity.
  - unfold image_error, rsum2. cbn [s_Ny s_Nx slm3 rsum]. unfold slm3 in E1. cbn [s_Ny s_Nx] in E1. rewrite E1, D1, Cmod_1.
    set (a := (_ - double 0 0) ^ 2). set (b := (_ - double 0 2) ^ 2). assert (0 <= a) by apply pow2_ge_0. assert (0 <= b) by apply pow2_ge_0. lra.
Qed.
