(** Displaying a computed hologram with an aberrated beam (C131). *)
From Coq Require Import Reals Lra Psatz ZArith Arith List Bool Lia.
From Coquelicot Require Import Complex.
From Verif Require Import Cx Sums PyBase ProfileModel SlmModel LibModel DmdModel SimModel SimSpec SimExamples DmdSpec DmdExamples HoloSpec HoloThms HoloExamples AmpFacts5 AmpFacts3 MultiFacts AimSpec AimFacts AimFacts2 CureSpec.
Open Scope R_scope.

Section Cure.
Variables (h : heap) (s : slm) (input : parg) (F : nat -> nat -> C) (A phi : nat -> nat -> R).
Hypothesis RF : full_input h s input F.
Hypothesis PF : forall i j, in_slm s i j -> F i j = (RtoC (A i j) * cis (phi i j))%C /\ 0 <= A i j.
Hypothesis Hs : 0 < scaling_factor s.
Hypothesis Hq : pixel_size s <> 0.
Lemma cured W T p : (0 < s_Ny s)%nat -> (0 < s_Nx s)%nat -> simulated_error h s input W T (fun i j => phi i j - p i j) (window_error (s_Ny s) (s_Nx s) (fun i j => RtoC (A i j)) W T p).
Proof.
  intros Hy Hx m Px Py.
  destruct (lcos_displayed h (assigned s (fun i j => phi i j - p i j)) input F A (fun i j => phi i j - p i j) m RF eq_refl ltac:(cbn; lra) Px Py) as (m' & E & P & I & V & _).
  exists m', E. split; [exact P|]. split; [exact I|]. unfold displayed_error, window_error. apply rsum2_ext. intros u v Hu Hv. do 2 f_equal. f_equal.
  rewrite V by (split; assumption). cbn [l_slm assigned]. rewrite Cmod_mult, Cmod_R.
  assert (P0 : 0 < eta_scale s).
  { unfold eta_scale. assert (0 < INR (s_Nx s)) by (apply lt_0_INR; lia). assert (0 < INR (s_Ny s)) by (apply lt_0_INR; lia).
    assert (0 < pixel_size s ^ 2). { assert (G := pow2_ge_0 (pixel_size s)). destruct G as [G|G]; [exact G|]. exfalso. apply Hq. nra. }
    apply Rmult_lt_0_compat; [|apply Rinv_0_lt_compat; exact Hs]. apply Rmult_lt_0_compat; [apply Rmult_lt_0_compat|]; assumption. }
  rewrite Rabs_pos_eq by lra. assert (Q : forall x, eta_scale s * x / eta_scale s = x) by (intros; field; lra). rewrite Q. f_equal. apply image_of_ext. intros i j Hi Hj. unfold modulated.
  destruct (PF i j (conj Hi Hj)) as [-> _]. rewrite <- Cmult_assoc, <- cis_plus. do 2 f_equal. ring.
Qed.
End Cure.
Definition phases_of (r : lcos * res unit) : nat -> nat -> R := match l_state (fst r) with LReal _ _ p => p | LComplex _ _ _ => fun _ _ => 0 end.
Lemma phases_stored s r p : stores s r p -> phases_of r = p.
Proof. intros [_ H]. unfold phases_of. rewrite H. reflexivity. Qed.
Lemma gs_cured h l input input' target F A phi T u : let s := l_slm l in let run N := calculate_hologram h l input' target MGs (gs_kwargs N) u in
  full_input h s input F -> full_input h s input' (fun i j => RtoC (A i j)) -> real_target h s target T ->
  (forall i j, in_slm s i j -> F i j = (RtoC (A i j) * cis (phi i j))%C /\ 0 <= A i j) -> (forall i j, in_slm s i j -> 0 <= T i j) ->
  (0 < s_Ny s)%nat -> (0 < s_Nx s)%nat -> 0 < scaling_factor s -> pixel_size s <> 0 ->
  exists p err, (forall N, stores s (run N) (p N)) /\ (forall N, simulated_error h s input (fun _ _ => 1) T (fun i j => phi i j - p N i j) (err N)) /\
    (forall N, err N = image_error (s_Ny s) (s_Nx s) (fun i j => RtoC (A i j)) T (p N)) /\ forall N N', (N <= N')%Z -> 0 <= err N' <= err N.
Proof.
  intros s run RF RA RT PF PT Hy Hx Hs Hq.
  assert (PA : forall i j, in_slm s i j -> RtoC (A i j) = (RtoC (A i j) * cis 0)%C /\ 0 <= A i j). { intros i j Hij. split; [rewrite cis_0; ring|apply PF, Hij]. }
  assert (MON : forall N N', (N <= N')%Z -> exists p p', stores s (run N) p /\ stores s (run N') p' /\ image_error (s_Ny s) (s_Nx s) (fun i j => RtoC (A i j)) T p' <= image_error (s_Ny s) (s_Nx s) (fun i j => RtoC (A i j)) T p)
    by (intros N N' L; exact (gs_monotone h l input' target _ A 0 T u N N' RA RT PA PT L)).
  assert (EQ : forall p, image_error (s_Ny s) (s_Nx s) (fun i j => RtoC (A i j)) T p = window_error (s_Ny s) (s_Nx s) (fun i j => RtoC (A i j)) (fun _ _ => 1) T p).
  { intros p. unfold image_error, window_error. apply rsum2_ext. intros. ring. }
  exists (fun N => phases_of (run N)), (fun N => image_error (s_Ny s) (s_Nx s) (fun i j => RtoC (A i j)) T (phases_of (run N))). split; [|split; [|split; [reflexivity|]]].
  - intros N. destruct (MON N N ltac:(lia)) as (p & _ & S1 & _). rewrite (phases_stored s _ _ S1). exact S1.
  - intros N. rewrite EQ. exact (cured h s input F A phi RF PF Hs Hq (fun _ _ => 1) T (phases_of (run N)) Hy Hx).
  - intros N N' L. destruct (MON N N' L) as (p & p' & S1 & S2 & LE). rewrite (phases_stored s _ _ S1), (phases_stored s _ _ S2). split; [|exact LE]. unfold image_error. apply rsum2_ge_0. intros. apply pow2_ge_0.
Qed.
Lemma mraf_cured h l input input' target w F A phi T W u om m : let s := l_slm l in let run N := calculate_hologram h l input' target MMraf (mraf_options N w om) u in
  full_input h s input F -> full_input h s input' (fun i j => RtoC (A i j)) -> real_target h s target T -> full_target h s w (fun i j => RtoC (W i j)) ->
  (forall i j, in_slm s i j -> F i j = (RtoC (A i j) * cis (phi i j))%C /\ 0 <= A i j) -> (forall i j, in_slm s i j -> 0 <= T i j) -> (forall i j, in_slm s i j -> 0 <= W i j <= 1) ->
  given om 0.4 m -> 0 <= m < 1 -> (0 < s_Ny s)%nat -> (0 < s_Nx s)%nat -> 0 < scaling_factor s -> pixel_size s <> 0 ->
  exists p err, (forall N, stores s (run N) (p N)) /\ (forall N, simulated_error h s input W (fun i j => m / (1 - m) * T i j) (fun i j => phi i j - p N i j) (err N)) /\
    (forall N, err N = window_error (s_Ny s) (s_Nx s) (fun i j => RtoC (A i j)) W (fun i j => m / (1 - m) * T i j) (p N)) /\ forall N N', (N <= N')%Z -> 0 <= err N' <= err N.
Proof.
  intros s run RF RA RT RW PF PT PW G M Hy Hx Hs Hq.
  assert (PA : forall i j, in_slm s i j -> RtoC (A i j) = (RtoC (A i j) * cis 0)%C /\ 0 <= A i j). { intros i j Hij. split; [rewrite cis_0; ring|apply PF, Hij]. }
  pose (TT := fun i j => m / (1 - m) * T i j). pose (AA := fun i j => RtoC (A i j)).
  assert (MON : forall N N', (N <= N')%Z -> exists p p', stores s (run N) p /\ stores s (run N') p' /\ window_error (s_Ny s) (s_Nx s) AA W TT p' <= window_error (s_Ny s) (s_Nx s) AA W TT p)
    by (intros N N' L; exact (mraf_monotone h l input' target w _ A 0 T W u om m N N' RA RT RW PA PT PW G M L)).
  exists (fun N => phases_of (run N)), (fun N => window_error (s_Ny s) (s_Nx s) AA W TT (phases_of (run N))). split; [|split; [|split; [reflexivity|]]].
  - intros N. destruct (MON N N ltac:(lia)) as (p & _ & S1 & _). rewrite (phases_stored s _ _ S1). exact S1.
  - intros N. exact (cured h s input F A phi RF PF Hs Hq W TT (phases_of (run N)) Hy Hx).
  - intros N N' L. destruct (MON N N' L) as (p & p' & S1 & S2 & LE). rewrite (phases_stored s _ _ S1), (phases_stored s _ _ S2). split; [|exact LE]. unfold window_error. apply rsum2_ge_0. intros i j Hi Hj.
    apply Rmult_le_pos; [apply PW; split; assumption|apply pow2_ge_0].
Qed.
Definition tilted3 : parg := AConstC (T2 1 3 (fun _ j => cis (INR j))).
Lemma cure_case : full_input ex_heap slm3 tilted3 (fun _ j => cis (INR j)) /\ full_input ex_heap slm3 flat3 (fun _ _ => RtoC 1) /\ real_target ex_heap slm3 spot3 (spot 0 2) /\ full_target ex_heap slm3 flat3 (fun _ _ => RtoC 1) /\
  (forall i j, in_slm slm3 i j -> cis (INR j) = (RtoC 1 * cis (INR j))%C /\ 0 <= 1) /\ (forall i j, in_slm slm3 i j -> 0 <= spot 0 2 i j) /\ given None 0.4 0.4 /\
  (0 < s_Ny slm3)%nat /\ (0 < s_Nx slm3)%nat /\ 0 < scaling_factor slm3 /\ pixel_size slm3 <> 0.
Proof.
  destruct gs_case as (A1 & A2 & A3 & A4 & A5 & _).
  split; [reflexivity|]. split; [exact A1|]. split; [exact A2|]. split; [exact A5|].
  split; [intros i j _; split; [ring|lra]|]. split; [intros i j Hij; apply (A3 i j Hij)|]. split; [right; auto|].
  split; [cbn; lia|]. split; [cbn; lia|]. split; [unfold scaling_factor, slm3; cbn [wavelength focal_length]; lra|]. unfold slm3. cbn [pixel_size]. lra.
Qed.
