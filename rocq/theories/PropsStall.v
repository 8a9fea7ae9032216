(** Progress of Gerchberg-Saxton runs (C126). *)
From Coq Require Import Reals Lra ZArith Arith List Bool Lia.
From Coquelicot Require Import Complex.
From Verif Require Import Cx Sums PyBase ProfileModel SlmModel LibModel DmdModel SimModel SimSpec SimExamples DmdSpec DmdExamples HoloSpec HoloThms HoloExamples EquiSpec StallSpec StallFacts2.
Open Scope R_scope.

(** Every movement of the phases is paid for by a decrease of the error, so the movements sum to at most the initial error and die out. *)
Theorem C126_progress : forall h l input target F A T u, let s := l_slm l in let run N := calculate_hologram h l input target MGs (gs_kwargs (Z.of_nat N)) u in
  full_input h s input F -> real_target h s target T ->
  (forall i j, in_slm s i j -> F i j = RtoC (A i j) /\ 0 <= A i j) -> (forall i j, in_slm s i j -> 0 <= T i j) ->
  exists p B, (forall N, stores s (run N) (p N)) /\ (forall k, corrected_beam s F T (p k) (B k)) /\
  (forall k i j, in_slm s i j -> B k i j = (RtoC (Cmod (B k i j)) * cis (p (S k) i j))%C) /\
  (forall k, 0 <= movement s A (B k) (p k) (p (S k)) <= image_error (s_Ny s) (s_Nx s) F T (p k) - image_error (s_Ny s) (s_Nx s) F T (p (S k))) /\
  (forall N, rsum N (fun k => movement s A (B k) (p k) (p (S k))) <= image_error (s_Ny s) (s_Nx s) F T (p O) - image_error (s_Ny s) (s_Nx s) F T (p N)) /\
  Un_cv (fun k => movement s A (B k) (p k) (p (S k))) 0.
Proof. exact gs_progress. Qed.
Print Assumptions C126_progress.
(** A run that gained nothing in one iteration stays where it is. *)
Theorem C126_stalled_runs_stay : forall h l input target F A T u, let s := l_slm l in let run N := calculate_hologram h l input target MGs (gs_kwargs (Z.of_nat N)) u in
  full_input h s input F -> real_target h s target T ->
  (forall i j, in_slm s i j -> F i j = RtoC (A i j) /\ 0 <= A i j) -> (forall i j, in_slm s i j -> 0 <= T i j) ->
  forall k p p', stores s (run k) p -> stores s (run (S k)) p' -> no_zeros s F T (gs_field T) p ->
  image_error (s_Ny s) (s_Nx s) F T p <= image_error (s_Ny s) (s_Nx s) F T p' ->
  (forall i j, in_slm s i j -> F i j <> RtoC 0 -> cis (p' i j) = cis (p i j)) /\ (forall N, (k < N)%nat -> same_hologram s (run N) (run (S k))).
Proof. exact gs_stalled. Qed.
Print Assumptions C126_stalled_runs_stay.

(** A uniform beam on a 3 x 1 SLM and a spot twice as bright as the beam can make it: the run stalls at once, with an error of at least 1. *)
Example C126_case : exists p p', full_input ex_heap slm3 flat3 (fun _ _ => RtoC 1) /\ real_target ex_heap slm3 double3 double /\
  (forall i j, in_slm slm3 i j -> RtoC 1 = RtoC 1 /\ 0 <= 1) /\ (forall i j, in_slm slm3 i j -> 0 <= double i j) /\
  stores slm3 (calculate_hologram ex_heap (lcos_new slm3) flat3 double3 MGs (gs_kwargs (Z.of_nat 0)) (fun _ _ => 0)) p /\
  stores slm3 (calculate_hologram ex_heap (lcos_new slm3) flat3 double3 MGs (gs_kwargs (Z.of_nat 1)) (fun _ _ => 0)) p' /\
  no_zeros slm3 (fun _ _ => RtoC 1) double (gs_field double) p /\
  image_error (s_Ny slm3) (s_Nx slm3) (fun _ _ => RtoC 1) double p <= image_error (s_Ny slm3) (s_Nx slm3) (fun _ _ => RtoC 1) double p' /\
  1 <= image_error (s_Ny slm3) (s_Nx slm3) (fun _ _ => RtoC 1) double p.
Proof. exact stall_case. Qed.
