(** Displaying a computed hologram with an aberrated beam (C131). *)
From Coq Require Import Reals ZArith Arith.
From Coquelicot Require Import Complex.
From Verif Require Import Cx Sums PyBase ProfileModel SlmModel LibModel DmdModel SimModel SimSpec SimExamples DmdSpec HoloSpec HoloThms HoloExamples AimSpec CureSpec CureFacts.
Open Scope R_scope.

(** Gerchberg-Saxton run with the modulus of the beam; the device gets the phases of the beam minus the computed ones. *)
Theorem C131_gerchberg_saxton : forall h l input input' target F A phi T u, let s := l_slm l in let run N := calculate_hologram h l input' target MGs (gs_kwargs N) u in
  full_input h s input F -> full_input h s input' (fun i j => RtoC (A i j)) -> real_target h s target T ->
  (forall i j, in_slm s i j -> F i j = (RtoC (A i j) * cis (phi i j))%C /\ 0 <= A i j) -> (forall i j, in_slm s i j -> 0 <= T i j) ->
  (0 < s_Ny s)%nat -> (0 < s_Nx s)%nat -> 0 < scaling_factor s -> pixel_size s <> 0 ->
  exists p err, (forall N, stores s (run N) (p N)) /\ (forall N, simulated_error h s input (fun _ _ => 1) T (fun i j => phi i j - p N i j) (err N)) /\
    (forall N, err N = image_error (s_Ny s) (s_Nx s) (fun i j => RtoC (A i j)) T (p N)) /\ forall N N', (N <= N')%Z -> 0 <= err N' <= err N.
Proof. exact gs_cured. Qed.
Print Assumptions C131_gerchberg_saxton.
(** The same with MRAF. *)
Theorem C131_mraf : forall h l input input' target w F A phi T W u om m, let s := l_slm l in let run N := calculate_hologram h l input' target MMraf (mraf_options N w om) u in
  full_input h s input F -> full_input h s input' (fun i j => RtoC (A i j)) -> real_target h s target T -> full_target h s w (fun i j => RtoC (W i j)) ->
  (forall i j, in_slm s i j -> F i j = (RtoC (A i j) * cis (phi i j))%C /\ 0 <= A i j) -> (forall i j, in_slm s i j -> 0 <= T i j) -> (forall i j, in_slm s i j -> 0 <= W i j <= 1) ->
  given om 0.4 m -> 0 <= m < 1 -> (0 < s_Ny s)%nat -> (0 < s_Nx s)%nat -> 0 < scaling_factor s -> pixel_size s <> 0 ->
  exists p err, (forall N, stores s (run N) (p N)) /\ (forall N, simulated_error h s input W (fun i j => m / (1 - m) * T i j) (fun i j => phi i j - p N i j) (err N)) /\
    (forall N, err N = window_error (s_Ny s) (s_Nx s) (fun i j => RtoC (A i j)) W (fun i j => m / (1 - m) * T i j) (p N)) /\ forall N N', (N <= N')%Z -> 0 <= err N' <= err N.
Proof. exact mraf_cured. Qed.
Print Assumptions C131_mraf.
(** A tilted beam on three pixels. *)
Example C131_case : full_input ex_heap slm3 tilted3 (fun _ j => cis (INR j)) /\ full_input ex_heap slm3 flat3 (fun _ _ => RtoC 1) /\ real_target ex_heap slm3 spot3 (spot 0 2) /\ full_target ex_heap slm3 flat3 (fun _ _ => RtoC 1) /\
  (forall i j, in_slm slm3 i j -> cis (INR j) = (RtoC 1 * cis (INR j))%C /\ 0 <= 1) /\ (forall i j, in_slm slm3 i j -> 0 <= spot 0 2 i j) /\ given None 0.4 0.4 /\
  (0 < s_Ny slm3)%nat /\ (0 < s_Nx slm3)%nat /\ 0 < scaling_factor slm3 /\ pixel_size slm3 <> 0.
Proof. exact cure_case. Qed.
