(** What MRAF aims at (C128). *)
From Coq Require Import Reals Lra ZArith Arith List Bool Lia.
From Coquelicot Require Import Complex.
From Verif Require Import Cx Sums PyBase ProfileModel SlmModel LibModel DmdModel SimModel SimSpec SimExamples DmdSpec DmdExamples HoloSpec HoloThms HoloExamples MrafFacts StallSpec AimSpec AimFacts AimFacts2.
Open Scope R_scope.

(** The mixing factor m only rescales the target: the hologram is the one of mixing factor 1/2 and the target times m / (1 - m). Any beam, any window. *)
Theorem C128_mixing_rescales_the_target : forall h l input target target' w F T W u N m, full_input h (l_slm l) input F -> real_target h (l_slm l) target T -> full_target h (l_slm l) w W ->
  real_target h (l_slm l) target' (fun i j => m / (1 - m) * T i j) -> 0 <= m < 1 ->
  same_hologram (l_slm l) (calculate_hologram h l input target MMraf (mraf_kwargs N w m) u) (calculate_hologram h l input target' MMraf (mraf_kwargs N w (1 / 2)) u).
Proof. exact mixing_is_scale. Qed.
Print Assumptions C128_mixing_rescales_the_target.
(** The error inside the window against the rescaled target never increases, for every window with values between 0 and 1. *)
Theorem C128_window_error_never_increases : forall h l input target w F A c T W u om m N N', full_input h (l_slm l) input F -> real_target h (l_slm l) target T -> full_target h (l_slm l) w (fun i j => RtoC (W i j)) ->
  (forall i j, in_slm (l_slm l) i j -> F i j = (RtoC (A i j) * cis c)%C /\ 0 <= A i j) -> (forall i j, in_slm (l_slm l) i j -> 0 <= T i j) -> (forall i j, in_slm (l_slm l) i j -> 0 <= W i j <= 1) ->
  given om 0.4 m -> 0 <= m < 1 -> (N <= N')%Z ->
  exists p p', stores (l_slm l) (calculate_hologram h l input target MMraf (mraf_options N w om) u) p /\ stores (l_slm l) (calculate_hologram h l input target MMraf (mraf_options N' w om) u) p' /\
    window_error (s_Ny (l_slm l)) (s_Nx (l_slm l)) F W (fun i j => m / (1 - m) * T i j) p' <= window_error (s_Ny (l_slm l)) (s_Nx (l_slm l)) F W (fun i j => m / (1 - m) * T i j) p.
Proof. exact mraf_monotone. Qed.
Print Assumptions C128_window_error_never_increases.
(** It converges, and every movement of the phases (beyond the phase c of the beam, which each iteration adds) is paid for by a decrease of it. *)
Theorem C128_progress : forall h l input target w F A T W u c m om, let s := l_slm l in let run N := calculate_hologram h l input target MMraf (mraf_options (Z.of_nat N) w om) u in
  full_input h s input F -> real_target h s target T -> full_target h s w (fun i j => RtoC (W i j)) ->
  (forall i j, in_slm s i j -> F i j = (RtoC (A i j) * cis c)%C /\ 0 <= A i j) -> (forall i j, in_slm s i j -> 0 <= T i j) -> (forall i j, in_slm s i j -> 0 <= W i j <= 1) ->
  given om 0.4 m -> 0 <= m < 1 ->
  let err p := window_error (s_Ny s) (s_Nx s) F W (fun i j => m / (1 - m) * T i j) p in
  exists p B e, (forall N, stores s (run N) (p N)) /\ (forall k, windowed_beam s F W (fun i j => m / (1 - m) * T i j) (p k) (B k)) /\
  (forall k i j, in_slm s i j -> B k i j = (RtoC (Cmod (B k i j)) * cis (p (S k) i j))%C) /\
  (forall k, 0 <= movement s A (B k) (fun i j => c + p k i j) (p (S k)) <= err (p k) - err (p (S k))) /\
  (forall N, rsum N (fun k => movement s A (B k) (fun i j => c + p k i j) (p (S k))) <= err (p O) - err (p N)) /\
  Un_cv (fun k => movement s A (B k) (fun i j => c + p k i j) (p (S k))) 0 /\ Un_cv (fun k => err (p k)) e /\ (forall k, 0 <= e <= err (p k)).
Proof. exact mraf_progress. Qed.
Print Assumptions C128_progress.
(** Against the target itself the error of the default mixing factor can grow, even from zero. *)
Theorem C128_plain_error_can_grow : exists h l input target w F T V W u p p', full_input h (l_slm l) input F /\ real_target h (l_slm l) target T /\ full_target h (l_slm l) w V /\
  (forall i j, in_slm (l_slm l) i j -> V i j = RtoC (W i j) /\ 0 <= W i j <= 1) /\
  stores (l_slm l) (calculate_hologram h l input target MMraf (mraf_options 0 w None) u) p /\ stores (l_slm l) (calculate_hologram h l input target MMraf (mraf_options 1 w None) u) p' /\
  window_error (s_Ny (l_slm l)) (s_Nx (l_slm l)) F W T p = 0 /\ 0 < window_error (s_Ny (l_slm l)) (s_Nx (l_slm l)) F W T p'.
Proof. exact plain_error_grows. Qed.
Print Assumptions C128_plain_error_can_grow.
(** A 2 x 1 SLM with the window on one image pixel and the default mixing factor, which aims at 2/3 of the target: the error starts at 1/18. *)
Example C128_case : full_input ex_heap slm2 flat2 (fun i j => RtoC 1) /\ real_target ex_heap slm2 half2 T2h /\ full_target ex_heap slm2 win2 (fun i j => RtoC (in2 i j)) /\
  (forall i j, in_slm slm2 i j -> RtoC 1 = (RtoC 1 * cis 0)%C /\ 0 <= 1) /\ (forall i j, in_slm slm2 i j -> 0 <= T2h i j) /\ (forall i j, in_slm slm2 i j -> 0 <= in2 i j <= 1) /\
  given None 0.4 0.4 /\ 0 <= 0.4 < 1 /\ (forall i j, 0.4 / (1 - 0.4) * T2h i j = 2 / 3 * T2h i j) /\
  window_error 1 2 (fun _ _ => RtoC 1) in2 (fun i j => 0.4 / (1 - 0.4) * T2h i j) (fun i j => 2 * PI * quarter i j) = 1 / 18.
Proof. exact aim_case. Qed.
