(** Properties of the iterative phase holograms, continued (C42 mixing factor 1, C81, C82). *)
From Coq Require Import Reals Lra ZArith Arith List Bool Lia.
From Coquelicot Require Import Complex.
From Verif Require Import Cx Sums DFT PyBase ProfileModel SlmModel LibModel DmdModel SimModel SimSpec SimExamples DmdSpec DmdFacts2 DmdExamples HoloSpec HoloThms HoloExamples MrafFacts.
Open Scope R_scope.

(** ** C42 *)
Theorem C42_mixing_one_is_gs_of_the_masked_target : forall h l input target target' w F T W u N,
  full_input h (l_slm l) input F -> real_target h (l_slm l) target T ->
  full_target h (l_slm l) w (fun i j => RtoC (W i j)) -> real_target h (l_slm l) target' (fun i j => T i j * W i j) ->
  same_hologram (l_slm l) (calculate_hologram h l input target MMraf (mraf_kwargs N w 1) u) (calculate_hologram h l input target' MGs (gs_kwargs N) u).
Proof. exact mraf_one_is_gs. Qed.
Print Assumptions C42_mixing_one_is_gs_of_the_masked_target.
Example C42_mixing_one_case : exists target' w, full_input ex_heap slm3 flat3 (fun _ _ => RtoC 1) /\ real_target ex_heap slm3 spot3 (spot 0 2) /\
  full_target ex_heap slm3 w (fun i j => RtoC (INR j)) /\ real_target ex_heap slm3 target' (fun i j => spot 0 2 i j * INR j).
Proof. exists (AConstR (T2 1 3 (fun i j => spot 0 2 i j * INR j))), (AConstC (T2 1 3 (fun i j => RtoC (INR j)))). repeat split. Qed.

(** ** C81 *)
Theorem C81_gs_run : forall h l input target F T kw u0 N, full_input h (l_slm l) input F -> real_target h (l_slm l) target T -> given (lk_N kw) 200%Z N ->
  exists phi, stores (l_slm l) (calculate_hologram h l input target MGs kw u0) phi /\
   retrieval_run (s_Ny (l_slm l)) (s_Nx (l_slm l)) F (fun _ U u v => (RtoC (T u v) * U)%C) u0 N phi.
Proof. exact gs_is_run. Qed.
Print Assumptions C81_gs_run.
Theorem C81_mraf_run : forall h l input target w F T W kw u0 N m, full_input h (l_slm l) input F -> real_target h (l_slm l) target T ->
  lk_window kw = Some w -> full_target h (l_slm l) w W -> given (lk_N kw) 200%Z N -> given (lk_mix kw) 0.4 m ->
  exists phi, stores (l_slm l) (calculate_hologram h l input target MMraf kw u0) phi /\
   retrieval_run (s_Ny (l_slm l)) (s_Nx (l_slm l)) F
     (fun I U u v => (RtoC m * (RtoC (T u v) * U) * W u v + RtoC (1 - m) * I * (RtoC 1 - W u v))%C) u0 N phi.
Proof. exact mraf_is_run. Qed.
Print Assumptions C81_mraf_run.
Example C81_case : full_input ex_heap slm3 flat3 (fun _ _ => RtoC 1) /\ real_target ex_heap slm3 spot3 (spot 0 2) /\
  full_target ex_heap slm3 flat3 (fun _ _ => RtoC 1) /\ given (lk_N (gs_kwargs 3)) 200%Z 3%Z /\ given (lk_mix (gs_kwargs 3)) 0.4 0.4.
Proof. repeat split; [left; reflexivity|right; split; reflexivity]. Qed.

(** ** C82 *)
Theorem C82_gs_keeps_a_perfect_hologram : forall h l input target T A c kw u0 N,
  full_input h (l_slm l) input (fun i j => (RtoC (A i j) * cis c)%C) -> real_target h (l_slm l) target T ->
  (forall i j, in_slm (l_slm l) i j -> 0 <= A i j) -> given (lk_N kw) 200%Z N ->
  (forall u v, in_slm (l_slm l) u v ->
     Cmod (image_of (s_Ny (l_slm l)) (s_Nx (l_slm l)) (modulated (fun i j => (RtoC (A i j) * cis c)%C) (fun i j => 2 * PI * u0 i j)) u v) = T u v) ->
  exists phi, stores (l_slm l) (calculate_hologram h l input target MGs kw u0) phi /\
    forall i j, in_slm (l_slm l) i j -> 0 < A i j -> cis (phi i j) = cis (2 * PI * u0 i j + INR (Z.to_nat N) * c).
Proof. exact gs_keeps. Qed.
Print Assumptions C82_gs_keeps_a_perfect_hologram.
Theorem C82_mraf_with_equal_mixing_keeps_it : forall h l input target w T W A c kw u0 N,
  full_input h (l_slm l) input (fun i j => (RtoC (A i j) * cis c)%C) -> real_target h (l_slm l) target T ->
  (forall i j, in_slm (l_slm l) i j -> 0 <= A i j) -> lk_window kw = Some w -> full_target h (l_slm l) w W -> given (lk_N kw) 200%Z N -> lk_mix kw = Some (1 / 2) ->
  (forall u v, in_slm (l_slm l) u v -> W u v <> RtoC 0 ->
     Cmod (image_of (s_Ny (l_slm l)) (s_Nx (l_slm l)) (modulated (fun i j => (RtoC (A i j) * cis c)%C) (fun i j => 2 * PI * u0 i j)) u v) = T u v) ->
  exists phi, stores (l_slm l) (calculate_hologram h l input target MMraf kw u0) phi /\
    forall i j, in_slm (l_slm l) i j -> 0 < A i j -> cis (phi i j) = cis (2 * PI * u0 i j + INR (Z.to_nat N) * c).
Proof. exact mraf_keeps. Qed.
Print Assumptions C82_mraf_with_equal_mixing_keeps_it.
Theorem C82_default_mraf_keeps_it_refuted : exists h l input target w F T W u0 phi,
  full_input h (l_slm l) input F /\ real_target h (l_slm l) target T /\ full_target h (l_slm l) w W /\
  (forall u v, in_slm (l_slm l) u v -> W u v = RtoC 1 \/ W u v = RtoC 0) /\
  (forall u v, in_slm (l_slm l) u v -> Cmod (image_of (s_Ny (l_slm l)) (s_Nx (l_slm l)) (modulated F (fun i j => 2 * PI * u0 i j)) u v) = T u v) /\
  stores (l_slm l) (calculate_hologram h l input target MMraf {| lk_N := Some 1%Z; lk_window := Some w; lk_mix := None |} u0) phi /\
  exists u v, in_slm (l_slm l) u v /\ W u v = RtoC 1 /\ Cmod (image_of (s_Ny (l_slm l)) (s_Nx (l_slm l)) (modulated F phi) u v) < T u v.
Proof. exact mraf_spoils. Qed.
Print Assumptions C82_default_mraf_keeps_it_refuted.
Example C82_case : full_input ex_heap slm2 flat2 (fun i j => (RtoC 1 * cis 0)%C) /\ real_target ex_heap slm2 half2 T2h /\ full_target ex_heap slm2 win2 W2h /\
  forall u v, in_slm slm2 u v -> Cmod (image_of 1 2 (modulated (fun i j => (RtoC 1 * cis 0)%C) (fun i j => 2 * PI * quarter i j)) u v) = T2h u v.
Proof. exact perfect_case. Qed.
