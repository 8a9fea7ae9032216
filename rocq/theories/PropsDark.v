(** C37, which grey levels are lost. *)
From Coq Require Import Reals Lra ZArith Arith List Bool Lia.
From Coquelicot Require Import Complex.
From Verif Require Import Cx Sums DFT PyBase ProfileModel SlmModel LibModel DmdModel SimModel SimSpec DmdSpec DarkFacts SimExamples DmdExamples.
Open Scope R_scope.

(** The mirrors which are dark although the target needs them become NaN, all others become 0. *)
Theorem C37_dark_pixels_exactly : forall h d input target w F T W kw u,
  full_input h (d_slm d) input F -> full_target h (d_slm d) target T -> window_reads h (d_slm d) w W -> d_p d <> 0 ->
  scaling_factor (d_slm d) <> 0 ->
  (exists i j, in_array d i j /\ F i j = RtoC 0 /\ windowed d T W i j <> RtoC 0) ->
  exists g, calculate_dmd_state h d input target MIdeal w kw u = (with_state d (DFloat (s_Ny (d_slm d)) (s_Nx (d_slm d)) g), Ok (Fin 0)) /\
    forall i j, in_array d i j ->
      (F i j = RtoC 0 /\ windowed d T W i j <> RtoC 0 -> g i j = NaN) /\
      (F i j <> RtoC 0 \/ windowed d T W i j = RtoC 0 -> g i j = Fin 0).
Proof. exact dark_exactly. Qed.
Print Assumptions C37_dark_pixels_exactly.
Example C37_case_exactly : full_input ex_heap (d_slm ex4) in4d F4d /\ full_target ex_heap (d_slm ex4) tg4d T4d /\
  exists i j, in_array ex4 i j /\ F4d i j = RtoC 0 /\ windowed ex4 T4d (fun _ _ => RtoC 1) i j <> RtoC 0.
Proof. exact ex4_dark. Qed.
