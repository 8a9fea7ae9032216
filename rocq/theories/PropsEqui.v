(** C100: moving the target of a phase-retrieval run. *)
From Coq Require Import Reals Lra ZArith Arith List Bool Lia.
From Coquelicot Require Import Complex.
From Verif Require Import Cx Sums DFT PyBase ProfileModel SlmModel LibModel DmdModel SimModel SimSpec SimExamples DmdSpec DmdExamples HoloSpec HoloThms EquiSpec EquiFacts EquiExamples.
Open Scope R_scope.

Theorem C100_gs_moves_with_its_target : forall h l input target target' F T u u' N a b c, let s := l_slm l in
  full_input h s input F -> real_target h s target T -> real_target h s target' (moved_array s a b T) ->
  (forall i j, in_slm s i j -> F i j <> RtoC 0 -> cis (2 * PI * u' i j) = cis (c + 2 * PI * u i j - tilt s a b i j)) ->
  (forall k p, (0 <= k < N)%Z -> stores s (calculate_hologram h l input target MGs (gs_kwargs k) u) p -> no_zeros s F T (gs_field T) p) ->
  exists p p', stores s (calculate_hologram h l input target MGs (gs_kwargs N) u) p /\ stores s (calculate_hologram h l input target' MGs (gs_kwargs N) u') p' /\
    (forall i j, in_slm s i j -> F i j <> RtoC 0 -> cis (p' i j) = cis (c + p i j - tilt s a b i j)) /\
    (forall i j, in_slm s i j -> Cmod (image_of (s_Ny s) (s_Nx s) (modulated F p') i j) = moved_array s a b (fun i j => Cmod (image_of (s_Ny s) (s_Nx s) (modulated F p) i j)) i j).
Proof. exact gs_shift. Qed.
Print Assumptions C100_gs_moves_with_its_target.
Theorem C100_mraf_moves_with_its_target : forall h l input target target' w w' F T W m u u' N a b c, let s := l_slm l in
  full_input h s input F -> real_target h s target T -> real_target h s target' (moved_array s a b T) -> full_target h s w W -> full_target h s w' (moved_array s a b W) ->
  (forall i j, in_slm s i j -> F i j <> RtoC 0 -> cis (2 * PI * u' i j) = cis (c + 2 * PI * u i j - tilt s a b i j)) ->
  (forall k p, (0 <= k < N)%Z -> stores s (calculate_hologram h l input target MMraf (mraf_kwargs k w m) u) p -> no_zeros s F T (mraf_field T W m) p) ->
  exists p p', stores s (calculate_hologram h l input target MMraf (mraf_kwargs N w m) u) p /\ stores s (calculate_hologram h l input target' MMraf (mraf_kwargs N w' m) u') p' /\
    (forall i j, in_slm s i j -> F i j <> RtoC 0 -> cis (p' i j) = cis (c + p i j - tilt s a b i j)) /\
    (forall i j, in_slm s i j -> Cmod (image_of (s_Ny s) (s_Nx s) (modulated F p') i j) = moved_array s a b (fun i j => Cmod (image_of (s_Ny s) (s_Nx s) (modulated F p) i j)) i j).
Proof. exact mraf_shift. Qed.
Print Assumptions C100_mraf_moves_with_its_target.
(** A uniform beam on a 3 x 1 SLM, a spot on the axis moved one pixel to the right. *)
Example C100_case : full_input ex_heap slm3 flat3 (fun _ _ => RtoC 1) /\ real_target ex_heap slm3 centre3 (spot 0 1) /\ real_target ex_heap slm3 right3 (moved_array slm3 1 0 (spot 0 1)) /\
  (forall i j, in_slm slm3 i j -> cis (2 * PI * start3 i j) = cis (0 + 2 * PI * 0 - tilt slm3 1 0 i j)) /\
  (forall k p, (0 <= k < 1)%Z -> stores slm3 (calculate_hologram ex_heap (lcos_new slm3) flat3 centre3 MGs (gs_kwargs k) (fun _ _ => 0)) p -> no_zeros slm3 (fun _ _ => RtoC 1) (spot 0 1) (gs_field (spot 0 1)) p) /\
  moved_array slm3 1 0 (spot 0 1) 0%nat 2%nat = 1 /\ moved_array slm3 1 0 (spot 0 1) 0%nat 1%nat = 0.
Proof. exact shift_case. Qed.
