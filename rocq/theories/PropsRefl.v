(** Reflecting beam and target of a phase-retrieval run (C125). *)
From Coq Require Import Reals Lra ZArith Arith List Bool Lia.
From Coquelicot Require Import Complex.
From Verif Require Import Cx Sums PyBase ProfileModel SlmModel LibModel DmdModel SimModel SimSpec DmdSpec HoloSpec HoloThms DmdExamples SimExamples HoloExamples ReflSpec ReflFacts2.
Open Scope R_scope.

(** Conjugate beam and point-reflected target: every stored phase is negated. *)
Theorem C125_conjugate : forall h l input input' target target' F F' T T' u u' N, let s := l_slm l in
  full_input h s input F -> full_input h s input' F' -> real_target h s target T -> real_target h s target' T' ->
  (forall i j, in_slm s i j -> F' i j = cconj (F i j) /\ T' i j = flipped_image s true true T i j /\ cis (2 * PI * u' i j) = cconj (cis (2 * PI * u i j))) ->
  exists p p', stores s (calculate_hologram h l input target MGs (gs_kwargs N) u) p /\ stores s (calculate_hologram h l input' target' MGs (gs_kwargs N) u') p' /\
    (forall i j, in_slm s i j -> cis (p' i j) = cconj (cis (p i j))).
Proof. exact hologram_conj. Qed.
Print Assumptions C125_conjugate.
(** The same with MRAF and its window. *)
Theorem C125_conjugate_mraf : forall h l input input' target target' w w' F F' T T' W W' m u u' N, let s := l_slm l in
  full_input h s input F -> full_input h s input' F' -> real_target h s target T -> real_target h s target' T' -> full_target h s w W -> full_target h s w' W' ->
  (forall i j, in_slm s i j -> F' i j = cconj (F i j) /\ T' i j = flipped_image s true true T i j /\ W' i j = cconj (flipped_image s true true W i j) /\ cis (2 * PI * u' i j) = cconj (cis (2 * PI * u i j))) ->
  exists p p', stores s (calculate_hologram h l input target MMraf (mraf_kwargs N w m) u) p /\ stores s (calculate_hologram h l input' target' MMraf (mraf_kwargs N w' m) u') p' /\
    (forall i j, in_slm s i j -> cis (p' i j) = cconj (cis (p i j))).
Proof. exact mraf_hologram_conj. Qed.
Print Assumptions C125_conjugate_mraf.
(** Beam, target and random numbers with columns and/or rows reversed: so is the hologram. *)
Theorem C125_reversed : forall h l input input' target target' F F' T T' u u' N a b, let s := l_slm l in
  full_input h s input F -> full_input h s input' F' -> real_target h s target T -> real_target h s target' T' ->
  (forall i j, in_slm s i j -> F' i j = flipped_beam s a b F i j /\ T' i j = flipped_image s a b T i j /\ u' i j = flipped_beam s a b u i j) ->
  exists p p', stores s (calculate_hologram h l input target MGs (gs_kwargs N) u) p /\ stores s (calculate_hologram h l input' target' MGs (gs_kwargs N) u') p' /\
    (forall i j, in_slm s i j -> p' i j = flipped_beam s a b p i j).
Proof. exact hologram_flip. Qed.
Print Assumptions C125_reversed.
(** The same with MRAF and its window. *)
Theorem C125_reversed_mraf : forall h l input input' target target' w w' F F' T T' W W' m u u' N a b, let s := l_slm l in
  full_input h s input F -> full_input h s input' F' -> real_target h s target T -> real_target h s target' T' -> full_target h s w W -> full_target h s w' W' ->
  (forall i j, in_slm s i j -> F' i j = flipped_beam s a b F i j /\ T' i j = flipped_image s a b T i j /\ W' i j = flipped_image s a b W i j /\ u' i j = flipped_beam s a b u i j) ->
  exists p p', stores s (calculate_hologram h l input target MMraf (mraf_kwargs N w m) u) p /\ stores s (calculate_hologram h l input' target' MMraf (mraf_kwargs N w' m) u') p' /\
    (forall i j, in_slm s i j -> p' i j = flipped_beam s a b p i j).
Proof. exact mraf_hologram_flip. Qed.
Print Assumptions C125_reversed_mraf.
(** With a real beam and the point-reflected target, more iterations never bring what is displayed further from the wanted image [T]. *)
Theorem C125_reflected_target : forall h l input target F A T T' u N N' m, let s := l_slm l in
  full_input h s input F -> real_target h s target T' ->
  (forall i j, in_slm s i j -> F i j = RtoC (A i j) /\ 0 <= A i j /\ 0 <= T i j /\ T' i j = flipped_image s true true T i j) ->
  scaling_factor s <> 0 -> pad_x m = 0%Z -> pad_y m = 0%Z -> (N <= N')%Z ->
  exists l1 l2 m1 m2 E1 E2,
    calculate_hologram h l input target MGs (gs_kwargs N) u = (l1, Ok tt) /\ propagate_to_image h (DevLcos l1) m input = (m1, Ok tt) /\ field_is (f_image m1) (s_Ny s) (s_Nx s) E1 /\
    calculate_hologram h l input target MGs (gs_kwargs N') u = (l2, Ok tt) /\ propagate_to_image h (DevLcos l2) m input = (m2, Ok tt) /\ field_is (f_image m2) (s_Ny s) (s_Nx s) E2 /\
    display_error s (Rabs (eta_scale s)) E2 T <= display_error s (Rabs (eta_scale s)) E1 T.
Proof. exact reflected_target_monotone. Qed.
Print Assumptions C125_reflected_target.
(** With a uniform beam, one iteration on the reflected spot displays exactly the wanted spot. *)
Theorem C125_spot : forall h l input target a b u m, let s := l_slm l in in_slm s a b ->
  full_input h s input (fun _ _ => RtoC 1) -> real_target h s target (spot (reflect (s_Ny s) a) (reflect (s_Nx s) b)) -> scaling_factor s <> 0 -> pad_x m = 0%Z -> pad_y m = 0%Z ->
  exists l' m' E, calculate_hologram h l input target MGs (gs_kwargs 1) u = (l', Ok tt) /\ propagate_to_image h (DevLcos l') m input = (m', Ok tt) /\
    field_is (f_image m') (s_Ny s) (s_Nx s) E /\ (forall i j, in_slm s i j -> Cmod (E i j) = if (Nat.eqb i a && Nat.eqb j b)%bool then Rabs (eta_scale s) else 0).
Proof. exact spot_shown. Qed.
Print Assumptions C125_spot.

(** A uniform beam on a 3 x 1 SLM and a spot at the right edge, whose reflection is at the left edge; random numbers replaced by their complements. *)
Example C125_case : full_input ex_heap slm3 flat3 (fun _ _ => RtoC 1) /\ real_target ex_heap slm3 spot3 (spot 0 2) /\ real_target ex_heap slm3 mirrored3 (flipped_image slm3 true true (spot 0 2)) /\
  (forall i j, in_slm slm3 i j -> RtoC 1 = cconj (RtoC 1) /\ flipped_image slm3 true true (spot 0 2) i j = flipped_image slm3 true true (spot 0 2) i j /\ cis (2 * PI * (1 - start_a i j)) = cconj (cis (2 * PI * start_a i j))) /\
  (forall i j, in_slm slm3 i j -> RtoC 1 = RtoC 1 /\ 0 <= 1 /\ 0 <= spot 0 2 i j /\ flipped_image slm3 true true (spot 0 2) i j = flipped_image slm3 true true (spot 0 2) i j) /\
  scaling_factor slm3 <> 0 /\ pad_x ex_sim0 = 0%Z /\ pad_y ex_sim0 = 0%Z /\
  flipped_image slm3 true true (spot 0 2) 0%nat 0%nat = 1 /\ flipped_image slm3 true true (spot 0 2) 0%nat 2%nat = 0 /\
  (forall i j, in_slm slm3 i j -> 0 <= 1 - start_a i j < 1).
Proof. exact refl_case. Qed.
