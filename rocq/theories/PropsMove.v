(** C93, C94: moving the target and moving the grating; grey states. *)
From Coq Require Import Reals Lra ZArith Arith List Bool Lia.
From Coquelicot Require Import Complex.
From Verif Require Import Cx Sums DFT PyBase ProfileModel SlmModel LibModel DmdModel OriginFacts SimModel SimSpec SimExamples DmdSpec DmdExamples MoveFacts.
Open Scope R_scope.

(** ** C93 *)
(** A hologram for the target moved by a columns and b rows (b upwards) is the hologram for the target itself on a device whose first-order origin is
    moved by a and b image pixels (in the opposite direction for negative_order). *)
Theorem C93_move_target_or_grating : forall h d e input target target' w F T W kw u a b x y,
  let ny := s_Ny (d_slm d) in let nx := s_Nx (d_slm d) in
  d_slm e = d_slm d -> d_neg e = d_neg d ->
  full_input h (d_slm d) input F -> full_target h (d_slm d) target T -> window_reads h (d_slm d) w W ->
  (0 < ny)%nat -> (0 < nx)%nat -> scaling_factor (d_slm d) <> 0 -> pixel_size (d_slm d) <> 0 ->
  (forall i j, in_array d i j -> F i j = RtoC 0 -> windowed d T W i j = RtoC 0) ->
  (exists i j, in_array d i j /\ windowed d T W i j <> RtoC 0) ->
  first_order_origin d = (Fin x, Fin y) ->
  first_order_origin e = (Fin (x + signed (d_neg d) (IZR a * image_pitch_x (d_slm d))), Fin (y + signed (d_neg d) (IZR b * image_pitch_y (d_slm d)))) ->
  full_target h (d_slm d) target' (fun i j => (half_pixel_phase ny nx a b * displaced ny nx a b T i j)%C) ->
  exists eta, (forall m, m = MIdeal \/ m = MSimple \/ m = MRandom ->
    snd (calculate_dmd_state h d input target' m w kw u) = Ok (Fin eta) /\ snd (calculate_dmd_state h e input target m w kw u) = Ok (Fin eta) /\
    same_state (d_state (fst (calculate_dmd_state h d input target' m w kw u))) (d_state (fst (calculate_dmd_state h e input target m w kw u)))) /\
  (forall wi V, k_window kw = Some wi -> full_target h (d_slm d) wi V ->
    snd (calculate_dmd_state h d input target' MIfta w kw u) = Ok (Fin eta) /\ snd (calculate_dmd_state h e input target MIfta w kw u) = Ok (Fin eta) /\
    same_state (d_state (fst (calculate_dmd_state h d input target' MIfta w kw u))) (d_state (fst (calculate_dmd_state h e input target MIfta w kw u)))).
Proof. exact moved_origin. Qed.
Print Assumptions C93_move_target_or_grating.
(** For even sizes the phase in front of the moved target is one. *)
Theorem C93_no_phase_for_even_sizes : forall ny nx a b, Nat.even ny = true -> Nat.even nx = true -> half_pixel_phase ny nx a b = RtoC 1.
Proof. exact AmpFacts3.half_pixel_even. Qed.
Print Assumptions C93_no_phase_for_even_sizes.
(** Turning the grating of ex4 by 90 degrees moves the origin from two pixels to the right to one pixel above. *)
Definition ex4_turned : dmd := dmd_new 2 3 2 (PI / 2) 4 2 (/ 2) false.
Example C93_case : exists x y, d_slm ex4_turned = d_slm ex4 /\ d_neg ex4_turned = d_neg ex4 /\ first_order_origin ex4 = (Fin x, Fin y) /\
  first_order_origin ex4_turned = (Fin (x + signed (d_neg ex4) (IZR (-2) * image_pitch_x (d_slm ex4))), Fin (y + signed (d_neg ex4) (IZR 1 * image_pitch_y (d_slm ex4)))) /\
  full_target ex_heap (d_slm ex4) (AConstC (T2 2 4 (fun i j => (half_pixel_phase 2 4 (-2) 1 * displaced 2 4 (-2) 1 T4 i j)%C))) (fun i j => (half_pixel_phase 2 4 (-2) 1 * displaced 2 4 (-2) 1 T4 i j)%C) /\
  displaced 2 4 (-2) 1 T4 0%nat 0%nat = RtoC 6 /\ T4 0%nat 0%nat = RtoC 1.
Proof.
  do 2 eexists. split; [reflexivity|]. split; [reflexivity|]. split; [exact ex4_integer|]. split.
  - rewrite origin_fin by (cbn; lra). unfold origin_of, fst, snd, image_pitch_x, image_pitch_y, scaling_factor. cbn [signed ex4 ex4_turned dmd_new d_neg d_slm d_p d_theta wavelength focal_length s_Nx s_Ny pixel_size].
    rewrite cos_PI2, sin_PI2. replace (INR 4) with 4 by (cbn; lra). replace (INR 2) with 2 by (cbn; lra). f_equal; f_equal; field; lra.
  - split; [reflexivity|]. split; unfold displaced, T4; cbn [Z.of_nat Z.add Z.sub Z.modulo Z.div_eucl Z.to_nat]; [change (Z.to_nat _) with 1%nat at 1; change (Z.to_nat _) with 2%nat; f_equal; cbn; lra | f_equal; cbn; lra].
Qed.

(** ** C94 *)
Theorem C94_states_superpose : forall h d1 d2 d3 m input F q1 q2 q3 x y, let s := d_slm d3 in
  d_slm d1 = s -> d_slm d2 = s -> full_input h s input F -> shows d1 q1 -> shows d2 q2 -> shows d3 q3 ->
  (forall i j, in_array d3 i j -> q3 i j = x * q1 i j + y * q2 i j) ->
  (0 <= pad_x m)%Z -> (0 <= pad_y m)%Z -> scaling_factor s <> 0 ->
  exists n1 n2 n3 I1 I2 I3, propagate_to_image h (DevDmd d1) m input = (n1, Ok tt) /\ propagate_to_image h (DevDmd d2) m input = (n2, Ok tt) /\
    propagate_to_image h (DevDmd d3) m input = (n3, Ok tt) /\
    field_is (f_image n1) (NY s m) (NX s m) I1 /\ field_is (f_image n2) (NY s m) (NX s m) I2 /\ field_is (f_image n3) (NY s m) (NX s m) I3 /\
    forall u v, (u < NY s m)%nat -> (v < NX s m)%nat -> (I3 u v = RtoC x * I1 u v + RtoC y * I2 u v)%C.
Proof. exact states_linear. Qed.
Print Assumptions C94_states_superpose.
(** dmd.dmd_state = c * dmd.dmd_state *)
Theorem C94_dimmed_state : forall h d m input F q c, full_input h (d_slm d) input F -> shows d q ->
  (0 <= pad_x m)%Z -> (0 <= pad_y m)%Z -> scaling_factor (d_slm d) <> 0 -> (0 < s_Nx (d_slm d))%nat -> (0 < s_Ny (d_slm d))%nat -> pixel_size (d_slm d) <> 0 ->
  let e := with_state d (DFloat (s_Ny (d_slm d)) (s_Nx (d_slm d)) (fun i j => Fin (c * q i j))) in
  exists n n' pin pout, propagate_to_image h (DevDmd d) m input = (n, Ok tt) /\ propagate_to_image h (DevDmd e) m input = (n', Ok tt) /\
    get_input_power (d_slm d) n = Ok pin /\ get_output_power (d_slm d) n = Ok pout /\ get_image_plane_power (d_slm d) n = Ok pout /\
    get_input_power (d_slm d) n' = Ok pin /\ get_output_power (d_slm d) n' = Ok (c ^ 2 * pout) /\ get_image_plane_power (d_slm d) n' = Ok (c ^ 2 * pout).
Proof. exact dimmed. Qed.
Print Assumptions C94_dimmed_state.
(** A checkerboard, its half, and the state with every mirror half on. *)
Example C94_case : shows ex_dmd (fun i j => if Nat.even (i + j) then 1 else 0) /\ shows (set_dmd_state_on ex_dmd) (fun _ _ => 1) /\
  shows (with_state ex_dmd (DFloat 2 3 (fun i j => Fin (if Nat.even (i + j) then 1 / 4 else 3 / 4)))) (fun i j => if Nat.even (i + j) then 1 / 4 else 3 / 4) /\
  (forall i j, (if Nat.even (i + j) then 1 / 4 else 3 / 4) = - (1 / 2) * (if Nat.even (i + j) then 1 else 0) + 3 / 4 * 1) /\
  full_input ex_heap (d_slm ex_dmd) ex_input ex_field /\ scaling_factor (d_slm ex_dmd) <> 0.
Proof.
  split; [|split; [|split; [|split; [|split]]]].
  - split; [reflexivity|]. intros i j _. right. exists (Nat.even (i + j)). split; reflexivity.
  - split; [reflexivity|]. intros i j _. right. exists true. split; reflexivity.
  - split; [reflexivity|]. intros i j _. left. reflexivity.
  - intros i j. destruct (Nat.even (i + j)); lra.
  - reflexivity.
  - unfold scaling_factor. cbn. lra.
Qed.
