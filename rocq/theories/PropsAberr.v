(** C104: beams that differ from the one a hologram was computed for; aberration correction. *)
From Coq Require Import Reals Lra ZArith Arith List Bool Lia.
From Coquelicot Require Import Complex.
From Verif Require Import Cx PyBase ProfileModel ProfSpec SlmModel LibModel DmdModel SimModel SimSpec SimFacts DmdSpec DmdFacts2 DmdThms DmdExamples SimExamples ModeSpec ProfFacts2 ModeThms AberrFacts.
Open Scope R_scope.

(** ** C104 *)
(** The hologram is computed for [input] but illuminated by [actual]: everything that leaves the DMD is multiplied by the ratio. *)
Theorem C104_wrong_beam : forall h d input actual target w F G rho T W kw u m,
  full_input h (d_slm d) input F -> full_input h (d_slm d) actual G -> full_target h (d_slm d) target T -> window_reads h (d_slm d) w W -> d_p d <> 0 ->
  (0 < s_Ny (d_slm d))%nat -> (0 < s_Nx (d_slm d))%nat -> scaling_factor (d_slm d) <> 0 ->
  (forall i j, in_array d i j -> F i j = RtoC 0 -> windowed d T W i j = RtoC 0) ->
  (exists i j, in_array d i j /\ windowed d T W i j <> RtoC 0) ->
  (forall i j, in_array d i j -> G i j = (rho i j * F i j)%C) ->
  (0 <= pad_x m)%Z -> (0 <= pad_y m)%Z ->
  exists M d' m', let S := windowed d T W in 0 < M /\ calculate_dmd_state h d input target MIdeal w kw u = (d', Ok (Fin (eta_scale (d_slm d) / M))) /\
    propagate_to_image h (DevDmd d') m actual = (m', Ok tt) /\
    field_is (f_output m') (NY (d_slm d) m) (NX (d_slm d) m) (pad_of (d_slm d) m (fun i j =>
      (rho i j * (RtoC (/ M / 2) * zeroth_order F S i j + RtoC (/ M / 4) * first_order d S i j + RtoC (/ M / 4) * conjugate_order d F S i j))%C)).
Proof. exact wrong_beam. Qed.
Print Assumptions C104_wrong_beam.
(** [aware] is the beam with the phase [phi] (an aberration). Computed for the ideal beam, the hologram passes the phase on to the
    first order; computed for the real beam it gives exactly the unaberrated first order, with the same efficiency. *)
Theorem C104_aberration_correction : forall h d input aware target w F G phi T W kw u m,
  full_input h (d_slm d) input F -> full_input h (d_slm d) aware G -> full_target h (d_slm d) target T -> window_reads h (d_slm d) w W -> d_p d <> 0 ->
  (0 < s_Ny (d_slm d))%nat -> (0 < s_Nx (d_slm d))%nat -> scaling_factor (d_slm d) <> 0 ->
  (forall i j, in_array d i j -> F i j = RtoC 0 -> windowed d T W i j = RtoC 0) ->
  (exists i j, in_array d i j /\ windowed d T W i j <> RtoC 0) ->
  (forall i j, in_array d i j -> G i j = (cis (phi i j) * F i j)%C) ->
  (0 <= pad_x m)%Z -> (0 <= pad_y m)%Z ->
  exists M, let eta := eta_scale (d_slm d) / M in let S := windowed d T W in 0 < M /\
    (forall me, me = MIdeal \/ me = MSimple \/ me = MRandom ->
       snd (calculate_dmd_state h d input target me w kw u) = Ok (Fin eta) /\ snd (calculate_dmd_state h d aware target me w kw u) = Ok (Fin eta)) /\
    (exists m', propagate_to_image h (DevDmd (fst (calculate_dmd_state h d input target MIdeal w kw u))) m aware = (m', Ok tt) /\
       field_is (f_output m') (NY (d_slm d) m) (NX (d_slm d) m) (pad_of (d_slm d) m (fun i j =>
         (cis (phi i j) * (RtoC (/ M / 2) * zeroth_order F S i j + RtoC (/ M / 4) * first_order d S i j + RtoC (/ M / 4) * conjugate_order d F S i j))%C))) /\
    (exists m', propagate_to_image h (DevDmd (fst (calculate_dmd_state h d aware target MIdeal w kw u))) m aware = (m', Ok tt) /\
       field_is (f_output m') (NY (d_slm d) m) (NX (d_slm d) m) (pad_of (d_slm d) m (fun i j =>
         (cis (phi i j) * (RtoC (/ M / 2) * zeroth_order F S i j) + RtoC (/ M / 4) * first_order d S i j
          + cis (2 * phi i j) * (RtoC (/ M / 4) * conjugate_order d F S i j))%C))).
Proof. exact aberration. Qed.
Print Assumptions C104_aberration_correction.
(** The product of a beam profile with the phase profile of a real aberration profile is such a beam. *)
Theorem C104_product_of_profiles : forall h s p q X Y F phi k, ~ List.Forall constant_leaf (leaves p) -> grid_is (fourier_plane_grid s) (s_Ny s) (s_Nx s) X Y ->
  (forall i j, (i < s_Ny s)%nat -> (j < s_Nx s)%nat -> gives h p (X i j) (Y i j) (F i j) k /\ gives h q (X i j) (Y i j) (RtoC (phi i j)) false) ->
  exists F' G, full_input h s (AProf p) F' /\ full_input h s (AProf (PBin Omul p (p_as_complex q))) G /\
    forall i j, (i < s_Ny s)%nat -> (j < s_Nx s)%nat -> F' i j = F i j /\ G i j = (cis (phi i j) * F' i j)%C.
Proof. exact product_of_profiles. Qed.
Print Assumptions C104_product_of_profiles.
(** With C35_case_light: a 4 x 2 DMD, a beam and the same beam with a phase that varies over the array. *)
Example C104_case : full_input ex_heap (d_slm ex4) in4 F4 /\ full_target ex_heap (d_slm ex4) tg4 T4 /\
  window_reads ex_heap (d_slm ex4) None (fun _ _ => RtoC 1) /\ d_p ex4 <> 0 /\ scaling_factor (d_slm ex4) <> 0 /\
  full_input ex_heap (d_slm ex4) (AConstC (T2 2 4 (fun i j => (cis (INR i - 2 * INR j) * F4 i j)%C))) (fun i j => (cis (INR i - 2 * INR j) * F4 i j)%C).
Proof. destruct ex4_reads as (A & B & C & D & _ & _ & E & _). split; [exact A|]. split; [exact B|]. split; [exact C|]. split; [exact D|]. split; [exact E|reflexivity]. Qed.
(** A Hermite-Gaussian beam and a Hermite-Gaussian map of phases. *)
Example C104_profile_case : exists h p F X Y, let s := d_slm ex4 in ~ List.Forall constant_leaf (leaves p) /\ grid_is (fourier_plane_grid s) (s_Ny s) (s_Nx s) X Y /\
  forall i j, gives h p (X i j) (Y i j) (RtoC (F i j)) false.
Proof.
  destruct (hg_evaluates heap0 1 2 3 (-4) 2 1 ltac:(lra)) as (h1 & P & N1 & _ & _ & F1).
  exists h1, P. do 3 eexists. cbv zeta. split; [|split; [apply grid_mirrors|intros i j; apply F1]].
  injection N1 as _ <-. cbn [leaves]. intros H. inversion H as [|? ? H1]. destruct H1 as (c & H1). discriminate H1.
Qed.
