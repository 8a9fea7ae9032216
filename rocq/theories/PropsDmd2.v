(** C69-C72: hologram efficiency, symmetries of the grating settings, global phases. *)
From Coq Require Import Reals Lra ZArith Arith List Bool Lia.
From Coquelicot Require Import Complex.
From Verif Require Import Cx Sums DFT PyBase ProfileModel SlmModel LibModel DmdModel SimModel SimSpec GridFacts SimFacts SimFacts2 SimExamples DmdSpec DmdFacts DmdThms DmdExamples AmpFacts5 SymFacts PhaseFacts.
Import ListNotations.
Open Scope R_scope.

(** ** C69 *)
(** The target is (a complex multiple of) what the DMD shows with every mirror on: the hologram is the full grating and the
    efficiency undoes the multiple. *)
Theorem C69_own_image_is_matched : forall h d m a F m' I target T c kw u,
  full_input h (d_slm d) a F -> pad_x m = 0%Z -> pad_y m = 0%Z -> d_p d <> 0 ->
  0 < scaling_factor (d_slm d) -> pixel_size (d_slm d) <> 0 ->
  (exists i j, in_array d i j /\ F i j <> RtoC 0) ->
  propagate_to_image h (DevDmd (set_dmd_state_on d)) m a = (m', Ok tt) ->
  field_is (f_image m') (s_Ny (d_slm d)) (s_Nx (d_slm d)) I ->
  full_target h (d_slm d) target T -> c <> RtoC 0 ->
  (forall i j, in_array d i j -> T i j = (c * I i j)%C) ->
  (forall me, me = MIdeal \/ me = MSimple \/ me = MRandom -> snd (calculate_dmd_state h d a target me None kw u) = Ok (Fin (/ Cmod c))) /\
  exists g, fst (calculate_dmd_state h d a target MIdeal None kw u) = with_state d (DFloat (s_Ny (d_slm d)) (s_Nx (d_slm d)) g) /\
  forall i j, in_array d i j -> F i j <> RtoC 0 -> g i j = Fin (cos (carrier d i j - signed (d_neg d) (carg c)) / 2 + 1 / 2).
Proof. exact perfect_match. Qed.
Print Assumptions C69_own_image_is_matched.
Definition sim4 : sim := {| pad_x := 0; pad_y := 0; f_input := None; f_output := None; f_image := None |}.
Example C69_case : exists m' I, let c := (2, 3) : C in
  full_input ex_heap (d_slm ex4) in4 F4 /\ d_p ex4 <> 0 /\ 0 < scaling_factor (d_slm ex4) /\ pixel_size (d_slm ex4) <> 0 /\
  in_array ex4 0 0 /\ F4 0%nat 0%nat <> RtoC 0 /\
  propagate_to_image ex_heap (DevDmd (set_dmd_state_on ex4)) sim4 in4 = (m', Ok tt) /\ field_is (f_image m') 2 4 I /\
  full_target ex_heap (d_slm ex4) (AConstC (T2 2 4 (fun i j => (c * I i j)%C))) (fun i j => (c * I i j)%C) /\ c <> RtoC 0.
Proof.
  destruct ex4_reads as (HF & _ & _ & Hp & _ & _ & Hs & Hps).
  assert (HS := state_bool (set_dmd_state_on ex4) (fun _ _ => true) eq_refl).
  destruct (propagate_succeeds ex_heap (DevDmd (set_dmd_state_on ex4)) sim4 in4 F4 _ HF HS) as [m' P]; [cbn; lia|cbn; lia|exact Hs|].
  destruct (propagate_inv ex_heap (DevDmd (set_dmd_state_on ex4)) sim4 in4 F4 _ m' HF HS P) as (_ & _ & _ & _ & _ & _ & _ & Hi).
  exists m'. eexists. cbv zeta. split; [exact HF|]. split; [exact Hp|]. split; [unfold scaling_factor; cbn; lra|]. split; [exact Hps|].
  split; [split; cbn; lia|]. split; [apply F4_bright|]. split; [exact P|]. split; [exact Hi|]. split; [reflexivity|].
  intros E. injection E. lra.
Qed.

(** ** C70 *)
Theorem C70_first_order_power : forall h d input target F T kw u,
  full_input h (d_slm d) input F -> full_target h (d_slm d) target T -> d_p d <> 0 ->
  (0 < s_Ny (d_slm d))%nat -> (0 < s_Nx (d_slm d))%nat -> scaling_factor (d_slm d) <> 0 -> pixel_size (d_slm d) <> 0 ->
  (forall i j, in_array d i j -> F i j = RtoC 0 -> spectrum_of (s_Ny (d_slm d)) (s_Nx (d_slm d)) T i j = RtoC 0) ->
  (exists i j, in_array d i j /\ T i j <> RtoC 0) ->
  exists eta, (forall me, me = MIdeal \/ me = MSimple \/ me = MRandom -> snd (calculate_dmd_state h d input target me None kw u) = Ok (Fin eta)) /\
  eta ^ 2 * power_of (image_pitch_x (d_slm d) * image_pitch_y (d_slm d)) (s_Ny (d_slm d)) (s_Nx (d_slm d)) T
    <= power_of (pixel_size (d_slm d) ^ 2) (s_Ny (d_slm d)) (s_Nx (d_slm d)) F /\
  (eta ^ 2 * power_of (image_pitch_x (d_slm d) * image_pitch_y (d_slm d)) (s_Ny (d_slm d)) (s_Nx (d_slm d)) T
    = power_of (pixel_size (d_slm d) ^ 2) (s_Ny (d_slm d)) (s_Nx (d_slm d)) F <->
   exists k, forall i j, in_array d i j -> Cmod (spectrum_of (s_Ny (d_slm d)) (s_Nx (d_slm d)) T i j) = k * Cmod (F i j)).
Proof. exact first_order_power. Qed.
Print Assumptions C70_first_order_power.
(** Hypotheses met by a bright input (C35_case); equality for a uniform input and a point target, where the spectrum is flat. *)
Example C70_case_equality :
  full_input ex_heap (d_slm ex4) (AConstC (T2 2 4 (fun _ _ => RtoC 2))) (fun _ _ => RtoC 2) /\ full_target ex_heap (d_slm ex4) tg4d T4d /\
  (forall i j, in_array ex4 i j -> RtoC 2 = RtoC 0 -> spectrum_of 2 4 T4d i j = RtoC 0) /\ (exists i j, in_array ex4 i j /\ T4d i j <> RtoC 0) /\
  exists k, forall i j, in_array ex4 i j -> Cmod (spectrum_of 2 4 T4d i j) = k * Cmod (RtoC 2).
Proof.
  split; [reflexivity|]. split; [reflexivity|]. split; [intros i j _ E; injection E; lra|]. split.
  - exists 1%nat, 2%nat. split; [split; cbn; lia|]. unfold T4d. cbn. intros E. injection E. lra.
  - exists (/ 2). intros i j _. rewrite T4d_spectrum, !Cmod_R, !Rabs_pos_eq; lra.
Qed.

(** ** C71 *)
Theorem C71_equivalent_settings : forall h d e, d_slm e = d_slm d -> d_state e = d_state d ->
  (d_p e = d_p d /\ d_theta e = d_theta d + PI /\ d_neg e = negb (d_neg d)) \/
  (d_p e = - d_p d /\ d_theta e = d_theta d + PI /\ d_neg e = d_neg d) \/
  (d_p e = d_p d /\ d_theta e = d_theta d + 2 * PI /\ d_neg e = d_neg d) ->
  (forall amp pin pout m kw u, d_state (fst (set_dmd_grating_state h e amp pin pout m kw u)) = d_state (fst (set_dmd_grating_state h d amp pin pout m kw u)) /\
    snd (set_dmd_grating_state h e amp pin pout m kw u) = snd (set_dmd_grating_state h d amp pin pout m kw u)) /\
  (forall ci cj amp pin pout diam m kw u, d_state (fst (circular_patch h e ci cj amp pin pout diam m kw u)) = d_state (fst (circular_patch h d ci cj amp pin pout diam m kw u)) /\
    snd (circular_patch h e ci cj amp pin pout diam m kw u) = snd (circular_patch h d ci cj amp pin pout diam m kw u)) /\
  (forall input target m w kw u, d_state (fst (calculate_dmd_state h e input target m w kw u)) = d_state (fst (calculate_dmd_state h d input target m w kw u)) /\
    snd (calculate_dmd_state h e input target m w kw u) = snd (calculate_dmd_state h d input target m w kw u)).
Proof. exact equivalent_settings. Qed.
Print Assumptions C71_equivalent_settings.
(** The reported origin does follow the angle: the first pair of equivalent settings reports opposite origins. *)
Theorem C71_opposite_origins : forall d e, d_slm e = d_slm d -> d_p e = d_p d -> d_theta e = d_theta d + PI ->
  first_order_origin e = (xneg (fst (first_order_origin d)), xneg (snd (first_order_origin d))).
Proof. exact opposite_origins. Qed.
Print Assumptions C71_opposite_origins.
(** A DMD and its opposite: same hologram computed with success, opposite non-zero origins. *)
Definition ex4_opposite : dmd := dmd_new 2 3 2 (0 + PI) 4 2 (/ 2) true.
Example C71_case : d_slm ex4_opposite = d_slm ex4 /\ d_state ex4_opposite = d_state ex4 /\ d_p ex4_opposite = d_p ex4 /\
  d_theta ex4_opposite = d_theta ex4 + PI /\ d_neg ex4_opposite = negb (d_neg ex4) /\
  (exists eta, snd (calculate_dmd_state ex_heap ex4 in4 tg4 MSimple None no_kwargs (fun _ _ => 0)) = Ok (Fin eta)) /\ exists x, fst (first_order_origin ex4) = Fin x /\ x <> 0.
Proof.
  repeat (split; [reflexivity|]). split.
  - destruct ex4_reads as (HF & HT & HW & Hp & Hy & Hx & Hs & Hps). destruct ex4_bright as [B1 B2].
    destruct (hologram_spec ex_heap ex4 in4 tg4 None F4 T4 _ no_kwargs (fun _ _ => 0) HF HT HW Hp Hy Hx Hs B1 B2) as (M & _ & _ & _ & _ & (g & G & _) & _).
    eexists. rewrite G. reflexivity.
  - eexists. rewrite ex4_integer. split; [reflexivity|]. unfold image_pitch_x, scaling_factor. cbn. lra.
Qed.

(** ** C72 *)
Theorem C72_global_phase : forall h d input input' target target' w F T W kw u a b,
  full_input h (d_slm d) input F -> full_target h (d_slm d) target T -> window_reads h (d_slm d) w W -> d_p d <> 0 ->
  (0 < s_Ny (d_slm d))%nat -> (0 < s_Nx (d_slm d))%nat -> scaling_factor (d_slm d) <> 0 ->
  (forall i j, in_array d i j -> F i j = RtoC 0 -> windowed d T W i j = RtoC 0) ->
  (exists i j, in_array d i j /\ windowed d T W i j <> RtoC 0) ->
  full_input h (d_slm d) input' (fun i j => (cis a * F i j)%C) -> full_target h (d_slm d) target' (fun i j => (cis b * T i j)%C) ->
  exists eta A phi, 
  (forall m, m = MIdeal \/ m = MSimple \/ m = MRandom ->
    snd (calculate_dmd_state h d input target m w kw u) = Ok (Fin eta) /\ snd (calculate_dmd_state h d input' target' m w kw u) = Ok (Fin eta) /\
    (cis a = cis b -> same_state (d_state (fst (calculate_dmd_state h d input' target' m w kw u))) (d_state (fst (calculate_dmd_state h d input target m w kw u))))) /\
  (forall i j, in_array d i j ->
    cell_at (d_state (fst (calculate_dmd_state h d input target MIdeal w kw u))) i j = CFloat (Fin (A i j * (cos (carrier d i j - phi i j) / 2 + 1 / 2))) /\
    cell_at (d_state (fst (calculate_dmd_state h d input' target' MIdeal w kw u))) i j = CFloat (Fin (A i j * (cos (carrier d i j - phi i j - signed (d_neg d) (b - a)) / 2 + 1 / 2)))).
Proof. exact global_phase. Qed.
Print Assumptions C72_global_phase.
(** Together with C35_case and C35_case_light (a 4 x 2 DMD): the turned input and target; phases 1 and 1 + 2 pi give equal states. *)
Example C72_case : full_input ex_heap (d_slm ex4) (AConstC (T2 2 4 (fun i j => (cis 1 * F4 i j)%C))) (fun i j => (cis 1 * F4 i j)%C) /\
  full_target ex_heap (d_slm ex4) (AConstC (T2 2 4 (fun i j => (cis (1 + 2 * PI) * T4 i j)%C))) (fun i j => (cis (1 + 2 * PI) * T4 i j)%C) /\
  cis 1 = cis (1 + 2 * PI).
Proof.
  split; [reflexivity|]. split; [reflexivity|]. replace (2 * PI) with (2 * PI * IZR 1) by ring. symmetry. apply cis_period.
Qed.
