(** Properties of the DMD (C01, C02, C32-C38, C45, C46, C57). *)
From Coq Require Import Reals Lra ZArith Arith List Bool Lia.
From Coquelicot Require Import Complex Coquelicot.
From Verif Require Import Cx Sums DFT PyBase ProfileModel SlmModel LibModel DmdModel SimModel SimSpec GridFacts SimFacts SimExamples DmdSpec DmdFacts DmdFacts2 DmdFacts3 RandomFacts AmpFacts2 DmdThms DmdExamples.
Import ListNotations.
Open Scope R_scope.

(** ** C01 *)
Theorem C01_packed_bits : forall d ny nx f, d_state d = DBool ny nx f ->
  exists l, pack_dmd_state d = Ok l /\ length l = ((ny * nx + 7) / 8)%nat /\
    (forall k, (k < length l)%nat -> (0 <= nth k l 0 < 256)%Z) /\
    (forall i j, (i < ny)%nat -> (j < nx)%nat ->
       Z.testbit (nth ((i * nx + j) / 8) l 0%Z) (Z.of_nat (7 - (i * nx + j) mod 8)) = f i j) /\
    (forall k b, (k < length l)%nat -> (b < 8)%nat -> (ny * nx <= 8 * k + b)%nat -> Z.testbit (nth k l 0%Z) (Z.of_nat (7 - b)) = false).
Proof. exact pack_bits. Qed.
Print Assumptions C01_packed_bits.
Theorem C01_lossless : forall d d' ny nx f f' l, d_state d = DBool ny nx f -> d_state d' = DBool ny nx f' ->
  pack_dmd_state d = Ok l -> pack_dmd_state d' = Ok l -> forall i j, (i < ny)%nat -> (j < nx)%nat -> f i j = f' i j.
Proof. exact pack_injective. Qed.
Print Assumptions C01_lossless.
Example C01_case : pack_dmd_state (with_state ex_dmd (DBool 3 5 (fun i j => Nat.eqb (i + j) 4))) = Ok [8; 136]%Z.
Proof. reflexivity. Qed.

(** ** C02 *)
Theorem C02_pack_accepts_exactly_bool : forall d,
  ((exists l, pack_dmd_state d = Ok l) <-> is_bool_state (d_state d) = true) /\
  (pack_dmd_state d = Err TypeError <-> is_bool_state (d_state d) = false) /\ fst (do_call d CPack) = d.
Proof. exact pack_accepts. Qed.
Print Assumptions C02_pack_accepts_exactly_bool.
Theorem C02_history : forall wl fl per th Nx Ny ps neg cs d' l, do_calls (dmd_new wl fl per th Nx Ny ps neg) cs = (d', l) ->
  ((exists bytes, pack_dmd_state d' = Ok bytes) <-> fold_left element_type l true = true) /\
  (pack_dmd_state d' = Err TypeError <-> fold_left element_type l true = false).
Proof. exact history_packable. Qed.
Print Assumptions C02_history.
Example C02_case : exists d' l, do_calls ex4 [COn; CGrating ex_heap half zero_phase zero_phase MIdeal no_kwargs (fun _ _ => 0); CPack] = (d', l) /\
  map snd l = [Ok tt; Ok tt; Err TypeError].
Proof. exact ex_history_ideal. Qed.

(** ** C32 *)
Theorem C32_ideal_grating : forall h d amp pin pout A Pi Po kw u,
  reads h (d_slm d) amp A -> reads h (d_slm d) pin Pi -> reads h (d_slm d) pout Po -> d_p d <> 0 ->
  exists g, set_dmd_grating_state h d amp pin pout MIdeal kw u
      = (with_state d (DFloat (s_Ny (d_slm d)) (s_Nx (d_slm d)) (fun i j => g i j)), Ok tt) /\
    forall i j, in_array d i j -> exists r, g i j = Fin r /\
      (0 <= A i j <= 1 -> 0 <= r <= A i j) /\
      (RtoC r * cis (Pi i j) = RtoC (A i j / 2) * cis (Pi i j)
        + RtoC (A i j / 4) * cis (Po i j) * cis (- signed (d_neg d) (carrier d i j))
        + RtoC (A i j / 4) * cis (2 * Pi i j - Po i j) * cis (signed (d_neg d) (carrier d i j)))%C.
Proof. exact ideal_spec. Qed.
Print Assumptions C32_ideal_grating.
Theorem C32_negative_order_negates_phases : forall h d amp pin pout pin' pout' A Pi Po kw u,
  reads h (d_slm d) amp A -> reads h (d_slm d) pin Pi -> reads h (d_slm d) pout Po ->
  reads h (d_slm d) pin' (fun i j => - Pi i j) -> reads h (d_slm d) pout' (fun i j => - Po i j) -> d_p d <> 0 ->
  let other := {| d_slm := d_slm d; d_p := d_p d; d_theta := d_theta d; d_neg := negb (d_neg d); d_state := d_state d |} in
  exists g g', set_dmd_grating_state h d amp pin pout MIdeal kw u = (with_state d (DFloat (s_Ny (d_slm d)) (s_Nx (d_slm d)) g), Ok tt) /\
    set_dmd_grating_state h other amp pin' pout' MIdeal kw u = (with_state other (DFloat (s_Ny (d_slm d)) (s_Nx (d_slm d)) g'), Ok tt) /\
    forall i j, in_array d i j -> g i j = g' i j.
Proof. exact negative_order_negates. Qed.
Print Assumptions C32_negative_order_negates_phases.
(** Constant and pixel-dependent arguments on a 3 x 2 DMD. *)
Example C32_case : reads ex_heap (d_slm ex_dmd) half (fun _ _ => 3 / 4) /\
  reads ex_heap (d_slm ex_dmd) (AConstR (T2 2 3 (fun i j => INR i - INR j))) (fun i j => INR i - INR j) /\ d_p ex_dmd <> 0 /\ in_array ex_dmd 1 2.
Proof. exact reads_cases. Qed.

(** ** C33 *)
Theorem C33_simple_is_thresholded_ideal : forall h d amp pin pout A Pi Po kw u,
  reads h (d_slm d) amp A -> reads h (d_slm d) pin Pi -> reads h (d_slm d) pout Po -> d_p d <> 0 ->
  exists f g, set_dmd_grating_state h d amp pin pout MSimple kw u = (with_state d (DBool (s_Ny (d_slm d)) (s_Nx (d_slm d)) f), Ok tt) /\
    set_dmd_grating_state h d amp pin pout MIdeal kw u = (with_state d (DFloat (s_Ny (d_slm d)) (s_Nx (d_slm d)) g), Ok tt) /\
    forall i j, in_array d i j ->
      (exists r, g i j = Fin r /\ (f i j = true <-> 1 / 2 < r)) /\
      (A i j <= 1 / 2 -> f i j = false) /\
      (A i j = 1 -> (f i j = true <-> 0 < cos (carrier d i j - signed (d_neg d) (Po i j - Pi i j)))).
Proof. exact simple_spec. Qed.
Print Assumptions C33_simple_is_thresholded_ideal.
Theorem C33_half_period : forall t q, folded t q -> (0 < cos t <-> q < PI / 2).
Proof. exact half_period. Qed.
Print Assumptions C33_half_period.
Example C33_case : reads ex_heap (d_slm ex_dmd) (AConstR (T0 1)) (fun _ _ => 1) /\ folded (7 * PI / 3) (PI / 3).
Proof. exact (conj (reads_const _ _ _) folded_case). Qed.

(** ** C34 *)
Theorem C34_random_grating : forall h d amp pin pout A Pi Po kw u,
  reads h (d_slm d) amp A -> reads h (d_slm d) pin Pi -> reads h (d_slm d) pout Po -> d_p d <> 0 -> 0 < dflt (k_r kw) 10 ->
  exists f, set_dmd_grating_state h d amp pin pout MRandom kw u = (with_state d (DBool (s_Ny (d_slm d)) (s_Nx (d_slm d)) f), Ok tt) /\
   forall i j, in_array d i j ->
    (0 <= A i j <= 1 -> exists q, folded (carrier d i j - signed (d_neg d) (Po i j - Pi i j)) q /\
       let g := duty (dflt (k_r kw) 10) q (A i j) in
       (f i j = true <-> u i j < g) /\ 0 <= g < 1 /\ is_RInt (fun u => if Rlt_dec u g then 1 else 0) 0 1 g) /\
    (A i j = 0 -> 0 <= u i j -> f i j = false) /\
    (A i j < - (1) \/ 1 < A i j -> f i j = false).
Proof. exact random_spec. Qed.
Print Assumptions C34_random_grating.
Theorem C34_duty_increases : forall r q A B, 0 < r -> 0 <= A -> A < B -> B <= 1 -> duty r q A < duty r q B.
Proof. exact duty_mono. Qed.
Print Assumptions C34_duty_increases.
Theorem C34_duty_limit : forall r q A, 0 < r -> 0 <= q -> 0 <= A <= 1 -> q <> asin A ->
  Rabs (duty r q A - (if Rlt_dec q (asin A) then 1 else 0)) <= / (1 + r * Rabs (q - asin A)).
Proof. exact duty_limit. Qed.
Print Assumptions C34_duty_limit.
Theorem C34_first_harmonic : forall A, 0 <= A <= 1 ->
  is_RInt (fun t => (if Rlt_dec (Rabs t) (asin A) then 1 else 0) * cos t) (- PI) PI (2 * PI * (A / PI)) /\
  is_RInt (fun t => (if Rlt_dec (Rabs t) (asin A) then 1 else 0) * sin t) (- PI) PI 0.
Proof. exact first_harmonic. Qed.
Print Assumptions C34_first_harmonic.
Example C34_case : 0 < dflt (k_r no_kwargs) 10 /\ asin (1 / 2) = PI / 6 /\ 0 < duty 1 0 (1 / 2).
Proof. exact duty_case. Qed.

(** ** C35 *)
Theorem C35_amplitude_normalised : forall h d input target w F T W kw u,
  full_input h (d_slm d) input F -> full_target h (d_slm d) target T -> window_reads h (d_slm d) w W -> d_p d <> 0 ->
  (0 < s_Ny (d_slm d))%nat -> (0 < s_Nx (d_slm d))%nat -> scaling_factor (d_slm d) <> 0 ->
  (forall i j, in_array d i j -> F i j = RtoC 0 -> windowed d T W i j = RtoC 0) ->
  (exists i j, in_array d i j /\ windowed d T W i j <> RtoC 0) ->
  exists M, 0 < M /\
  let A := fun i j => Cmod (windowed d T W i j) / Cmod (F i j) / M in
  let level := fun i j => A i j * (cos (carrier d i j - signed (d_neg d) (phase_of (windowed d T W i j) - carg (F i j))) / 2 + 1 / 2) in
  let eta := eta_scale (d_slm d) / M in
  (forall i j, in_array d i j -> 0 <= A i j <= 1) /\
  (exists i j, in_array d i j /\ A i j = 1) /\
  (exists g, calculate_dmd_state h d input target MIdeal w kw u = (with_state d (DFloat (s_Ny (d_slm d)) (s_Nx (d_slm d)) g), Ok (Fin eta)) /\
     forall i j, in_array d i j -> g i j = Fin (level i j)) /\
  (exists g, calculate_dmd_state h d input target MSimple w kw u = (with_state d (DBool (s_Ny (d_slm d)) (s_Nx (d_slm d)) g), Ok (Fin eta)) /\
     forall i j, in_array d i j -> (g i j = true <-> 1 / 2 < level i j)) /\
  (exists g, calculate_dmd_state h d input target MRandom w kw u = (with_state d (DBool (s_Ny (d_slm d)) (s_Nx (d_slm d)) g), Ok (Fin eta)) /\
     forall i j, in_array d i j -> exists q, folded (carrier d i j - signed (d_neg d) (phase_of (windowed d T W i j) - carg (F i j))) q /\
       (g i j = true <-> u i j < duty (dflt (k_r kw) 10) q (A i j))).
Proof. exact hologram_spec. Qed.
Print Assumptions C35_amplitude_normalised.
Theorem C35_bright_inputs_qualify : forall d F T W, (forall i j, W i j = RtoC 1) ->
  (forall i j, in_array d i j -> F i j <> RtoC 0) -> (exists i j, in_array d i j /\ T i j <> RtoC 0) ->
  (forall i j, in_array d i j -> F i j = RtoC 0 -> windowed d T W i j = RtoC 0) /\
  (exists i j, in_array d i j /\ windowed d T W i j <> RtoC 0).
Proof. exact bright_ok. Qed.
Print Assumptions C35_bright_inputs_qualify.
(** Every method, every window, dark pixels included; errors are the same on both sides. *)
Theorem C35_target_scaling : forall h d input target target' T c m w kw u, 0 < c ->
  full_target h (d_slm d) target T -> full_target h (d_slm d) target' (fun i j => (RtoC c * T i j)%C) ->
  calculate_dmd_state h d input target' m w kw u =
  (fst (calculate_dmd_state h d input target m w kw u), rmap (fun eta => xscale eta (/ c)) (snd (calculate_dmd_state h d input target m w kw u))).
Proof. exact calc_target_scale. Qed.
Print Assumptions C35_target_scaling.
Theorem C35_input_scaling : forall h d input input' F target c m w kw u, 0 < c ->
  full_input h (d_slm d) input F -> full_input h (d_slm d) input' (fun i j => (RtoC c * F i j)%C) ->
  calculate_dmd_state h d input' target m w kw u =
  (fst (calculate_dmd_state h d input target m w kw u), rmap (fun eta => xscale eta c) (snd (calculate_dmd_state h d input target m w kw u))).
Proof. exact input_scaling. Qed.
Print Assumptions C35_input_scaling.
Example C35_case : full_input ex_heap (d_slm ex4) in4 F4 /\ full_target ex_heap (d_slm ex4) tg4 T4 /\
  window_reads ex_heap (d_slm ex4) None (fun _ _ => RtoC 1) /\ d_p ex4 <> 0 /\ (0 < s_Ny (d_slm ex4))%nat /\ (0 < s_Nx (d_slm ex4))%nat /\
  scaling_factor (d_slm ex4) <> 0 /\ pixel_size (d_slm ex4) <> 0.
Proof. exact ex4_reads. Qed.
Example C35_case_light : (forall i j, in_array ex4 i j -> F4 i j = RtoC 0 -> windowed ex4 T4 (fun _ _ => RtoC 1) i j = RtoC 0) /\
  (exists i j, in_array ex4 i j /\ windowed ex4 T4 (fun _ _ => RtoC 1) i j <> RtoC 0).
Proof. exact ex4_bright. Qed.

(** ** C36 *)
(** Any grating, any padding: the simulated field leaving the DMD. *)
Theorem C36_orders_at_the_fourier_plane : forall h d input target w F T W kw u m,
  full_input h (d_slm d) input F -> full_target h (d_slm d) target T -> window_reads h (d_slm d) w W -> d_p d <> 0 ->
  (0 < s_Ny (d_slm d))%nat -> (0 < s_Nx (d_slm d))%nat -> scaling_factor (d_slm d) <> 0 ->
  (forall i j, in_array d i j -> F i j = RtoC 0 -> windowed d T W i j = RtoC 0) ->
  (exists i j, in_array d i j /\ windowed d T W i j <> RtoC 0) ->
  (0 <= pad_x m)%Z -> (0 <= pad_y m)%Z ->
  exists M d' m', let eta := eta_scale (d_slm d) / M in let S := windowed d T W in
    0 < M /\ calculate_dmd_state h d input target MIdeal w kw u = (d', Ok (Fin eta)) /\ d_slm d' = d_slm d /\
    propagate_to_image h (DevDmd d') m input = (m', Ok tt) /\
    field_is (f_output m') (NY (d_slm d) m) (NX (d_slm d) m) (pad_of (d_slm d) m (fun i j =>
      (RtoC (/ M / 2) * zeroth_order F S i j + RtoC (/ M / 4) * first_order d S i j + RtoC (/ M / 4) * conjugate_order d F S i j)%C)) /\
    (pad_x m = 0%Z -> pad_y m = 0%Z ->
     field_is (f_image m') (s_Ny (d_slm d)) (s_Nx (d_slm d)) (fun a b =>
       (RtoC (eta / 4) * image_of (s_Ny (d_slm d)) (s_Nx (d_slm d)) (first_order d S) a b
        + RtoC (eta / 2) * image_of (s_Ny (d_slm d)) (s_Nx (d_slm d)) (zeroth_order F S) a b
        + RtoC (eta / 4) * image_of (s_Ny (d_slm d)) (s_Nx (d_slm d)) (conjugate_order d F S) a b)%C)).
Proof. exact fourier_orders. Qed.
Print Assumptions C36_orders_at_the_fourier_plane.
(** Unpadded simulation and a grating that displaces by whole image pixels: eta/4 times the displaced target. *)
Theorem C36_target_in_first_order : forall h d input target w F T W kw u m a b,
  full_input h (d_slm d) input F -> full_target h (d_slm d) target T -> window_reads h (d_slm d) w W ->
  (0 < s_Ny (d_slm d))%nat -> (0 < s_Nx (d_slm d))%nat -> scaling_factor (d_slm d) <> 0 -> pixel_size (d_slm d) <> 0 ->
  (forall i j, in_array d i j -> F i j = RtoC 0 -> windowed d T W i j = RtoC 0) ->
  (exists i j, in_array d i j /\ windowed d T W i j <> RtoC 0) ->
  first_order_origin d = (Fin (IZR a * image_pitch_x (d_slm d)), Fin (IZR b * image_pitch_y (d_slm d))) ->
  pad_x m = 0%Z -> pad_y m = 0%Z ->
  exists M d' m', let eta := eta_scale (d_slm d) / M in let S := windowed d T W in
    let ny := s_Ny (d_slm d) in let nx := s_Nx (d_slm d) in
    let a' := if d_neg d then (- a)%Z else a in let b' := if d_neg d then (- b)%Z else b in
    0 < M /\ calculate_dmd_state h d input target MIdeal w kw u = (d', Ok (Fin eta)) /\
    propagate_to_image h (DevDmd d') m input = (m', Ok tt) /\
    field_is (f_image m') ny nx (fun p q =>
       (RtoC (eta / 4) * (half_pixel_phase ny nx a' b' * displaced ny nx a' b' (image_of ny nx S) p q)
        + RtoC (eta / 2) * image_of ny nx (zeroth_order F S) p q
        + RtoC (eta / 4) * image_of ny nx (conjugate_order d F S) p q)%C) /\
    (w = None -> forall p q, (p < ny)%nat -> (q < nx)%nat -> displaced ny nx a' b' (image_of ny nx S) p q = displaced ny nx a' b' T p q).
Proof. exact image_orders. Qed.
Print Assumptions C36_target_in_first_order.
(** The configuration of C35_case also has an integer displacement (two columns). *)
Example C36_case : first_order_origin ex4 = (Fin (IZR 2 * image_pitch_x (d_slm ex4)), Fin (IZR 0 * image_pitch_y (d_slm ex4))).
Proof. exact ex4_integer. Qed.

(** ** C37 *)
Theorem C37_refuted : exists h d input target F T d' g,
  full_input h (d_slm d) input F /\ full_target h (d_slm d) target T /\ (exists u v, in_array d u v /\ T u v <> RtoC 0) /\
  (exists i j, in_array d i j /\ F i j <> RtoC 0) /\
  calculate_dmd_state h d input target MSimple None no_kwargs (fun _ _ => 0) = (d', Ok (Fin 0)) /\
  d_state d' = DBool (s_Ny (d_slm d)) (s_Nx (d_slm d)) g /\ forall i j, in_array d i j -> g i j = false.
Proof. exact dark_refutes. Qed.
Print Assumptions C37_refuted.
(** This happens whenever one dark mirror coincides with a non-zero spectrum value. *)
Theorem C37_one_dark_pixel_suffices : forall h d input target w F T W kw u,
  full_input h (d_slm d) input F -> full_target h (d_slm d) target T -> window_reads h (d_slm d) w W -> d_p d <> 0 ->
  scaling_factor (d_slm d) <> 0 ->
  (exists i j, in_array d i j /\ F i j = RtoC 0 /\ windowed d T W i j <> RtoC 0) ->
  (exists g, calculate_dmd_state h d input target MIdeal w kw u = (with_state d (DFloat (s_Ny (d_slm d)) (s_Nx (d_slm d)) g), Ok (Fin 0)) /\
     forall i j, in_array d i j -> g i j = Fin 0 \/ g i j = NaN) /\
  (exists g, calculate_dmd_state h d input target MSimple w kw u = (with_state d (DBool (s_Ny (d_slm d)) (s_Nx (d_slm d)) g), Ok (Fin 0)) /\
     forall i j, in_array d i j -> g i j = false) /\
  ((forall i j, 0 <= u i j) ->
   exists g, calculate_dmd_state h d input target MRandom w kw u = (with_state d (DBool (s_Ny (d_slm d)) (s_Nx (d_slm d)) g), Ok (Fin 0)) /\
     forall i j, in_array d i j -> g i j = false).
Proof. exact dark_spec. Qed.
Print Assumptions C37_one_dark_pixel_suffices.
Example C37_case : full_input ex_heap (d_slm ex4) in4d F4d /\ full_target ex_heap (d_slm ex4) tg4d T4d /\
  exists i j, in_array ex4 i j /\ F4d i j = RtoC 0 /\ windowed ex4 T4d (fun _ _ => RtoC 1) i j <> RtoC 0.
Proof. exact ex4_dark. Qed.

(** ** C38 *)
Theorem C38_refuted : exists h d input target d' e,
  calculate_dmd_state h d input target MSimple None no_kwargs (fun _ _ => 0) = (d', Err e) /\
  cell_at (d_state d) 0 0 = CBool true /\ cell_at (d_state d') 0 0 = CBool false.
Proof. exact zero_refutes. Qed.
Print Assumptions C38_refuted.
(** An all-zero target always overwrites the state and then raises ZeroDivisionError. *)
Theorem C38_zero_target : forall h d input target w F T W kw u,
  full_input h (d_slm d) input F -> full_target h (d_slm d) target T -> window_reads h (d_slm d) w W -> d_p d <> 0 ->
  (0 < s_Ny (d_slm d))%nat -> (0 < s_Nx (d_slm d))%nat ->
  (forall i j, in_array d i j -> T i j = RtoC 0) ->
  (exists g, calculate_dmd_state h d input target MIdeal w kw u = (with_state d (DFloat (s_Ny (d_slm d)) (s_Nx (d_slm d)) g), Err ZeroDivisionError) /\
     forall i j, in_array d i j -> g i j = NaN) /\
  (exists g, calculate_dmd_state h d input target MSimple w kw u = (with_state d (DBool (s_Ny (d_slm d)) (s_Nx (d_slm d)) g), Err ZeroDivisionError) /\
     forall i j, in_array d i j -> g i j = false) /\
  (exists g, calculate_dmd_state h d input target MRandom w kw u = (with_state d (DBool (s_Ny (d_slm d)) (s_Nx (d_slm d)) g), Err ZeroDivisionError) /\
     forall i j, in_array d i j -> g i j = false).
Proof. exact zero_spec. Qed.
Print Assumptions C38_zero_target.
(** Every other failure leaves the DMD as it was. *)
Theorem C38_other_errors_change_nothing : forall h d i t m w kw u d' e,
  calculate_dmd_state h d i t m w kw u = (d', Err e) -> e <> ZeroDivisionError -> d' = d.
Proof. exact calc_atomic. Qed.
Print Assumptions C38_other_errors_change_nothing.
Theorem C38_grating_atomic : forall h d a b c m kw u d' e, set_dmd_grating_state h d a b c m kw u = (d', Err e) -> d' = d.
Proof. exact grating_atomic. Qed.
Print Assumptions C38_grating_atomic.
Theorem C38_unknown_method : forall h d,
  (forall a b c A B D kw u, reads h (d_slm d) a A -> reads h (d_slm d) b B -> reads h (d_slm d) c D ->
    set_dmd_grating_state h d a b c MUnknown kw u = (d, Err ValueError)) /\
  (forall i t F T kw u, full_input h (d_slm d) i F -> full_target h (d_slm d) t T ->
    calculate_dmd_state h d i t MUnknown None kw u = (d, Err ValueError)) /\
  (forall i t F T kw u, full_input h (d_slm d) i F -> full_target h (d_slm d) t T -> k_window kw = None ->
    calculate_dmd_state h d i t MIfta None kw u = (d, Err KeyError)).
Proof. exact unknown_methods. Qed.
Print Assumptions C38_unknown_method.
Example C38_case : full_input ex_heap (d_slm ex4) in4 F4 /\ full_target ex_heap (d_slm ex4) tg0 (fun _ _ => RtoC 0) /\ k_window no_kwargs = None.
Proof. repeat split. Qed.

(** ** C45 *)
Theorem C45_patch_only_touches_its_disc : forall h d ci cj amp pin pout diam m kw u d',
  circular_patch h d ci cj amp pin pout diam m kw u = (d', Ok tt) ->
  exists d2, set_dmd_grating_state h d amp pin pout m kw u = (d2, Ok tt) /\
    d' = with_state d (d_state d') /\ is_bool_state (d_state d') = is_bool_state (d_state d) /\ state_shape (d_state d') = state_shape (d_state d) /\
    state_shape (d_state d) = (s_Ny (d_slm d), s_Nx (d_slm d)) /\
    forall i j, (i < s_Ny (d_slm d))%nat -> (j < s_Nx (d_slm d))%nat ->
      (pixel_distance ci cj i j < Rabs diam / 2 -> cell_at (d_state d') i j = cell_as (is_bool_state (d_state d)) (cell_at (d_state d2) i j)) /\
      (Rabs diam / 2 <= pixel_distance ci cj i j -> cell_at (d_state d') i j = cell_at (d_state d) i j).
Proof. exact patch_spec. Qed.
Print Assumptions C45_patch_only_touches_its_disc.
Theorem C45_failing_patch_changes_nothing : forall h d ci cj amp pin pout diam m kw u d' e,
  circular_patch h d ci cj amp pin pout diam m kw u = (d', Err e) -> d' = d.
Proof. exact patch_fails. Qed.
Print Assumptions C45_failing_patch_changes_nothing.
Example C45_case : exists d', circular_patch ex_heap ex_dmd 1 1 half zero_phase zero_phase 3 MSimple no_kwargs (fun _ _ => 0) = (d', Ok tt).
Proof. exact patch_case. Qed.

(** ** C46 *)
Theorem C46_refuted : exists h d d' d2 i j r,
  circular_patch h d 0 0 half zero_phase zero_phase 2 MIdeal no_kwargs (fun _ _ => 0) = (d', Ok tt) /\
  set_dmd_grating_state h d half zero_phase zero_phase MIdeal no_kwargs (fun _ _ => 0) = (d2, Ok tt) /\
  in_array d i j /\ pixel_distance 0 0 i j < 1 /\ cell_at (d_state d2) i j = CFloat (Fin r) /\ 0 < r < 1 /\
  cell_at (d_state d') i j = CBool true.
Proof. exact patch_refutes. Qed.
Print Assumptions C46_refuted.
(** Over a grey state the grey levels are stored; over a bool state every mirror with a non-zero level is on. *)
Theorem C46_ideal_patch : forall h d ci cj amp pin pout diam kw u A Pi Po,
  reads h (d_slm d) amp A -> reads h (d_slm d) pin Pi -> reads h (d_slm d) pout Po -> d_p d <> 0 ->
  state_shape (d_state d) = (s_Ny (d_slm d), s_Nx (d_slm d)) ->
  exists d', circular_patch h d ci cj amp pin pout diam MIdeal kw u = (d', Ok tt) /\
    forall i j, in_array d i j -> pixel_distance ci cj i j < Rabs diam / 2 ->
    let r := A i j * (cos (carrier d i j - signed (d_neg d) (Po i j - Pi i j)) / 2 + 1 / 2) in
    (is_bool_state (d_state d) = false -> cell_at (d_state d') i j = CFloat (Fin r)) /\
    (is_bool_state (d_state d) = true -> exists b, cell_at (d_state d') i j = CBool b /\ (b = true <-> r <> 0)).
Proof. exact ideal_patch_cells. Qed.
Print Assumptions C46_ideal_patch.

(** ** C57 *)
Theorem C57_state_keeps_the_device_shape : forall wl fl per th Nx Ny ps neg cs d' l, (1 < Nx)%nat -> (1 < Ny)%nat ->
  do_calls (dmd_new wl fl per th Nx Ny ps neg) cs = (d', l) ->
  state_shape (d_state d') = (Ny, Nx) /\ d_slm d' = {| wavelength := wl; focal_length := fl; s_Nx := Nx; s_Ny := Ny; pixel_size := ps |} /\
  d_p d' = per * ps /\ d_theta d' = th /\ d_neg d' = neg.
Proof. exact history_shape. Qed.
Print Assumptions C57_state_keeps_the_device_shape.
Example C57_case : exists d' l, do_calls ex4 [COn; CGrating ex_heap half zero_phase zero_phase MIdeal no_kwargs (fun _ _ => 0); CPack] = (d', l) /\
  map snd l = [Ok tt; Ok tt; Err TypeError].
Proof. exact ex_history_ideal. Qed.
