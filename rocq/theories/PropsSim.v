(** C03-C11, C56: the simulation. *)
From Coq Require Import Reals Lra ZArith Arith List Bool Lia.
From Coquelicot Require Import Complex.
From Verif Require Import Cx Sums DFT PyBase ProfileModel SlmModel LibModel DmdModel SimModel SimSpec GridFacts SimFacts SimFacts2 SimFacts3 SimHist SimNone SimExamples.
Import ListNotations.
Open Scope R_scope.

(** ** C03 *)
Theorem C03_image_power_is_output_power : forall h dev m m' a F,
  full_input h (dev_slm dev) a F -> propagate_to_image h dev m a = (m', Ok tt) ->
  (0 < s_Nx (dev_slm dev))%nat -> (0 < s_Ny (dev_slm dev))%nat -> pixel_size (dev_slm dev) <> 0 ->
  forall S, full_state dev S ->
  exists P, get_output_power (dev_slm dev) m' = Ok P /\ get_image_plane_power (dev_slm dev) m' = Ok P /\
    P = power_of (pixel_size (dev_slm dev) ^ 2) (s_Ny (dev_slm dev)) (s_Nx (dev_slm dev)) (fun i j => (F i j * S i j)%C).
Proof. exact image_power_is_output_power. Qed.
Print Assumptions C03_image_power_is_output_power.
Example C03_case : exists S m', full_state (DevDmd ex_dmd) S /\ full_input ex_heap (d_slm ex_dmd) ex_input ex_field /\
  propagate_to_image ex_heap (DevDmd ex_dmd) ex_sim ex_input = (m', Ok tt) /\ S 0%nat 0%nat <> S 0%nat 1%nat.
Proof.
  assert (HS := state_bool ex_dmd _ eq_refl). destruct (ex_runs (DevDmd ex_dmd) _ HS eq_refl) as (H1 & (m' & H2) & _).
  do 2 eexists. split; [exact HS|]. split; [exact H1|]. split; [exact H2|]. cbn. intros E. injection E. lra.
Qed.

(** ** C04 *)
Theorem C04_padding_invariant : forall h dev m1 m2 a F S m1' m2',
  full_input h (dev_slm dev) a F -> full_state dev S ->
  (0 < s_Nx (dev_slm dev))%nat -> (0 < s_Ny (dev_slm dev))%nat -> pixel_size (dev_slm dev) <> 0 ->
  propagate_to_image h dev m1 a = (m1', Ok tt) -> propagate_to_image h dev m2 a = (m2', Ok tt) ->
  get_input_power (dev_slm dev) m1' = get_input_power (dev_slm dev) m2' /\
  get_output_power (dev_slm dev) m1' = get_output_power (dev_slm dev) m2' /\
  get_image_plane_power (dev_slm dev) m1' = get_image_plane_power (dev_slm dev) m2'.
Proof. exact padding_invariant. Qed.
Print Assumptions C04_padding_invariant.
Example C04_case : pad_x ex_sim <> pad_y ex_sim /\
  exists m1 m2, propagate_to_image ex_heap (DevDmd ex_dmd) ex_sim ex_input = (m1, Ok tt) /\
    propagate_to_image ex_heap (DevDmd ex_dmd) {| pad_x := 0; pad_y := 7; f_input := None; f_output := None; f_image := None |} ex_input = (m2, Ok tt).
Proof.
  split; [discriminate|]. assert (HS := state_bool ex_dmd _ eq_refl).
  destruct (ex_runs (DevDmd ex_dmd) _ HS eq_refl) as (H1 & (m1 & H2) & _).
  destruct (propagate_succeeds _ _ {| pad_x := 0; pad_y := 7; f_input := None; f_output := None; f_image := None |} _ _ _ H1 HS) as [m2 H3];
    [cbn; lia|cbn; lia|unfold scaling_factor; cbn; lra|]. eauto.
Qed.

(** ** C05 *)
Theorem C05_grey_state_passive : forall h d m a F g m',
  full_input h (d_slm d) a F -> d_state d = DFloat (s_Ny (d_slm d)) (s_Nx (d_slm d)) (fun i j => Fin (g i j)) ->
  (forall i j, (i < s_Ny (d_slm d))%nat -> (j < s_Nx (d_slm d))%nat -> 0 <= g i j <= 1) ->
  propagate_to_image h (DevDmd d) m a = (m', Ok tt) ->
  (0 < s_Nx (d_slm d))%nat -> (0 < s_Ny (d_slm d))%nat -> pixel_size (d_slm d) <> 0 ->
  exists Pin Pout, get_input_power (d_slm d) m' = Ok Pin /\ get_output_power (d_slm d) m' = Ok Pout /\ Pout <= Pin /\
    get_image_plane_power (d_slm d) m' = Ok Pout.
Proof. exact grey_passive. Qed.
Print Assumptions C05_grey_state_passive.
Theorem C05_binary_state_power : forall h d m a F b m',
  full_input h (d_slm d) a F -> d_state d = DBool (s_Ny (d_slm d)) (s_Nx (d_slm d)) b ->
  propagate_to_image h (DevDmd d) m a = (m', Ok tt) ->
  (0 < s_Nx (d_slm d))%nat -> (0 < s_Ny (d_slm d))%nat -> pixel_size (d_slm d) <> 0 ->
  get_input_power (d_slm d) m' = Ok (power_of (pixel_size (d_slm d) ^ 2) (s_Ny (d_slm d)) (s_Nx (d_slm d)) F) /\
  get_output_power (d_slm d) m'
    = Ok (power_of (pixel_size (d_slm d) ^ 2) (s_Ny (d_slm d)) (s_Nx (d_slm d)) (fun i j => if b i j then F i j else RtoC 0)) /\
  get_image_plane_power (d_slm d) m' = get_output_power (d_slm d) m' /\
  power_of (pixel_size (d_slm d) ^ 2) (s_Ny (d_slm d)) (s_Nx (d_slm d)) (fun i j => if b i j then F i j else RtoC 0)
    <= power_of (pixel_size (d_slm d) ^ 2) (s_Ny (d_slm d)) (s_Nx (d_slm d)) F.
Proof. exact binary_power. Qed.
Print Assumptions C05_binary_state_power.
Theorem C05_all_on_identity : forall h d m a F m',
  full_input h (d_slm d) a F -> propagate_to_image h (DevDmd (set_dmd_state_on d)) m a = (m', Ok tt) ->
  exists ny nx E, field_is (f_input m') ny nx E /\ field_is (f_output m') ny nx E.
Proof. exact mirrors_on. Qed.
Print Assumptions C05_all_on_identity.
Theorem C05_all_off_dark : forall h d m a F m',
  full_input h (d_slm d) a F -> propagate_to_image h (DevDmd (set_dmd_state_off d)) m a = (m', Ok tt) ->
  (0 < s_Nx (d_slm d))%nat -> (0 < s_Ny (d_slm d))%nat -> pixel_size (d_slm d) <> 0 ->
  get_output_power (d_slm d) m' = Ok 0 /\ get_image_plane_power (d_slm d) m' = Ok 0.
Proof. exact mirrors_off. Qed.
Print Assumptions C05_all_off_dark.
Example C05_case_binary : exists m', propagate_to_image ex_heap (DevDmd ex_dmd) ex_sim ex_input = (m', Ok tt).
Proof. apply (ex_runs (DevDmd ex_dmd) _ (state_bool ex_dmd _ eq_refl) eq_refl). Qed.
Example C05_case_on : exists m', propagate_to_image ex_heap (DevDmd (set_dmd_state_on ex_dmd)) ex_sim ex_input = (m', Ok tt).
Proof. apply (ex_runs (DevDmd (set_dmd_state_on ex_dmd)) _ (state_bool (set_dmd_state_on ex_dmd) (fun _ _ => true) eq_refl) eq_refl). Qed.
Example C05_case_off : exists m', propagate_to_image ex_heap (DevDmd (set_dmd_state_off ex_dmd)) ex_sim ex_input = (m', Ok tt).
Proof. apply (ex_runs (DevDmd (set_dmd_state_off ex_dmd)) _ (state_bool (set_dmd_state_off ex_dmd) (fun _ _ => false) eq_refl) eq_refl). Qed.
Definition ex_grey : dmd := with_state ex_dmd (DFloat 2 3 (fun i j => Fin (/ (INR (i + j) + 1)))).
Example C05_case_grey :
  (forall i j, (i < 2)%nat -> (j < 3)%nat -> 0 <= / (INR (i + j) + 1) <= 1) /\
  exists m', propagate_to_image ex_heap (DevDmd ex_grey) ex_sim ex_input = (m', Ok tt).
Proof.
  split.
  - intros i j _ _. assert (H := pos_INR (i + j)). assert (0 < / (INR (i + j) + 1)) by (apply Rinv_0_lt_compat; lra).
    split; [lra|]. rewrite <- Rinv_1. apply Rinv_le_contravar; lra.
  - apply (ex_runs (DevDmd ex_grey) _ (state_float ex_grey (fun i j => / (INR (i + j) + 1)) eq_refl) eq_refl).
Qed.

(** ** C06 *)
Theorem C06_lcos_lossless : forall h l m a F ph m',
  full_input h (l_slm l) a F -> l_state l = LReal (s_Ny (l_slm l)) (s_Nx (l_slm l)) ph ->
  propagate_to_image h (DevLcos l) m a = (m', Ok tt) ->
  (0 < s_Nx (l_slm l))%nat -> (0 < s_Ny (l_slm l))%nat -> pixel_size (l_slm l) <> 0 ->
  (exists ny nx Ei Eo, field_is (f_input m') ny nx Ei /\ field_is (f_output m') ny nx Eo /\
     forall i j, (i < ny)%nat -> (j < nx)%nat -> Cmod (Eo i j) = Cmod (Ei i j)) /\
  get_output_power (l_slm l) m' = get_input_power (l_slm l) m' /\ get_image_plane_power (l_slm l) m' = get_input_power (l_slm l) m'.
Proof. exact lcos_lossless. Qed.
Print Assumptions C06_lcos_lossless.
Definition ex_lcos : lcos := {| l_slm := d_slm ex_dmd; l_state := LReal 2 3 (fun i j => INR i - INR j) |}.
Example C06_case : exists m', propagate_to_image ex_heap (DevLcos ex_lcos) ex_sim ex_input = (m', Ok tt).
Proof. apply (ex_runs (DevLcos ex_lcos) _ (state_phase ex_lcos (fun i j => INR i - INR j) eq_refl) eq_refl). Qed.

(** ** C07 *)
Theorem C07_linear : forall h dev m a1 a2 a3 F1 F2 S m1 m2 (a b : C),
  full_input h (dev_slm dev) a1 F1 -> full_input h (dev_slm dev) a2 F2 ->
  full_input h (dev_slm dev) a3 (fun i j => (a * F1 i j + b * F2 i j)%C) -> full_state dev S ->
  propagate_to_image h dev m a1 = (m1, Ok tt) -> propagate_to_image h dev m a2 = (m2, Ok tt) ->
  exists m3 g1 g2 o1 o2, propagate_to_image h dev m a3 = (m3, Ok tt) /\
    field_is (f_image m1) (NY (dev_slm dev) m) (NX (dev_slm dev) m) g1 /\
    field_is (f_image m2) (NY (dev_slm dev) m) (NX (dev_slm dev) m) g2 /\
    field_is (f_image m3) (NY (dev_slm dev) m) (NX (dev_slm dev) m) (fun u v => (a * g1 u v + b * g2 u v)%C) /\
    field_is (f_output m1) (NY (dev_slm dev) m) (NX (dev_slm dev) m) o1 /\
    field_is (f_output m2) (NY (dev_slm dev) m) (NX (dev_slm dev) m) o2 /\
    field_is (f_output m3) (NY (dev_slm dev) m) (NX (dev_slm dev) m) (fun u v => (a * o1 u v + b * o2 u v)%C).
Proof. exact propagate_linear. Qed.
Print Assumptions C07_linear.
Theorem C07_power_scales : forall h dev m a1 a2 F S m1 m2 (c : C),
  full_input h (dev_slm dev) a1 F -> full_input h (dev_slm dev) a2 (fun i j => (c * F i j)%C) -> full_state dev S ->
  propagate_to_image h dev m a1 = (m1, Ok tt) -> propagate_to_image h dev m a2 = (m2, Ok tt) ->
  (0 < s_Nx (dev_slm dev))%nat -> (0 < s_Ny (dev_slm dev))%nat -> pixel_size (dev_slm dev) <> 0 ->
  get_input_power (dev_slm dev) m2 = rmap (Rmult (Cmod c ^ 2)) (get_input_power (dev_slm dev) m1) /\
  get_output_power (dev_slm dev) m2 = rmap (Rmult (Cmod c ^ 2)) (get_output_power (dev_slm dev) m1) /\
  get_image_plane_power (dev_slm dev) m2 = rmap (Rmult (Cmod c ^ 2)) (get_image_plane_power (dev_slm dev) m1).
Proof. exact power_scales. Qed.
Print Assumptions C07_power_scales.
Example C07_case : forall a b : C, full_input ex_heap (d_slm ex_dmd) (AConstC (T2 2 3 (fun i j => (a * ex_field i j + b * ex_field i j)%C)))
  (fun i j => (a * ex_field i j + b * ex_field i j)%C).
Proof. reflexivity. Qed.

(** ** C08 *)
Theorem C08_fraunhofer_even : forall h dev m a F S m' x y X Y,
  full_input h (dev_slm dev) a F -> full_state dev S -> propagate_to_image h dev m a = (m', Ok tt) ->
  (0 < s_Nx (dev_slm dev))%nat -> (0 < s_Ny (dev_slm dev))%nat -> pixel_size (dev_slm dev) <> 0 ->
  Nat.even (s_Nx (dev_slm dev)) = true -> Nat.even (s_Ny (dev_slm dev)) = true ->
  grid_is (fourier_plane_padded_grid (dev_slm dev) m) (NY (dev_slm dev) m) (NX (dev_slm dev) m) x y ->
  grid_is (image_plane_padded_grid (dev_slm dev) m) (NY (dev_slm dev) m) (NX (dev_slm dev) m) X Y ->
  exists E, field_is (f_output m') (NY (dev_slm dev) m) (NX (dev_slm dev) m) E /\
  field_is (f_image m') (NY (dev_slm dev) m) (NX (dev_slm dev) m) (fun u v =>
    (RtoC (pixel_size (dev_slm dev) ^ 2 / (wavelength (dev_slm dev) * focal_length (dev_slm dev))) *
     csum2 (NY (dev_slm dev) m) (NX (dev_slm dev) m) (fun i j =>
       (E i j * cis (2 * PI * (x i j * X u v + y i j * Y u v) / (wavelength (dev_slm dev) * focal_length (dev_slm dev))))%C))%C).
Proof. exact fraunhofer_even. Qed.
Print Assumptions C08_fraunhofer_even.
(** Any size: equal up to the explicit unit phase. *)
Theorem C08_fraunhofer_any : forall h dev m a F S m' x y X Y,
  full_input h (dev_slm dev) a F -> full_state dev S -> propagate_to_image h dev m a = (m', Ok tt) ->
  (0 < s_Nx (dev_slm dev))%nat -> (0 < s_Ny (dev_slm dev))%nat -> pixel_size (dev_slm dev) <> 0 ->
  grid_is (fourier_plane_padded_grid (dev_slm dev) m) (NY (dev_slm dev) m) (NX (dev_slm dev) m) x y ->
  grid_is (image_plane_padded_grid (dev_slm dev) m) (NY (dev_slm dev) m) (NX (dev_slm dev) m) X Y ->
  exists E, field_is (f_output m') (NY (dev_slm dev) m) (NX (dev_slm dev) m) E /\
  field_is (f_image m') (NY (dev_slm dev) m) (NX (dev_slm dev) m) (fun u v =>
    (odd_phase (NY (dev_slm dev) m) (NX (dev_slm dev) m) u v * (RtoC (pixel_size (dev_slm dev) ^ 2 / scaling_factor (dev_slm dev)) *
      csum2 (NY (dev_slm dev) m) (NX (dev_slm dev) m) (fun i j =>
       (E i j * cis (2 * PI * (x i j * X u v + y i j * Y u v) / scaling_factor (dev_slm dev)))%C)))%C).
Proof. exact fraunhofer. Qed.
Print Assumptions C08_fraunhofer_any.
Theorem C08_fraunhofer_intensity : forall h dev m a F S m' x y X Y,
  full_input h (dev_slm dev) a F -> full_state dev S -> propagate_to_image h dev m a = (m', Ok tt) ->
  (0 < s_Nx (dev_slm dev))%nat -> (0 < s_Ny (dev_slm dev))%nat -> pixel_size (dev_slm dev) <> 0 ->
  grid_is (fourier_plane_padded_grid (dev_slm dev) m) (NY (dev_slm dev) m) (NX (dev_slm dev) m) x y ->
  grid_is (image_plane_padded_grid (dev_slm dev) m) (NY (dev_slm dev) m) (NX (dev_slm dev) m) X Y ->
  exists E I, field_is (f_output m') (NY (dev_slm dev) m) (NX (dev_slm dev) m) E /\
  field_is (f_image m') (NY (dev_slm dev) m) (NX (dev_slm dev) m) I /\
  forall u v, (u < NY (dev_slm dev) m)%nat -> (v < NX (dev_slm dev) m)%nat ->
   Cmod (I u v) = Cmod (RtoC (pixel_size (dev_slm dev) ^ 2 / (wavelength (dev_slm dev) * focal_length (dev_slm dev))) *
      csum2 (NY (dev_slm dev) m) (NX (dev_slm dev) m) (fun i j =>
        (E i j * cis (2 * PI * (x i j * X u v + y i j * Y u v) / (wavelength (dev_slm dev) * focal_length (dev_slm dev))))%C))%C.
Proof. exact fraunhofer_intensity. Qed.
Print Assumptions C08_fraunhofer_intensity.
Example C08_case : exists x y X Y,
  grid_is (fourier_plane_padded_grid (d_slm ex_dmd) ex_sim) (NY (d_slm ex_dmd) ex_sim) (NX (d_slm ex_dmd) ex_sim) x y /\
  grid_is (image_plane_padded_grid (d_slm ex_dmd) ex_sim) (NY (d_slm ex_dmd) ex_sim) (NX (d_slm ex_dmd) ex_sim) X Y /\
  NX (d_slm ex_dmd) ex_sim = 5%nat /\ NY (d_slm ex_dmd) ex_sim = 6%nat.
Proof.
  do 4 eexists. split; [apply fourier_plane_padded_grid_is; cbn; lia|]. split; [apply image_grid_of_is; cbn; lra|]. split; reflexivity.
Qed.

(** ** C09 *)
Theorem C09_blanks_exactly_the_disc : forall d m r f X Y, (r = None -> d_p d <> 0) -> f_output m <> None ->
  field_is (f_image m) (NY (d_slm d) m) (NX (d_slm d) m) f ->
  grid_is (image_plane_padded_grid (d_slm d) m) (NY (d_slm d) m) (NX (d_slm d) m) X Y ->
  exists m', block_zeroth_order d m r = (m', Ok tt) /\ f_input m' = f_input m /\ f_output m' = f_output m /\
    pad_x m' = pad_x m /\ pad_y m' = pad_y m /\
    field_is (f_image m') (NY (d_slm d) m) (NX (d_slm d) m) (fun u v => blanked (X u v) (Y u v) (block_radius d r) (f u v)).
Proof. exact block_spec. Qed.
Print Assumptions C09_blanks_exactly_the_disc.
Theorem C09_idempotent : forall d m r f X Y m1 m2, (r = None -> d_p d <> 0) -> f_output m <> None ->
  field_is (f_image m) (NY (d_slm d) m) (NX (d_slm d) m) f ->
  grid_is (image_plane_padded_grid (d_slm d) m) (NY (d_slm d) m) (NX (d_slm d) m) X Y ->
  block_zeroth_order d m r = (m1, Ok tt) -> block_zeroth_order d m1 r = (m2, Ok tt) ->
  exists g, field_is (f_image m1) (NY (d_slm d) m) (NX (d_slm d) m) g /\ field_is (f_image m2) (NY (d_slm d) m) (NX (d_slm d) m) g.
Proof. exact block_twice. Qed.
Print Assumptions C09_idempotent.
Theorem C09_power_does_not_increase : forall d m r f X Y m1 P P1, (r = None -> d_p d <> 0) -> f_output m <> None ->
  field_is (f_image m) (NY (d_slm d) m) (NX (d_slm d) m) f ->
  grid_is (image_plane_padded_grid (d_slm d) m) (NY (d_slm d) m) (NX (d_slm d) m) X Y ->
  block_zeroth_order d m r = (m1, Ok tt) -> (0 <= pad_x m)%Z -> (0 <= pad_y m)%Z ->
  get_image_plane_power (d_slm d) m = Ok P -> get_image_plane_power (d_slm d) m1 = Ok P1 -> P1 <= P.
Proof. exact block_power. Qed.
Print Assumptions C09_power_does_not_increase.
Theorem C09_first_order_survives_default_radius : forall d x y z,
  first_order_origin d = (Fin x, Fin y) -> blanked x y (block_radius d None) z = z.
Proof. exact first_order_kept. Qed.
Print Assumptions C09_first_order_survives_default_radius.
Example C09_case : d_p ex_dmd <> 0 /\ exists m' f, propagate_to_image ex_heap (DevDmd ex_dmd) ex_sim ex_input = (m', Ok tt) /\
  f_output m' <> None /\ field_is (f_image m') (NY (d_slm ex_dmd) m') (NX (d_slm ex_dmd) m') f.
Proof.
  split; [cbn; lra|]. assert (HS := state_bool ex_dmd _ eq_refl).
  destruct (ex_runs (DevDmd ex_dmd) _ HS eq_refl) as (H1 & (m' & H2) & _).
  destruct (propagate_inv ex_heap (DevDmd ex_dmd) ex_sim ex_input _ _ m' H1 HS H2) as (_ & _ & _ & Ex & Ey & _ & Ho & Hi).
  assert (E1 : NY (d_slm ex_dmd) m' = NY (d_slm ex_dmd) ex_sim) by (unfold NY; rewrite Ey; reflexivity).
  assert (E2 : NX (d_slm ex_dmd) m' = NX (d_slm ex_dmd) ex_sim) by (unfold NX; rewrite Ex; reflexivity).
  do 2 eexists. split; [exact H2|]. rewrite E1, E2. split; [|exact Hi]. destruct (f_output m'); [discriminate|contradiction].
Qed.

(** ** C10 *)
Theorem C10_results_belong_to_last_propagation : forall w0 ops w,
  no_result (w_sim w0) -> run w0 ops = Some w -> history w0 ops w.
Proof. exact history_holds. Qed.
Print Assumptions C10_results_belong_to_last_propagation.
Theorem C10_block_without_result : forall d m r, block_zeroth_order d m r = (m, Err TypeError) <-> f_output m = None.
Proof. exact block_none_iff. Qed.
Print Assumptions C10_block_without_result.
(** The power getters fail exactly where there is no field to sum; otherwise the power is a number, not negative. *)
Theorem C10_powers_without_result : forall s m,
  (get_input_power s m = Err TypeError <-> f_input m = None) /\ (f_input m <> None -> exists P, get_input_power s m = Ok P /\ 0 <= P) /\
  (get_output_power s m = Err TypeError <-> f_output m = None) /\ (f_output m <> None -> exists P, get_output_power s m = Ok P /\ 0 <= P) /\
  (f_image m = None -> exists e, get_image_plane_power s m = Err e) /\
  (forall P, image_plane_pixel_area s m = Ok P -> (get_image_plane_power s m = Err TypeError <-> f_image m = None)).
Proof. exact powers_without_result. Qed.
Print Assumptions C10_powers_without_result.
(** A history with two propagations, a block, a mirror change and a clear runs without failure. *)
Example C10_case : exists w, run {| w_heap := ex_heap; w_dev := DevDmd ex_dmd; w_sim := ex_sim |}
  [Propagate ex_input; Block (Some 1); SetDmd (DBool 2 3 (fun _ _ => true)); Propagate ex_input; Clear; Propagate ex_input; Block None] = Some w.
Proof. exact ex_history. Qed.

(** ** C11 *)
(** A failed propagation can leave the simulation with a new input field next to the old output and image. *)
Theorem C11_refuted : exists h dev m0 a1 m1 a2 m2 e,
  propagate_to_image h dev m0 a1 = (m1, Ok tt) /\ propagate_to_image h dev m1 a2 = (m2, Err e) /\
  f_input m2 <> f_input m1 /\ f_output m2 = f_output m1 /\ f_image m2 = f_image m1.
Proof. exact propagate_not_atomic. Qed.
Print Assumptions C11_refuted.
(** What does survive: output and image field are kept, and the input field is old or fully that of the new call. *)
Theorem C11_output_and_image_survive : forall h dev m a m' e,
  propagate_to_image h dev m a = (m', Err e) -> scaling_factor (dev_slm dev) <> 0 ->
  f_output m' = f_output m /\ f_image m' = f_image m /\
  (f_input m' = f_input m \/ exists t, profile_to_tensor_c h (dev_slm dev) a true = Ok t /\
     tf_pad (pad_y m) (pad_x m) t = match f_input m' with Some p => Ok p | None => Err e end).
Proof. exact failing_keeps_output. Qed.
Print Assumptions C11_output_and_image_survive.

(** ** C56 *)
Theorem C56_slm_simulation_constructor : forall d px py m, sim_new d px py = Ok m <->
  d <> None /\ exists x y, int_arg px x /\ int_arg py y /\
    m = {| pad_x := x; pad_y := y; f_input := None; f_output := None; f_image := None |}.
Proof. exact sim_new_spec. Qed.
Print Assumptions C56_slm_simulation_constructor.
Theorem C56_dmd_simulation_constructor : forall d px py m, dmd_sim_new d px py = Ok m <->
  (exists dm, d = Some (DevDmd dm)) /\ exists x y, int_arg px x /\ int_arg py y /\
    m = {| pad_x := x; pad_y := y; f_input := None; f_output := None; f_image := None |}.
Proof. exact dmd_sim_new_spec. Qed.
Print Assumptions C56_dmd_simulation_constructor.
Theorem C56_only_type_errors : forall d px py e, sim_new d px py = Err e \/ dmd_sim_new d px py = Err e -> e = TypeError.
Proof. intros d px py e [H|H]; [exact (sim_new_errors _ _ _ _ H)|exact (dmd_sim_new_errors _ _ _ _ H)]. Qed.
Print Assumptions C56_only_type_errors.
Theorem C56_field_sizes : forall h dev m a F S m', full_input h (dev_slm dev) a F -> full_state dev S -> propagate_to_image h dev m a = (m', Ok tt) ->
  exists nx ny, Z.of_nat nx = (Z.of_nat (s_Nx (dev_slm dev)) + 2 * pad_x m)%Z /\ Z.of_nat ny = (Z.of_nat (s_Ny (dev_slm dev)) + 2 * pad_y m)%Z /\
  exists f g k, field_is (f_input m') ny nx f /\ field_is (f_output m') ny nx g /\ field_is (f_image m') ny nx k.
Proof. exact field_sizes. Qed.
Print Assumptions C56_field_sizes.
Example C56_case : sim_new (Some (DevLcos ex_lcos)) (PyInt 3) (PyBool true) =
    Ok {| pad_x := 3; pad_y := 1; f_input := None; f_output := None; f_image := None |} /\
  dmd_sim_new (Some (DevLcos ex_lcos)) (PyInt 3) (PyInt 1) = Err TypeError /\ sim_new (Some (DevDmd ex_dmd)) (PyFloat 1) (PyInt 1) = Err TypeError.
Proof. repeat split. Qed.
