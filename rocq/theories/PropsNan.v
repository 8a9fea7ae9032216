(** Simulations of states that are not finite (C133). *)
From Coq Require Import Reals Lra ZArith Arith List Bool Lia.
From Coquelicot Require Import Complex.
From Verif Require Import Cx PyBase ProfileModel SlmModel LibModel DmdModel SimModel SimSpec SimExamples DmdSpec DmdExamples NarrowFacts2 NanModel NanSpec NanFacts NanFacts2.
Open Scope R_scope.

(** One grey level that is infinite or NaN. *)
Theorem C133_one_bad_mirror : forall h d m a F g py px i0 j0,
  full_input h (d_slm d) a F -> d_state d = DFloat (s_Ny (d_slm d)) (s_Nx (d_slm d)) g -> in_array d i0 j0 -> not_finite (g i0 j0) ->
  n_pad_y m = Z.of_nat py -> n_pad_x m = Z.of_nat px -> scaling_factor (d_slm d) <> 0 -> pixel_size (d_slm d) <> 0 ->
  exists m', n_propagate h (DevDmd d) m a = (m', Ok tt) /\ n_pad_x m' = n_pad_x m /\ n_pad_y m' = n_pad_y m /\ spoilt (d_slm d) py px F g m'.
Proof. exact bad_state. Qed.
Print Assumptions C133_one_bad_mirror.
(** An ideal hologram for a beam with a dark pixel that the target needs, displayed with any beam E. *)
Theorem C133_dark_pixel : forall h d input target w F T W kw u i0 j0 beam E m py px,
  full_input h (d_slm d) input F -> full_target h (d_slm d) target T -> window_reads h (d_slm d) w W -> d_p d <> 0 -> scaling_factor (d_slm d) <> 0 -> pixel_size (d_slm d) <> 0 ->
  in_array d i0 j0 -> F i0 j0 = RtoC 0 -> windowed d T W i0 j0 <> RtoC 0 -> full_input h (d_slm d) beam E -> n_pad_y m = Z.of_nat py -> n_pad_x m = Z.of_nat px ->
  let d' := fst (calculate_dmd_state h d input target MIdeal w kw u) in
  exists m' g, n_propagate h (DevDmd d') m beam = (m', Ok tt) /\ g i0 j0 = NaN /\ spoilt (d_slm d) py px E g m'.
Proof. exact dark_image. Qed.
Print Assumptions C133_dark_pixel.
(** Blocking the zeroth order hides the loss inside its disc only. *)
Theorem C133_blocking : forall d m r ny nx X Y,
  (r = None -> d_p d <> 0) -> n_output m <> None -> holds (n_image m) ny nx (fun _ _ z => z = None) ->
  Z.to_nat (n_Ny (d_slm d) m) = ny -> Z.to_nat (n_Nx (d_slm d) m) = nx ->
  grid_is (image_grid_of nx ny (pixel_size (d_slm d)) (scaling_factor (d_slm d))) ny nx X Y ->
  exists m', n_block d m r = (m', Ok tt) /\ n_input m' = n_input m /\ n_output m' = n_output m /\ n_pad_x m' = n_pad_x m /\ n_pad_y m' = n_pad_y m /\
    holds (n_image m') ny nx (fun u v z => (X u v ^ 2 + Y u v ^ 2 < block_radius d r ^ 2 -> z = Some (RtoC 0)) /\ (block_radius d r ^ 2 <= X u v ^ 2 + Y u v ^ 2 -> z = None)).
Proof. exact bad_block. Qed.
Print Assumptions C133_blocking.
(** Nothing is left of it in the next run. *)
Theorem C133_next_run : forall h dev m a,
  n_propagate h dev (n_new (n_pad_x m) (n_pad_y m)) a = (fst (n_propagate h dev (n_new (n_pad_x m) (n_pad_y m)) a), Ok tt) ->
  n_propagate h dev m a = n_propagate h dev (n_new (n_pad_x m) (n_pad_y m)) a.
Proof. exact next_run. Qed.
Print Assumptions C133_next_run.
(** With finite states this is the simulation of the other properties. *)
Theorem C133_finite_states : forall h dev n m input, same_results n m -> state_tensor dev <> Err EUnmodelled ->
  snd (n_propagate h dev n input) = snd (propagate_to_image h dev m input) /\ same_results (fst (n_propagate h dev n input)) (fst (propagate_to_image h dev m input)).
Proof. exact agree. Qed.
Print Assumptions C133_finite_states.
Theorem C133_new_simulation : forall dev px py m, sim_new dev px py = Ok m -> same_results (n_new (pad_x m) (pad_y m)) m.
Proof. exact new_results. Qed.
Print Assumptions C133_new_simulation.
Theorem C133_finite_results : forall s d n m r, same_results n m ->
  n_input_power s n = rmap Some (get_input_power s m) /\ n_output_power s n = rmap Some (get_output_power s m) /\ n_image_power s n = rmap Some (get_image_plane_power s m) /\
  snd (n_block d n r) = snd (block_zeroth_order d m r) /\ same_results (fst (n_block d n r)) (fst (block_zeroth_order d m r)).
Proof.
  exact (fun s d n m r H => match agree_powers s n m H with conj a (conj b c) => conj a (conj b (conj c (agree_block d n m r H))) end).
Qed.
Print Assumptions C133_finite_results.
(** A DMD of 2 x 3 mirrors, the first one NaN, padded by 2 rows and 1 column; a beam with a dark first pixel and a target with one bright pixel. *)
Example C133_case : (let g := fun i j => if (Nat.eqb i 0 && Nat.eqb j 0)%bool then NaN else Fin 1 in let d := with_state ex_dmd (DFloat 2 3 g) in
    full_input ex_heap (d_slm d) ex_input ex_field /\ in_array d 0 0 /\ not_finite (g 0%nat 0%nat) /\ scaling_factor (d_slm d) <> 0 /\ pixel_size (d_slm d) <> 0 /\
    exists m', n_propagate ex_heap (DevDmd d) (n_new 1 2) ex_input = (m', Ok tt) /\ spoilt (d_slm d) 2 1 ex_field g m') /\
  (let F := fun i j => if (Nat.eqb i 0 && Nat.eqb j 0)%bool then RtoC 0 else RtoC 1 in let T := fun i j => if (Nat.eqb i 1 && Nat.eqb j 1)%bool then RtoC 1 else RtoC 0 in
    full_input ex_heap (d_slm ex_dmd) (AConstC (T2 2 3 F)) F /\ full_target ex_heap (d_slm ex_dmd) (AConstC (T2 2 3 T)) T /\ d_p ex_dmd <> 0 /\
    windowed ex_dmd T (fun _ _ => RtoC 1) 0 0 <> RtoC 0).
Proof.
  assert (S0 : scaling_factor (d_slm ex_dmd) <> 0) by (unfold scaling_factor; cbn; lra). assert (P0 : pixel_size (d_slm ex_dmd) <> 0) by (cbn; lra).
  split; cbv zeta.
  - set (g := fun i j : nat => if (Nat.eqb i 0 && Nat.eqb j 0)%bool then NaN else Fin 1). assert (N : not_finite (g 0%nat 0%nat)) by (intros r; discriminate).
    assert (A : in_array (with_state ex_dmd (DFloat 2 3 g)) 0 0) by (split; cbn; lia).
    split; [reflexivity|]. split; [exact A|]. split; [exact N|]. split; [exact S0|]. split; [exact P0|].
    destruct (C133_one_bad_mirror ex_heap (with_state ex_dmd (DFloat 2 3 g)) (n_new 1 2) ex_input ex_field g 2 1 0 0 eq_refl eq_refl A N eq_refl eq_refl S0 P0) as (m' & H & _ & _ & H').
    exists m'. split; [exact H|exact H'].
  - split; [reflexivity|]. split; [reflexivity|]. split; [cbn; lra|]. unfold windowed. rewrite Cmult_1_r. apply one_pixel; cbn; lia.
Qed.
