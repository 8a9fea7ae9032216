(** Arrays of the wrong shape (C83, C84) and a grating period of zero (C85). *)
From Coq Require Import Reals Lra ZArith Arith List Bool Lia.
From Coquelicot Require Import Complex.
From Verif Require Import Cx Sums DFT PyBase ProfileModel SlmModel LibModel DmdModel SimModel SimSpec SimFacts SimFacts2 SimExamples DmdSpec DmdFacts2 DmdExamples HoloSpec HoloThms HoloExamples ShapeSpec ShapeFacts RowFacts RowFacts2 PeriodFacts ShapeThms.
Open Scope R_scope.

(** ** C83 *)
Theorem C83_hologram_rejects_misfits : forall h d i t m w kw u, let s := d_slm d in s_Ny s <> 1%nat -> s_Nx s <> 1%nat ->
  misfits s i \/ misfits s t \/ misfits_opt s w \/ (m = MIfta /\ misfits_opt s (k_window kw)) ->
  exists e, calculate_dmd_state h d i t m w kw u = (d, Err e).
Proof. exact calc_rejects. Qed.
Print Assumptions C83_hologram_rejects_misfits.
Theorem C83_grating_rejects_misfits : forall h d a b c m kw u, let s := d_slm d in s_Ny s <> 1%nat -> s_Nx s <> 1%nat ->
  misfits s a \/ misfits s b \/ misfits s c \/ (m = MIfta /\ (misfits_opt s (k_window kw) \/ misfits_opt s (k_input kw))) ->
  (exists e, set_dmd_grating_state h d a b c m kw u = (d, Err e)) /\
  (forall ci cj dm, exists e, circular_patch h d ci cj a b c dm m kw u = (d, Err e)).
Proof. intros h d a b c m kw u s Hy Hx B. split; [exact (set_rejects h d a b c m kw u Hy Hx B)|intros ci cj dm; exact (patch_rejects h d ci cj a b c dm m kw u Hy Hx B)]. Qed.
Print Assumptions C83_grating_rejects_misfits.
(** A 2 x 4 device and a 3 x 4 array. *)
Example C83_case : s_Ny (d_slm ex4) <> 1%nat /\ s_Nx (d_slm ex4) <> 1%nat /\ misfits (d_slm ex4) (AConstR (T2 3 4 (fun i j => INR (i + j)))).
Proof.
  split; [cbn; lia|]. split; [cbn; lia|]. exists 3%nat, 4%nat. split; [left; eexists; right; reflexivity|]. intros [[H|H] _]; cbn in H; lia.
Qed.
(** Arrays with one row or one column are repeated. *)
Theorem C83_single_rows_and_columns_repeat : forall h d a b c f y x m kw u, let s := d_slm d in fits s y x ->
  (exists B, reads h s b B) -> (exists B, reads h s c B) -> (a = AConstR (T2 y x f) \/ a = ATensorR (T2 y x f)) ->
  let r := set_dmd_grating_state h d a b c m kw u in
  let r' := set_dmd_grating_state h d (AConstR (T2 (s_Ny s) (s_Nx s) (repeated y x f))) b c m kw u in
  snd r = snd r' /\ same_state (d_state (fst r)) (d_state (fst r')).
Proof. exact single_rows_repeat. Qed.
Print Assumptions C83_single_rows_and_columns_repeat.
(** IFTA: an input or window of one row or column is that row or column repeated. *)
Theorem C83_ifta_rows_repeat : forall h d amp pin pout A B D F y x W a b y' x' kw kw' u, let s := d_slm d in reads h s amp A -> reads h s pin B -> reads h s pout D ->
  fits s y x -> fits s y' x' -> k_N kw = k_N kw' -> k_s kw = k_s kw' ->
  k_input kw = Some (AConstC (T2 y x F)) -> k_window kw = Some (AConstC (T2 y' x' W)) ->
  k_input kw' = Some (AConstC (T2 (s_Ny s) (s_Nx s) (repeated y x F))) -> k_window kw' = Some (AConstC (T2 (s_Ny s) (s_Nx s) (repeated y' x' W))) ->
  a = set_dmd_grating_state h d amp pin pout MIfta kw u -> b = set_dmd_grating_state h d amp pin pout MIfta kw' u ->
  snd a = Ok tt /\ snd b = Ok tt /\ same_state (d_state (fst a)) (d_state (fst b)).
Proof. exact set_ifta_repeats. Qed.
Print Assumptions C83_ifta_rows_repeat.
(** The same for the input and both windows of calculate_dmd_state. *)
Theorem C83_input_rows_repeat : forall h d F y x target t m kw u, let s := d_slm d in fits s y x -> full_target h s target t ->
  (m = MIfta -> exists v y' x' W, k_window kw = Some v /\ (v = AConstC (T2 y' x' W) \/ v = ATensorC (T2 y' x' W)) /\ fits s y' x') ->
  let r := calculate_dmd_state h d (AConstC (T2 y x F)) target m None kw u in
  let r' := calculate_dmd_state h d (AConstC (T2 (s_Ny s) (s_Nx s) (repeated y x F))) target m None kw u in
  snd r = snd r' /\ same_state (d_state (fst r)) (d_state (fst r')).
Proof. exact calc_input_repeats. Qed.
Print Assumptions C83_input_rows_repeat.
Theorem C83_window_rows_repeat : forall h d input F target t m w y x ww kw kw' y' x' W u, let s := d_slm d in full_input h s input F -> full_target h s target t ->
  fits s y x -> w = AConstC (T2 y x ww) -> fits s y' x' -> k_window kw = Some (AConstC (T2 y' x' W)) ->
  k_window kw' = Some (AConstC (T2 (s_Ny s) (s_Nx s) (repeated y' x' W))) -> k_N kw = k_N kw' -> k_s kw = k_s kw' -> k_r kw = k_r kw' ->
  let r := calculate_dmd_state h d input target m (Some w) kw u in
  let r' := calculate_dmd_state h d input target m (Some (AConstC (T2 (s_Ny s) (s_Nx s) (repeated y x ww)))) kw' u in
  snd r = snd r' /\ same_state (d_state (fst r)) (d_state (fst r')).
Proof. exact calc_window_repeats. Qed.
Print Assumptions C83_window_rows_repeat.
Example C83_window_case : fits (d_slm ex4) 1 4 /\ fits (d_slm ex4) 2 1 /\ full_input ex_heap (d_slm ex4) in4 F4 /\
  exists t, profile_to_tensor_c ex_heap (d_slm ex4) (AConstC (T2 2 4 (fun i j => RtoC (INR (i + j))))) false = Ok (T2 (s_Ny (d_slm ex4)) (s_Nx (d_slm ex4)) t).
Proof. split; [split; [right; reflexivity|left; reflexivity]|]. split; [split; [left; reflexivity|right; reflexivity]|]. split; [apply ex4_reads|]. eexists. reflexivity. Qed.
(** The keyword arrays of set_dmd_grating_state and circular_patch are not converted: real arrays and profile objects are refused. *)
Theorem C83_ifta_refuses_real_arrays_and_profiles : forall h d a b c kw u, ~ (is_complex_array (k_window kw) /\ complex_or_number (k_input kw)) ->
  (exists e, set_dmd_grating_state h d a b c MIfta kw u = (d, Err e)) /\ forall ci cj dm, exists e, circular_patch h d ci cj a b c dm MIfta kw u = (d, Err e).
Proof. exact ifta_rejects_kinds. Qed.
Print Assumptions C83_ifta_refuses_real_arrays_and_profiles.
Example C83_kinds_case : ~ complex_or_number (Some (AConstR (T2 2 4 (fun i j => INR (i + j))))) /\ complex_or_number (Some (AConstR (T0 1))) /\ is_complex_array (Some tg4).
Proof.
  split; [|split; [right; right; exists 1; reflexivity|unfold tg4; do 3 eexists; right; reflexivity]].
  intros [(y & x & f & [H|H])|[(z & [H|H])|(r & H)]]; discriminate H.
Qed.
(** A target of one row is a line through the axis, not that row repeated. *)
Theorem C83_target_of_one_row_is_a_line : forall h d input F t m kw u, let s := d_slm d in (0 < s_Ny s)%nat -> full_input h s input F ->
  let r := calculate_dmd_state h d input (AConstC (T2 1 (s_Nx s) t)) m None kw u in
  let r' := calculate_dmd_state h d input (AConstC (T2 (s_Ny s) (s_Nx s) (line (s_Ny s) (t 0%nat)))) m None kw u in
  snd r = snd r' /\ same_state (d_state (fst r)) (d_state (fst r')).
Proof. exact row_target. Qed.
Print Assumptions C83_target_of_one_row_is_a_line.
Example C83_rows_case : fits (d_slm ex4) 1 4 /\ (exists B, reads ex_heap (d_slm ex4) (AConstR (T0 1)) B) /\ (0 < s_Ny (d_slm ex4))%nat /\ full_input ex_heap (d_slm ex4) in4 F4 /\
  snd (set_dmd_grating_state ex_heap ex4 (AConstR (T2 1 4 (fun _ j => INR j))) (AConstR (T0 1)) (AConstR (T0 0)) MSimple no_kwargs (fun _ _ => 0)) = Ok tt.
Proof.
  split; [split; [right; reflexivity|left; reflexivity]|]. split; [eexists; apply reads_const|]. split; [cbn; lia|]. split; [apply ex4_reads|].
  assert (R := set_repeats ex_heap ex4 (AConstR (T2 1 4 (fun _ j => INR j))) (AConstR (T0 1)) (AConstR (T0 0)) (fun _ j => INR j) 1 4 MSimple no_kwargs (fun _ _ => 0)).
  cbv zeta in R. destruct R as [-> _]; [split; [right; reflexivity|left; reflexivity]|eexists; split; [reflexivity|exact I]|eexists; split; [reflexivity|exact I]|left; reflexivity|].
  assert (HA : reads ex_heap (d_slm ex4) (AConstR (T2 2 4 (repeated 1 4 (fun _ j => INR j)))) (repeated 1 4 (fun _ j => INR j))).
  { eexists. split; [reflexivity|]. split; [right; reflexivity|]. intros i j Hi Hj. apply (tget_T2 2 4); assumption. }
  destruct (set_simple ex_heap ex4 _ _ _ _ _ _ HA (reads_const ex_heap (d_slm ex4) 1) (reads_const ex_heap (d_slm ex4) 0) (proj1 (proj2 (proj2 (proj2 ex4_reads)))) no_kwargs (fun _ _ => 0)) as (d' & f & E & _).
  cbn [ex4 dmd_new d_slm s_Ny s_Nx] in *. rewrite E. reflexivity.
Qed.

(** ** C84 *)
Theorem C84_state_has_the_shape_of_the_input : forall h l i t m kw u l', calculate_hologram h l i t m kw u = (l', Ok tt) ->
  exists y x F, profile_to_tensor_c h (l_slm l) i true = Ok (T2 y x F) /\ lstate_shape (l_state l') = (y, x).
Proof. exact holo_shape_input. Qed.
Print Assumptions C84_state_has_the_shape_of_the_input.
Theorem C84_misfits_beside_a_full_input_are_rejected : forall h l i t m kw u F, let s := l_slm l in full_input h s i F ->
  misfits s t \/ (m = MMraf /\ misfits_opt s (lk_window kw)) -> exists e, calculate_hologram h l i t m kw u = (l, Err e).
Proof. exact holo_rejects. Qed.
Print Assumptions C84_misfits_beside_a_full_input_are_rejected.
(** Targets and windows of one row or column are repeated. *)
Theorem C84_single_rows_and_columns_repeat : forall h l input F y x t y' x' W m kw kw' u, let s := l_slm l in full_input h s input F -> fits s y x -> fits s y' x' -> m <> MLUnknown ->
  lk_N kw = lk_N kw' -> lk_mix kw = lk_mix kw' -> lk_window kw = Some (AConstC (T2 y' x' W)) -> lk_window kw' = Some (AConstC (T2 (s_Ny s) (s_Nx s) (repeated y' x' W))) ->
  exists phi phi', calculate_hologram h l input (AConstR (T2 y x t)) m kw u = ({| l_slm := s; l_state := LReal (s_Ny s) (s_Nx s) phi |}, Ok tt) /\
    calculate_hologram h l input (AConstR (T2 (s_Ny s) (s_Nx s) (repeated y x t))) m kw' u = ({| l_slm := s; l_state := LReal (s_Ny s) (s_Nx s) phi' |}, Ok tt) /\
    forall i j, (i < s_Ny s)%nat -> (j < s_Nx s)%nat -> phi i j = phi' i j.
Proof. exact holo_repeats. Qed.
Print Assumptions C84_single_rows_and_columns_repeat.
Example C84_case : full_input ex_heap slm3 flat3 (fun _ _ => RtoC 1) /\ misfits slm3 (AConstR (T2 1 2 (fun _ _ => 1))).
Proof. split; [reflexivity|]. exists 1%nat, 2%nat. split; [left; eexists; right; reflexivity|]. intros [_ [H|H]]; cbn in H; lia. Qed.
Theorem C84_misfits_are_rejected_refuted : exists h l i t kw u l', misfits (l_slm l) i /\ misfits (l_slm l) t /\
  calculate_hologram h l i t MGs kw u = (l', Ok tt) /\
  forall h' m input F, full_input h' (l_slm l) input F -> exists e, snd (propagate_to_image h' (DevLcos l') m input) = Err e.
Proof. exact holo_misfit_accepted. Qed.
Print Assumptions C84_misfits_are_rejected_refuted.

(** ** C85 *)
Theorem C85_outcome_ignores_the_grating : forall h d e, d_slm e = d_slm d ->
  (forall a b c m kw u, snd (set_dmd_grating_state h e a b c m kw u) = snd (set_dmd_grating_state h d a b c m kw u)) /\
  (forall i t m w kw u, snd (calculate_dmd_state h e i t m w kw u) = snd (calculate_dmd_state h d i t m w kw u)).
Proof. exact outcomes. Qed.
Print Assumptions C85_outcome_ignores_the_grating.
Theorem C85_zero_period_gives_blank_patterns : forall h d, d_p d = 0 ->
  (forall a b c m kw u d', set_dmd_grating_state h d a b c m kw u = (d', Ok tt) ->
     forall i j, (i < fst (state_shape (d_state d')))%nat -> (j < snd (state_shape (d_state d')))%nat ->
     cell_at (d_state d') i j = if binary m then CBool false else CFloat NaN) /\
  (forall i t m w kw u d' eta, calculate_dmd_state h d i t m w kw u = (d', Ok eta) ->
     forall i j, (i < fst (state_shape (d_state d')))%nat -> (j < snd (state_shape (d_state d')))%nat ->
     cell_at (d_state d') i j = if binary m then CBool false else CFloat NaN).
Proof. exact zero_period_blank. Qed.
Print Assumptions C85_zero_period_gives_blank_patterns.
Theorem C85_zero_period_blocks_everything : forall d m f X Y, d_p d = 0 -> scaling_factor (d_slm d) <> 0 -> f_output m <> None ->
  field_is (f_image m) (NY (d_slm d) m) (NX (d_slm d) m) f ->
  grid_is (image_plane_padded_grid (d_slm d) m) (NY (d_slm d) m) (NX (d_slm d) m) X Y ->
  (forall x y, first_order_origin d <> (Fin x, Fin y)) /\
  exists m', block_zeroth_order d m None = (m', Ok tt) /\ field_is (f_image m') (NY (d_slm d) m) (NX (d_slm d) m) (fun _ _ => RtoC 0).
Proof. exact zero_period_blocks. Qed.
Print Assumptions C85_zero_period_blocks_everything.
(** A simulation result of a device with period 0. *)
Definition ex_zero : dmd := {| d_slm := d_slm ex_dmd; d_p := 0; d_theta := d_theta ex_dmd; d_neg := d_neg ex_dmd; d_state := d_state ex_dmd |}.
Example C85_case : d_p ex_zero = 0 /\ scaling_factor (d_slm ex_zero) <> 0 /\ exists m' f, propagate_to_image ex_heap (DevDmd ex_zero) ex_sim ex_input = (m', Ok tt) /\
  f_output m' <> None /\ field_is (f_image m') (NY (d_slm ex_zero) m') (NX (d_slm ex_zero) m') f.
Proof.
  split; [reflexivity|]. assert (HS := state_bool ex_zero _ eq_refl).
  destruct (ex_runs (DevDmd ex_zero) _ HS eq_refl) as (H1 & (m' & H2) & _). 
  destruct (propagate_inv ex_heap (DevDmd ex_zero) ex_sim ex_input _ _ m' H1 HS H2) as (_ & _ & Hs & Ex & Ey & _ & Ho & Hi). split; [exact Hs|].
  assert (E1 : NY (d_slm ex_zero) m' = NY (d_slm ex_zero) ex_sim) by (unfold NY; rewrite Ey; reflexivity).
  assert (E2 : NX (d_slm ex_zero) m' = NX (d_slm ex_zero) ex_sim) by (unfold NX; rewrite Ex; reflexivity).
  do 2 eexists. split; [exact H2|]. rewrite E1, E2. split; [|exact Hi]. destruct (f_output m'); [discriminate|contradiction].
Qed.
(** A device built with periodicity 0 computes a hologram, reports a positive efficiency and leaves every mirror off. *)
Theorem C85_zero_period_is_refused_refuted : exists h wl fl th Nx Ny ps neg input target kw u d' eta,
  calculate_dmd_state h (dmd_new wl fl 0 th Nx Ny ps neg) input target MSimple None kw u = (d', Ok (Fin eta)) /\ 0 < eta /\ (0 < Nx)%nat /\ (0 < Ny)%nat /\
  state_shape (d_state d') = (Ny, Nx) /\ forall i j, (i < Ny)%nat -> (j < Nx)%nat -> cell_at (d_state d') i j = CBool false.
Proof. exact zero_period_accepted. Qed.
Print Assumptions C85_zero_period_is_refused_refuted.
