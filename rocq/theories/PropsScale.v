(** C89: what the scale parameter s of IFTA does to the diffraction efficiency. *)
From Coq Require Import Reals Lra ZArith Arith List Bool Lia.
From Coquelicot Require Import Hierarchy RInt Complex.
From Verif Require Import Cx Sums PyBase ProfileModel SlmModel LibModel DmdModel SimModel SimSpec GridFacts SimExamples DmdSpec HoloSpec AmpFacts5 DmdExamples RandomFacts ScaleFacts.
Open Scope R_scope.

(** The documentation: "One may increase this parameter to increase the overall diffraction efficiency of the hologram."  Here the
    efficiency is the one observed: the intensity at the pixel of the simulated image that lies at the first diffraction order. *)
Theorem C89_raising_s_raises_the_first_order_refuted : ~ forall h d amp pin pout kw kw' u d1 d2 a m m1 m2 I1 I2 X Y i j,
  k_input kw' = k_input kw -> k_window kw' = k_window kw -> k_N kw' = k_N kw -> dflt (k_s kw) 1 <= dflt (k_s kw') 1 -> k_input kw = Some a ->
  set_dmd_grating_state h d amp pin pout MIfta kw u = (d1, Ok tt) -> set_dmd_grating_state h d amp pin pout MIfta kw' u = (d2, Ok tt) ->
  propagate_to_image h (DevDmd d1) m a = (m1, Ok tt) -> propagate_to_image h (DevDmd d2) m a = (m2, Ok tt) ->
  field_is (f_image m1) (NY (d_slm d) m) (NX (d_slm d) m) I1 -> field_is (f_image m2) (NY (d_slm d) m) (NX (d_slm d) m) I2 ->
  grid_is (image_plane_padded_grid (d_slm d) m) (NY (d_slm d) m) (NX (d_slm d) m) X Y ->
  (i < NY (d_slm d) m)%nat -> (j < NX (d_slm d) m)%nat -> first_order_origin d = (Fin (X i j), Fin (Y i j)) ->
  Cmod (I1 i j) <= Cmod (I2 i j).
Proof. exact raising_s_refuted. Qed.
Print Assumptions C89_raising_s_raises_the_first_order_refuted.
(** The returned efficiency is no help: it depends neither on s nor on anything else of the binarisation. *)
Theorem C89_returned_efficiency_ignores_s : forall h d input target w me me' kw kw' u u' e e',
  snd (calculate_dmd_state h d input target me w kw u) = Ok e -> snd (calculate_dmd_state h d input target me' w kw' u') = Ok e' -> e = e'.
Proof. exact efficiency_ignores. Qed.
Print Assumptions C89_returned_efficiency_ignores_s.
(** What does hold: with a uniform correction a larger s never switches a mirror off. *)
Theorem C89_raising_s_switches_mirrors_on : forall h d amp pin pout P Pi Po F A c V a kw kw' u, let s := d_slm d in
  reads h s amp P -> reads h s pin Pi -> reads h s pout Po -> d_p d <> 0 -> (forall i j, in_array d i j -> F i j = (RtoC (A i j) * cis c)%C) ->
  complex_array (k_input kw) (T2 (s_Ny s) (s_Nx s) F) -> complex_array (k_input kw') (T2 (s_Ny s) (s_Nx s) F) ->
  complex_array (k_window kw) (T2 (s_Ny s) (s_Nx s) V) -> complex_array (k_window kw') (T2 (s_Ny s) (s_Nx s) V) ->
  0 <= a <= 1 -> (forall u v, in_array d u v -> symmetric_part (s_Ny s) (s_Nx s) V u v = RtoC a) -> dflt (k_s kw) 1 <= dflt (k_s kw') 1 ->
  exists f f', set_dmd_grating_state h d amp pin pout MIfta kw u = (with_state d (DBool (s_Ny s) (s_Nx s) f), Ok tt) /\
    set_dmd_grating_state h d amp pin pout MIfta kw' u = (with_state d (DBool (s_Ny s) (s_Nx s) f'), Ok tt) /\
    forall i j, in_array d i j -> F i j <> RtoC 0 -> 0 <= P i j -> f i j = true -> f' i j = true.
Proof. exact scale_grows. Qed.
Print Assumptions C89_raising_s_switches_mirrors_on.
(** And the first harmonic of one thresholded fringe of scaled amplitude a grows up to a = 1 and falls strictly from there on. *)
Theorem C89_first_harmonic_peaks_at_one : forall a b Ha Hb,
  let fringe a t := (if Rlt_dec (1 / 2) (a * (cos t / 2 + 1 / 2)) then 1 else 0) * cos t in
  is_RInt (fringe a) (- PI) PI Ha -> is_RInt (fringe b) (- PI) PI Hb ->
  (0 <= a < b -> b <= 1 -> 1 / 2 < b -> Ha < Hb) /\ (1 <= a < b -> 0 < Hb < Ha).
Proof. exact fringe_peak. Qed.
Print Assumptions C89_first_harmonic_peaks_at_one.
Example C89_case : forall u, reads ex_heap (d_slm three) (AConstR (T0 1)) (fun _ _ => 1) /\ d_p three <> 0 /\ (forall i j, flat3' i j = (RtoC 1 * cis 0)%C) /\
  complex_array (k_input (kw3 1 2)) (T2 1 3 flat3') /\ complex_array (k_window (kw3 1 2)) (T2 1 3 flat3') /\
  (forall u v, symmetric_part 1 3 flat3' u v = RtoC 1) /\
  exists f, set_dmd_grating_state ex_heap three (AConstR (T0 1)) (AConstR (T0 0)) (AConstR (T0 PI)) MIfta (kw3 1 2) u = (with_state three (DBool 1 3 f), Ok tt) /\ f 0%nat 0%nat = true /\ f 0%nat 1%nat = false.
Proof.
  intros u. split; [apply DmdFacts2.reads_const|]. split; [cbn; lra|]. split; [intros; unfold flat3'; rewrite cis_0; ring|]. split; [right; reflexivity|]. split; [right; reflexivity|]. split.
  - intros a b. unfold symmetric_part, flat3', cconj, RtoC, Cdiv, Cplus, Cinv, Cmult. cbn [fst snd]. f_equal; field.
  - destruct (three_pattern 1 2 u) as (f & E & H1 & H2 & _). exists f. split; [exact E|]. split; [apply H1; lra|]. apply Bool.not_true_is_false. intros T. apply H2 in T. lra.
Qed.
Example C89_fringe_case : exists H1 H3, is_RInt (fun t => (if Rlt_dec (1 / 2) (1 * (cos t / 2 + 1 / 2)) then 1 else 0) * cos t) (- PI) PI H1 /\
  is_RInt (fun t => (if Rlt_dec (1 / 2) (3 * (cos t / 2 + 1 / 2)) then 1 else 0) * cos t) (- PI) PI H3 /\ H3 < H1.
Proof.
  assert (A := threshold_harmonic 1 ltac:(lra)). assert (B := threshold_harmonic 3 ltac:(lra)). eexists. eexists. split; [exact A|]. split; [exact B|]. exact (proj2 (proj2 (fringe_peak 1 3 _ _ A B) ltac:(lra))).
Qed.
