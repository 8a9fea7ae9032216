(** C90: the thresholded hologram is the mirror pattern with the least total image error. *)
From Coq Require Import Reals Lra ZArith Arith List Bool Lia.
From Coquelicot Require Import Complex.
From Verif Require Import Cx Sums PyBase ProfileModel SlmModel LibModel DmdModel SimModel SimSpec GridFacts SimFacts SimFacts2 SimExamples DmdSpec DmdFacts2 AmpFacts5 DmdExamples HoloSpec BestFacts.
Open Scope R_scope.

(** [difference_power s m I I'] is the power of the difference of two simulated images (pixel area as in C03). *)
Theorem C90_simple_grating_is_nearest : forall h d amp pin pout A Pi Po kw u kw' u' db b m a F nf ng nb If Ig Ib, let s := d_slm d in
  reads h s amp A -> reads h s pin Pi -> reads h s pout Po -> d_p d <> 0 -> full_input h s a F -> d_slm db = s -> d_state db = DBool (s_Ny s) (s_Nx s) b ->
  (0 < s_Nx s)%nat -> (0 < s_Ny s)%nat -> pixel_size s <> 0 ->
  propagate_to_image h (DevDmd (fst (set_dmd_grating_state h d amp pin pout MSimple kw u))) m a = (nf, Ok tt) ->
  propagate_to_image h (DevDmd (fst (set_dmd_grating_state h d amp pin pout MIdeal kw' u'))) m a = (ng, Ok tt) ->
  propagate_to_image h (DevDmd db) m a = (nb, Ok tt) ->
  field_is (f_image nf) (NY s m) (NX s m) If -> field_is (f_image ng) (NY s m) (NX s m) Ig -> field_is (f_image nb) (NY s m) (NX s m) Ib ->
  difference_power s m If Ig <= difference_power s m Ib Ig /\
  ((exists i j f, in_array d i j /\ F i j <> RtoC 0 /\ d_state (fst (set_dmd_grating_state h d amp pin pout MSimple kw u)) = DBool (s_Ny s) (s_Nx s) f /\ f i j <> b i j /\
      A i j * (cos (carrier d i j - signed (d_neg d) (Po i j - Pi i j)) / 2 + 1 / 2) <> 1 / 2) -> difference_power s m If Ig < difference_power s m Ib Ig).
Proof. exact simple_best. Qed.
Print Assumptions C90_simple_grating_is_nearest.
Theorem C90_simple_hologram_is_nearest : forall h d input target w T W kw u kw' u' db b m F nf ng nb If Ig Ib, let s := d_slm d in
  full_input h s input F -> full_target h s target T -> window_reads h s w W -> d_p d <> 0 -> (0 < s_Nx s)%nat -> (0 < s_Ny s)%nat -> pixel_size s <> 0 -> scaling_factor s <> 0 ->
  (forall i j, in_array d i j -> F i j = RtoC 0 -> windowed d T W i j = RtoC 0) -> (exists i j, in_array d i j /\ windowed d T W i j <> RtoC 0) ->
  d_slm db = s -> d_state db = DBool (s_Ny s) (s_Nx s) b ->
  propagate_to_image h (DevDmd (fst (calculate_dmd_state h d input target MSimple w kw u))) m input = (nf, Ok tt) ->
  propagate_to_image h (DevDmd (fst (calculate_dmd_state h d input target MIdeal w kw' u'))) m input = (ng, Ok tt) ->
  propagate_to_image h (DevDmd db) m input = (nb, Ok tt) ->
  field_is (f_image nf) (NY s m) (NX s m) If -> field_is (f_image ng) (NY s m) (NX s m) Ig -> field_is (f_image nb) (NY s m) (NX s m) Ib ->
  difference_power s m If Ig <= difference_power s m Ib Ig.
Proof. exact hologram_best. Qed.
Print Assumptions C90_simple_hologram_is_nearest.
(** IFTA with a window of constant symmetric part is as good, so its advantage lies in the window alone. *)
Theorem C90_ifta_without_window_is_nearest : forall h d amp pin pout P Pi Po kw u kw' u' db b m a F A c V al nf ng nb If Ig Ib, let s := d_slm d in
  reads h s amp P -> reads h s pin Pi -> reads h s pout Po -> d_p d <> 0 -> full_input h s a F -> (forall i j, in_array d i j -> F i j = (RtoC (A i j) * cis c)%C) ->
  complex_array (k_input kw) (T2 (s_Ny s) (s_Nx s) F) -> complex_array (k_window kw) (T2 (s_Ny s) (s_Nx s) V) -> dflt (k_s kw) 1 = 1 ->
  0 <= al <= 1 -> (forall u v, in_array d u v -> symmetric_part (s_Ny s) (s_Nx s) V u v = RtoC al) ->
  d_slm db = s -> d_state db = DBool (s_Ny s) (s_Nx s) b -> (0 < s_Nx s)%nat -> (0 < s_Ny s)%nat -> pixel_size s <> 0 ->
  propagate_to_image h (DevDmd (fst (set_dmd_grating_state h d amp pin pout MIfta kw u))) m a = (nf, Ok tt) ->
  propagate_to_image h (DevDmd (fst (set_dmd_grating_state h d amp pin pout MIdeal kw' u'))) m a = (ng, Ok tt) ->
  propagate_to_image h (DevDmd db) m a = (nb, Ok tt) ->
  field_is (f_image nf) (NY s m) (NX s m) If -> field_is (f_image ng) (NY s m) (NX s m) Ig -> field_is (f_image nb) (NY s m) (NX s m) Ib ->
  difference_power s m If Ig <= difference_power s m Ib Ig.
Proof. exact ifta_best. Qed.
Print Assumptions C90_ifta_without_window_is_nearest.
(** Non-trivial: the three patterns of a 3 x 2 DMD can all be simulated, and the all-off pattern differs from the thresholded one at a lit mirror. *)
Example C90_case : exists f nf ng nb, let s := d_slm ex_dmd in
  set_dmd_grating_state ex_heap ex_dmd (AConstR (T0 1)) (AConstR (T0 0)) (AConstR (T0 0)) MSimple no_kwargs (fun _ _ => 0) = (with_state ex_dmd (DBool (s_Ny s) (s_Nx s) f), Ok tt) /\
  full_input ex_heap s ex_input ex_field /\
  propagate_to_image ex_heap (DevDmd (fst (set_dmd_grating_state ex_heap ex_dmd (AConstR (T0 1)) (AConstR (T0 0)) (AConstR (T0 0)) MSimple no_kwargs (fun _ _ => 0)))) ex_sim ex_input = (nf, Ok tt) /\
  propagate_to_image ex_heap (DevDmd (fst (set_dmd_grating_state ex_heap ex_dmd (AConstR (T0 1)) (AConstR (T0 0)) (AConstR (T0 0)) MIdeal no_kwargs (fun _ _ => 0)))) ex_sim ex_input = (ng, Ok tt) /\
  propagate_to_image ex_heap (DevDmd (set_dmd_state_off ex_dmd)) ex_sim ex_input = (nb, Ok tt) /\ d_p ex_dmd <> 0.
Proof.
  assert (Hp : d_p ex_dmd <> 0) by (cbn; lra). assert (HF : full_input ex_heap (d_slm ex_dmd) ex_input ex_field) by reflexivity.
  destruct (set_simple ex_heap ex_dmd _ _ _ _ _ _ (reads_const ex_heap (d_slm ex_dmd) 1) (reads_const _ _ 0) (reads_const _ _ 0) Hp no_kwargs (fun _ _ => 0)) as (d1 & f & E1 & -> & _).
  destruct (set_ideal ex_heap ex_dmd _ _ _ _ _ _ (reads_const ex_heap (d_slm ex_dmd) 1) (reads_const _ _ 0) (reads_const _ _ 0) Hp no_kwargs (fun _ _ => 0)) as (d2 & g & E2 & -> & V2).
  assert (Hs : scaling_factor (d_slm ex_dmd) <> 0) by (unfold scaling_factor; cbn; lra).
  destruct (propagate_succeeds ex_heap (DevDmd (with_state ex_dmd (DBool (s_Ny (d_slm ex_dmd)) (s_Nx (d_slm ex_dmd)) f))) ex_sim ex_input ex_field _ HF (state_bool (with_state ex_dmd (DBool (s_Ny (d_slm ex_dmd)) (s_Nx (d_slm ex_dmd)) f)) f eq_refl)) as [nf Pf]; [cbn; lia|cbn; lia|exact Hs|].
  destruct (propagate_succeeds ex_heap (DevDmd (with_state ex_dmd (DFloat (s_Ny (d_slm ex_dmd)) (s_Nx (d_slm ex_dmd)) g))) ex_sim ex_input ex_field (fun i j => RtoC (xr_val (g i j))) HF (AmpFacts4.state_float_in (with_state ex_dmd (DFloat (s_Ny (d_slm ex_dmd)) (s_Nx (d_slm ex_dmd)) g)) (s_Ny (d_slm ex_dmd)) (s_Nx (d_slm ex_dmd)) g _ eq_refl eq_refl eq_refl V2)) as [ng Pg]; [cbn; lia|cbn; lia|exact Hs|].
  destruct (propagate_succeeds ex_heap (DevDmd (set_dmd_state_off ex_dmd)) ex_sim ex_input ex_field _ HF (state_bool (set_dmd_state_off ex_dmd) (fun _ _ => false) eq_refl)) as [nb Pb]; [cbn; lia|cbn; lia|exact Hs|].
  exists f, nf, ng, nb. cbv zeta. rewrite E1, E2. cbn [fst]. auto 8.
Qed.
