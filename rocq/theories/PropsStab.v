(** C87: errors of pattern, beam and target do not grow. *)
From Coq Require Import Reals Lra ZArith Arith List Bool Lia.
From Coquelicot Require Import Complex.
From Verif Require Import Cx Sums PyBase ProfileModel SlmModel LibModel DmdModel SimModel SimSpec GridFacts SimFacts SimFacts2 SimExamples DmdSpec DmdFacts2 DmdExamples StabFacts.
Open Scope R_scope.

(** ** C87 *)
Theorem C87_image_error_power : forall h h' dev dev' m a a' F F' S S' n n' I I', dev_slm dev' = dev_slm dev ->
  full_input h (dev_slm dev) a F -> full_input h' (dev_slm dev) a' F' -> full_state dev S -> full_state dev' S' ->
  propagate_to_image h dev m a = (n, Ok tt) -> propagate_to_image h' dev' m a' = (n', Ok tt) ->
  field_is (f_image n) (NY (dev_slm dev) m) (NX (dev_slm dev) m) I -> field_is (f_image n') (NY (dev_slm dev) m) (NX (dev_slm dev) m) I' ->
  (0 < s_Nx (dev_slm dev))%nat -> (0 < s_Ny (dev_slm dev))%nat -> pixel_size (dev_slm dev) <> 0 ->
  power_of (scaling_factor (dev_slm dev) ^ 2 / (INR (NX (dev_slm dev) m) * INR (NY (dev_slm dev) m) * pixel_size (dev_slm dev) ^ 2)) (NY (dev_slm dev) m) (NX (dev_slm dev) m) (fun u v => (I u v - I' u v)%C)
  = power_of (pixel_size (dev_slm dev) ^ 2) (s_Ny (dev_slm dev)) (s_Nx (dev_slm dev)) (fun i j => (F i j * S i j - F' i j * S' i j)%C).
Proof. exact error_power. Qed.
Print Assumptions C87_image_error_power.
Theorem C87_image_error_pointwise : forall h h' dev dev' m a a' F F' S S' n n' I I', dev_slm dev' = dev_slm dev ->
  full_input h (dev_slm dev) a F -> full_input h' (dev_slm dev) a' F' -> full_state dev S -> full_state dev' S' ->
  propagate_to_image h dev m a = (n, Ok tt) -> propagate_to_image h' dev' m a' = (n', Ok tt) ->
  field_is (f_image n) (NY (dev_slm dev) m) (NX (dev_slm dev) m) I -> field_is (f_image n') (NY (dev_slm dev) m) (NX (dev_slm dev) m) I' ->
  (0 < s_Nx (dev_slm dev))%nat -> (0 < s_Ny (dev_slm dev))%nat -> pixel_size (dev_slm dev) <> 0 ->
  forall u v, (u < NY (dev_slm dev) m)%nat -> (v < NX (dev_slm dev) m)%nat ->
  Cmod (I u v - I' u v)%C <= Rabs (pixel_size (dev_slm dev) ^ 2 / (wavelength (dev_slm dev) * focal_length (dev_slm dev)))
    * rsum2 (s_Ny (dev_slm dev)) (s_Nx (dev_slm dev)) (fun i j => Cmod (F i j * S i j - F' i j * S' i j)%C).
Proof. exact error_pointwise. Qed.
Print Assumptions C87_image_error_pointwise.
Theorem C87_wrong_mirrors : forall h d d' m a b b' F n n' I I', d_slm d' = d_slm d -> d_state d = DBool (s_Ny (d_slm d)) (s_Nx (d_slm d)) b ->
  d_state d' = DBool (s_Ny (d_slm d)) (s_Nx (d_slm d)) b' -> full_input h (d_slm d) a F ->
  propagate_to_image h (DevDmd d) m a = (n, Ok tt) -> propagate_to_image h (DevDmd d') m a = (n', Ok tt) ->
  field_is (f_image n) (NY (d_slm d) m) (NX (d_slm d) m) I -> field_is (f_image n') (NY (d_slm d) m) (NX (d_slm d) m) I' ->
  (0 < s_Nx (d_slm d))%nat -> (0 < s_Ny (d_slm d))%nat -> pixel_size (d_slm d) <> 0 ->
  power_of (scaling_factor (d_slm d) ^ 2 / (INR (NX (d_slm d) m) * INR (NY (d_slm d) m) * pixel_size (d_slm d) ^ 2)) (NY (d_slm d) m) (NX (d_slm d) m) (fun u v => (I u v - I' u v)%C)
  = pixel_size (d_slm d) ^ 2 * rsum2 (s_Ny (d_slm d)) (s_Nx (d_slm d)) (fun i j => if Bool.eqb (b i j) (b' i j) then 0 else Cmod (F i j) ^ 2).
Proof. exact wrong_mirrors. Qed.
Print Assumptions C87_wrong_mirrors.
Theorem C87_ideal_grating_lipschitz : forall h h' d amp pin pout amp' pin' pout' A Pi Po A' Pi' Po' kw kw' u u',
  reads h (d_slm d) amp A -> reads h (d_slm d) pin Pi -> reads h (d_slm d) pout Po ->
  reads h' (d_slm d) amp' A' -> reads h' (d_slm d) pin' Pi' -> reads h' (d_slm d) pout' Po' -> d_p d <> 0 ->
  exists g g', set_dmd_grating_state h d amp pin pout MIdeal kw u = (with_state d (DFloat (s_Ny (d_slm d)) (s_Nx (d_slm d)) g), Ok tt) /\
    set_dmd_grating_state h' d amp' pin' pout' MIdeal kw' u' = (with_state d (DFloat (s_Ny (d_slm d)) (s_Nx (d_slm d)) g'), Ok tt) /\
    forall i j, in_array d i j -> exists r r', g i j = Fin r /\ g' i j = Fin r' /\
      Rabs (r - r') <= Rabs (A i j - A' i j) + Rabs (A i j) * (Rabs (Pi i j - Pi' i j) + Rabs (Po i j - Po' i j)) / 2.
Proof. exact ideal_lipschitz. Qed.
Print Assumptions C87_ideal_grating_lipschitz.
Theorem C87_simple_mirrors_keep_with_margin : forall h h' d amp pin pout amp' pin' pout' A Pi Po A' Pi' Po' kw kw' u u',
  reads h (d_slm d) amp A -> reads h (d_slm d) pin Pi -> reads h (d_slm d) pout Po ->
  reads h' (d_slm d) amp' A' -> reads h' (d_slm d) pin' Pi' -> reads h' (d_slm d) pout' Po' -> d_p d <> 0 ->
  exists f f' g, set_dmd_grating_state h d amp pin pout MSimple kw u = (with_state d (DBool (s_Ny (d_slm d)) (s_Nx (d_slm d)) f), Ok tt) /\
    set_dmd_grating_state h' d amp' pin' pout' MSimple kw' u' = (with_state d (DBool (s_Ny (d_slm d)) (s_Nx (d_slm d)) f'), Ok tt) /\
    set_dmd_grating_state h d amp pin pout MIdeal kw u = (with_state d (DFloat (s_Ny (d_slm d)) (s_Nx (d_slm d)) g), Ok tt) /\
    forall i j, in_array d i j -> exists r, g i j = Fin r /\
      (Rabs (A i j - A' i j) + Rabs (A i j) * (Rabs (Pi i j - Pi' i j) + Rabs (Po i j - Po' i j)) / 2 < Rabs (r - 1 / 2) -> f i j = f' i j).
Proof. exact simple_margin. Qed.
Print Assumptions C87_simple_mirrors_keep_with_margin.
(** All mirrors on against the example pattern: both propagate, and at least one mirror differs. *)
Example C87_case : exists b n n', d_state ex_dmd = DBool (s_Ny (d_slm ex_dmd)) (s_Nx (d_slm ex_dmd)) b /\
  d_state (set_dmd_state_on ex_dmd) = DBool (s_Ny (d_slm ex_dmd)) (s_Nx (d_slm ex_dmd)) (fun _ _ => true) /\ full_input ex_heap (d_slm ex_dmd) ex_input ex_field /\
  propagate_to_image ex_heap (DevDmd ex_dmd) ex_sim ex_input = (n, Ok tt) /\ propagate_to_image ex_heap (DevDmd (set_dmd_state_on ex_dmd)) ex_sim ex_input = (n', Ok tt) /\
  (exists i j, (i < 2)%nat /\ (j < 3)%nat /\ b i j = false /\ ex_field i j <> RtoC 0).
Proof.
  destruct (ex_runs (DevDmd ex_dmd) _ (state_bool ex_dmd _ eq_refl) eq_refl) as (H1 & (n & H2) & _).
  destruct (ex_runs (DevDmd (set_dmd_state_on ex_dmd)) _ (state_bool (set_dmd_state_on ex_dmd) (fun _ _ => true) eq_refl) eq_refl) as (_ & (n' & H3) & _).
  do 3 eexists. split; [reflexivity|]. split; [reflexivity|]. split; [exact H1|]. split; [exact H2|]. split; [exact H3|].
  exists 1%nat, 0%nat. repeat split; try lia. cbn. intros E. injection E. lra.
Qed.
(** An amplitude error of 1/20 and a phase error of 1/10 leave the mirror in the middle of the array on. *)
Example C87_margin_case : exists f f', set_dmd_grating_state ex_heap ex4 (AConstR (T0 1)) (AConstR (T0 0)) (AConstR (T0 0)) MSimple no_kwargs (fun _ _ => 0) = (with_state ex4 (DBool 2 4 f), Ok tt) /\
  set_dmd_grating_state ex_heap ex4 (AConstR (T0 (19 / 20))) (AConstR (T0 0)) (AConstR (T0 (1 / 10))) MSimple no_kwargs (fun _ _ => 0) = (with_state ex4 (DBool 2 4 f'), Ok tt) /\
  f 1%nat 2%nat = true /\ f' 1%nat 2%nat = true.
Proof.
  assert (K := fun c => reads_const ex_heap (d_slm ex4) c). assert (P : d_p ex4 <> 0) by (cbn; lra).
  destruct (simple_margin ex_heap ex_heap ex4 _ _ _ _ _ _ _ _ _ _ _ _ no_kwargs no_kwargs (fun _ _ => 0) (fun _ _ => 0) (K 1) (K 0) (K 0) (K (19 / 20)) (K 0) (K (1 / 10)) P) as (f & f' & g & E1 & E2 & E3 & H).
  destruct (set_ideal ex_heap ex4 _ _ _ _ _ _ (K 1) (K 0) (K 0) P no_kwargs (fun _ _ => 0)) as (d2 & g2 & E4 & -> & V2).
  destruct (set_simple ex_heap ex4 _ _ _ _ _ _ (K 1) (K 0) (K 0) P no_kwargs (fun _ _ => 0)) as (d3 & f3 & E5 & -> & V3).
  assert (Z : carrier ex4 1 2 = 0) by (unfold carrier, mirror_x, mirror_y; cbn; lra).
  rewrite E1 in E5. injection E5 as <-. rewrite E3 in E4. injection E4 as <-.
  assert (T : f 1%nat 2%nat = true). { apply V3; [cbn; lia|cbn; lia|]. rewrite Z. cbn [ex4 dmd_new d_neg signed]. rewrite !Rminus_0_r, cos_0. lra. }
  destruct (H 1%nat 2%nat) as (r & Hr & M); [split; cbn; lia|]. rewrite V2 in Hr by (cbn; lia). injection Hr as Hr. rewrite Z in Hr. cbn [ex4 dmd_new d_neg signed] in Hr. rewrite !Rminus_0_r, cos_0 in Hr.
  exists f, f'. split; [exact E1|]. split; [exact E2|]. split; [exact T|]. rewrite <- M; [exact T|]. subst r.
  rewrite !Rminus_0_r, Rabs_R0, (Rabs_left (0 - 1 / 10)) by lra. rewrite !Rabs_pos_eq by lra. lra.
Qed.
