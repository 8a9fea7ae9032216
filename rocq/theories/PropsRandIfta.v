(** C120: IFTA and the random method inside the signal window. *)
From Coq Require Import Reals Lra ZArith Arith List Bool Lia.
From Coquelicot Require Import Complex.
From Verif Require Import Cx Sums PyBase ProfileModel SlmModel LibModel DmdModel SimModel SimSpec SimExamples DmdSpec DmdFacts2 HoloSpec ScaleFacts WinSpec WinExample RandIfta.
Open Scope R_scope.

(** Refuted: in the same beam, IFTA need not come at least as close to the ideal image inside the signal window as the random method does. *)
Theorem C120_ifta_better_refuted : ~ forall h d amp pin pout kw kw' kw2 u u2 m a F V w n n' ng I I' Ig, let s := d_slm d in
  (1 <= dflt (k_N kw) 200)%Z -> dflt (k_s kw) 1 = 1 -> 0 < dflt (k_r kw') 10 -> (forall i j, in_array d i j -> 0 <= u i j < 1) ->
  full_input h s a F -> complex_array (k_input kw) (T2 (s_Ny s) (s_Nx s) F) -> complex_array (k_window kw) (T2 (s_Ny s) (s_Nx s) V) ->
  (forall i j, in_array d i j -> V i j = RtoC (w i j) /\ (w i j = 0 \/ w i j = 1)) -> pad_x m = 0%Z -> pad_y m = 0%Z ->
  propagate_to_image h (DevDmd (fst (set_dmd_grating_state h d amp pin pout MIfta kw u2))) m a = (n, Ok tt) ->
  propagate_to_image h (DevDmd (fst (set_dmd_grating_state h d amp pin pout MRandom kw' u))) m a = (n', Ok tt) ->
  propagate_to_image h (DevDmd (fst (set_dmd_grating_state h d amp pin pout MIdeal kw2 u2))) m a = (ng, Ok tt) ->
  field_is (f_image n) (NY s m) (NX s m) I -> field_is (f_image n') (NY s m) (NX s m) I' -> field_is (f_image ng) (NY s m) (NX s m) Ig ->
  window_difference (s_Ny s) (s_Nx s) w I Ig <= window_difference (s_Ny s) (s_Nx s) w I' Ig.
Proof. exact ifta_not_better. Qed.
Print Assumptions C120_ifta_better_refuted.
(** Not a matter of luck: for every number of iterations N >= 2 there is a grating of three mirrors for which nearly every draw of the random numbers
    (all three between 1 % and 98 %) gives less than a hundredth of the window error of IFTA. *)
Theorem C120_random_beats_every_count : forall N u, (2 <= N)%Z -> (forall j, (j < 3)%nat -> 1 / 100 <= u O j <= 98 / 100) ->
  exists fN fr g nN nr ng IN Ir Ig, let set me := set_dmd_grating_state ex_heap row3 (ampL3 N) none3 phaseL3 me (kwin3 N) u in
  let sim d n I := propagate_to_image ex_heap (DevDmd d) sim3 light3 = (n, Ok tt) /\ field_is (f_image n) 1 3 I in
  set MIfta = (with_state row3 (DBool 1 3 fN), Ok tt) /\ set MRandom = (with_state row3 (DBool 1 3 fr), Ok tt) /\ set MIdeal = (with_state row3 (DFloat 1 3 g), Ok tt) /\
  sim (with_state row3 (DBool 1 3 fN)) nN IN /\ sim (with_state row3 (DBool 1 3 fr)) nr Ir /\ sim (with_state row3 (DFloat 1 3 g)) ng Ig /\
  0 < window_difference 1 3 centre3 Ir Ig /\ 100 * window_difference 1 3 centre3 Ir Ig < window_difference 1 3 centre3 IN Ig.
Proof. exact random_beats_ifta. Qed.
Print Assumptions C120_random_beats_every_count.
(** The hypotheses of the claim hold for that grating with the default of 200 iterations. *)
Example C120_case : (1 <= dflt (k_N (kwin3 200)) 200)%Z /\ dflt (k_s (kwin3 200)) 1 = 1 /\ 0 < dflt (k_r (kwin3 200)) 10 /\ full_input ex_heap (d_slm row3) light3 F3 /\
  complex_array (k_input (kwin3 200)) (T2 1 3 F3) /\ complex_array (k_window (kwin3 200)) (T2 1 3 V3) /\ (forall i j, V3 i j = RtoC (centre3 i j)) /\
  lee3 200 0 0 = 1 / 2 + 1 / 20000 /\ lee3 200 0 1 = 4 / 3 * (1 / 2 - 1 / 20000) /\ phase3 0 1 = PI / 3.
Proof.
  split; [cbn; lia|]. split; [reflexivity|]. split; [cbn; lra|]. split; [reflexivity|]. split; [right; reflexivity|]. split; [right; reflexivity|]. split; [reflexivity|].
  cbn [lee3 grey3 phase3]. split; [lra|]. split; [lra|reflexivity].
Qed.
