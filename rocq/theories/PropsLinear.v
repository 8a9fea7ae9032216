(** C107: the first order of a random grating at finite steepness. *)
From Coq Require Import Reals Lra ZArith Arith List Bool Lia.
From Coquelicot Require Import Hierarchy RInt Complex.
From Verif Require Import PyBase ProfileModel SlmModel LibModel DmdModel SimSpec SimExamples DmdSpec DmdFacts DmdFacts2 LinearFacts.
Open Scope R_scope.

(** Over one fringe, the first harmonic of the on-probability is K(r) times the amplitude: up to an error that vanishes exponentially with the steepness r,
    with a factor K(r) that differs from that of the ideal pulse (2, see C34) by less than 1/r^2. *)
Theorem C107_random_first_harmonic : forall r, 0 < r -> exists K, 2 - / r ^ 2 <= K <= 2 /\ forall A, 0 <= A <= 1 -> exists on : R -> R,
  (forall h d amp pin pout B Pi Po kw u i j, reads h (d_slm d) amp B -> reads h (d_slm d) pin Pi -> reads h (d_slm d) pout Po -> d_p d <> 0 ->
     dflt (k_r kw) 10 = r -> in_array d i j -> B i j = A ->
     cell_at (d_state (fst (set_dmd_grating_state h d amp pin pout MRandom kw u))) i j = CBool (if Rlt_dec (u i j) (on (carrier d i j - signed (d_neg d) (Po i j - Pi i j))) then true else false)) /\
  (forall t, 0 <= on t < 1) /\
  (exists H : R, is_RInt (fun t => on t * cos t) (- PI) PI H /\ Rabs (H - K * A) <= exp (- (PI * r)) / r) /\
  is_RInt (fun t => on t * sin t) (- PI) PI 0.
Proof. exact random_first_harmonic. Qed.
Print Assumptions C107_random_first_harmonic.
(** Hence the response is linear for all practical purposes: at the default r = 10 the factor is between 1.99 and 2 and the error below 10^-10. *)
Example C107_case : 0 < dflt (k_r no_kwargs) 10 /\ 2 - / 10 ^ 2 = 199 / 100 /\ exp (- (PI * 10)) / 10 <= / 10 ^ 10 /\
  reads ex_heap (d_slm ex_dmd) (AConstR (T0 (5 / 8))) (fun _ _ => 5 / 8) /\ d_p ex_dmd <> 0 /\ in_array ex_dmd 1 2.
Proof.
  split; [cbn; lra|]. split; [lra|]. split; [exact default_error|]. split; [exact (reads_const _ _ _)|split; [cbn; lra|split; cbn; lia]].
Qed.
