(** C86: the analysis functions against the continuum they sample. *)
From Coq Require Import Reals Lra ZArith Arith List Bool Lia.
From Verif Require Import Cx Sums PyBase ProfileModel ZernSpec AnaSpec AnalysisModel AnaFacts AnaThms LatticeSpec DiscMoments LatticeThms.
Import ListNotations.
Open Scope R_scope.

(** ** C86 *)
Theorem C86_pixels_in_the_aperture : forall ny nx radius, aperture_fits ny nx radius -> Rabs (INR (length (inside ny nx radius)) - PI * radius ^ 2) <= 28 * radius.
Proof. exact aperture_area. Qed.
Print Assumptions C86_pixels_in_the_aperture.
Theorem C86_averages_converge : forall p v, disc_integral (beval p) 1 v -> exists K, forall ny nx radius, aperture_fits ny nx radius ->
  Rabs (average (inside ny nx radius) (sampled ny nx radius (beval p)) - v / PI) <= K / radius.
Proof. exact average_converges. Qed.
Print Assumptions C86_averages_converge.
Theorem C86_modes_nearly_orthonormal : forall n m n' m', zvalid n m -> zvalid n' m' -> exists K, 0 <= K /\ forall ny nx radius e e' z z', aperture_fits ny nx radius ->
  samples_mode ny nx radius n m e z -> samples_mode ny nx radius n' m' e' z' ->
  Rabs (average (inside ny nx radius) (fun i j => z i j * z' i j) - if ((n =? n') && (m =? m'))%Z then 1 else 0) <= K / radius.
Proof. exact nearly_orthonormal. Qed.
Print Assumptions C86_modes_nearly_orthonormal.
Theorem C86_coefficients_recovered : forall T, (9 + 8 * (Z.of_nat T - 1) <= 2 ^ 53)%Z -> exists K, forall h ny nx radius e e' z (a : nat -> R) P cs g, aperture_fits ny nx radius ->
  samples_ansi ny nx radius e' T z -> (forall i j, In (i, j) (inside ny nx radius) -> P i j = rsum T (fun l => a l * z l i j)) ->
  zernike_decomposition h ny nx P radius (Z.of_nat T) e = Ok (map Some cs, g) ->
  forall k, (k < T)%nat -> Rabs (nth k cs 0 - a k) <= K / radius * rsum T (fun l => Rabs (a l)).
Proof. exact coefficients_recovered. Qed.
Print Assumptions C86_coefficients_recovered.
Theorem C86_map_reconstructed : forall T, (9 + 8 * (Z.of_nat T - 1) <= 2 ^ 53)%Z -> exists K, forall h ny nx radius e e' z (a : nat -> R) P cs g, aperture_fits ny nx radius ->
  samples_ansi ny nx radius e' T z -> (forall i j, In (i, j) (inside ny nx radius) -> P i j = rsum T (fun l => a l * z l i j)) ->
  zernike_decomposition h ny nx P radius (Z.of_nat T) e = Ok (map Some cs, Some g) ->
  forall i j, In (i, j) (inside ny nx radius) -> Rabs (g i j - P i j) <= K / radius * rsum T (fun l => Rabs (a l)).
Proof. exact reconstructed. Qed.
Print Assumptions C86_map_reconstructed.
Theorem C86_coefficients_of_polynomials : forall p k n m v, zvalid n m -> (2 * Z.of_nat k = n * (n + 2) + m)%Z ->
  (forall f, (forall r phi, zmode 1 1 n m true r phi = f (r * cos phi) (r * sin phi)) -> disc_integral (fun x y => beval p x y * f x y) 1 v) ->
  exists K, forall h ny nx radius T e P cs g, aperture_fits ny nx radius -> (k < T)%nat -> (9 + 8 * (Z.of_nat T - 1) <= 2 ^ 53)%Z ->
  (forall i j, In (i, j) (inside ny nx radius) -> P i j = sampled ny nx radius (beval p) i j) ->
  zernike_decomposition h ny nx P radius (Z.of_nat T) e = Ok (map Some cs, g) -> Rabs (nth k cs 0 - v / PI) <= K / radius.
Proof. exact decomposition_of_poly. Qed.
Print Assumptions C86_coefficients_of_polynomials.
Theorem C86_tilts_nearly_removed : exists K, forall h ny nx radius P a b c g, aperture_fits ny nx radius -> (forall i j, (i < ny)%nat -> (j < nx)%nat -> P i j = a * px nx j + b * py ny i + c) ->
  remove_trivial_phase h ny nx P radius false = Ok (Some g) -> forall i j, (i < ny)%nat -> (j < nx)%nat -> dist_sq ny nx i j <= radius ^ 2 ->
  Rabs (g i j) <= K / radius * (Rabs (a * px nx j) + Rabs (b * py ny i)).
Proof. exact tilt_small. Qed.
Print Assumptions C86_tilts_nearly_removed.
Theorem C86_second_pass_changes_little : exists K, forall h ny nx radius P B f g, aperture_fits ny nx radius -> (forall i j, In (i, j) (inside ny nx radius) -> Rabs (P i j) <= B) ->
  remove_trivial_phase h ny nx P radius false = Ok (Some f) -> remove_trivial_phase h ny nx f radius false = Ok (Some g) ->
  forall i j, (i < ny)%nat -> (j < nx)%nat -> Rabs (g i j - f i j) <= K / radius * B.
Proof. exact second_pass_small. Qed.
Print Assumptions C86_second_pass_changes_little.
Theorem C86_mean_after_defocus_removal : exists K, forall h ny nx radius P B g, aperture_fits ny nx radius -> (forall i j, In (i, j) (inside ny nx radius) -> Rabs (P i j) <= B) ->
  remove_trivial_phase h ny nx P radius true = Ok (Some g) -> Rabs (average (inside ny nx radius) g) <= K / radius * B.
Proof. exact defocus_mean_small. Qed.
Print Assumptions C86_mean_after_defocus_removal.
(** C59: the mean that stays, exactly. *)
Theorem C59_mean_left_by_defocus_removal : forall h ny nx P radius f g, 0 < radius -> inside ny nx radius <> [] ->
  remove_trivial_phase h ny nx P radius false = Ok (Some f) -> remove_trivial_phase h ny nx P radius true = Ok (Some g) ->
  average (inside ny nx radius) g = - 3 * average (inside ny nx radius) (fun i j => f i j * (2 * dist_sq ny nx i j / radius ^ 2 - 1)) * average (inside ny nx radius) (fun i j => 2 * dist_sq ny nx i j / radius ^ 2 - 1).
Proof. exact defocus_left. Qed.
Print Assumptions C59_mean_left_by_defocus_removal.
(** The hypotheses: apertures of any size exist; the profile functions sample the modes, and the decomposition of their sum succeeds. *)
Example C86_case : forall r : nat, (1 <= r)%nat -> aperture_fits (2 * r) (2 * r + 5) (INR r).
Proof. intros r H. apply le_INR in H. cbn [INR] in H. unfold aperture_fits. rewrite plus_INR, mult_INR. cbn [INR]. lra. Qed.
Example C86_decomposition_case : exists z cs g, samples_ansi 4 4 2 false 3 z /\ zernike_decomposition heap0 4 4 (fun i j => rsum 3 (fun l => INR (S l) * z l i j)) 2 3 false = Ok (map Some cs, Some g).
Proof.
  assert (NE : inside 4 4 2 <> []) by (apply fits_inside; unfold aperture_fits; cbn [INR]; lra).
  destruct (decompose_spec heap0 4 4 (fun _ _ => 0) 2 3 false ltac:(lra) NE ltac:(cbn; lia)) as (z & _ & _ & _ & _ & S & _).
  destruct (decompose_spec heap0 4 4 (fun i j => rsum 3 (fun l => INR (Datatypes.S l) * z l i j)) 2 3 false ltac:(lra) NE ltac:(cbn; lia)) as (_ & cs & g & E & _).
  exists z, cs, g. split; [exact S|exact E].
Qed.
(** A polynomial with its integral: x^2 + y^2 over the unit disc. *)
Example C86_integral_case : disc_integral (beval [(1, (2, 0)%nat); (1, (0, 2)%nat)]) 1 (PI / 2).
Proof. exact disc_x2y2. Qed.
