(** C161: rounding in Zernike modes, and through them in the removal of the trivial phase. *)
From Coq Require Import Reals ZArith List Lia Lra.
From Verif Require Import Cx PyBase ProfileModel ZernSpec AnaSpec AnalysisModel FloatModel FloatSpec FlSimSpec FlAnaModel FlAnaSpec FlZernModel FlZernSpec FlZernFacts FlZernFacts2 FlZernThms.
Import ListNotations.
Open Scope R_scope.

(** Every mode, at every pixel that is not moved onto the rim. *)
Theorem C161_modes : forall u eta B w xi B'' l q ea ec ny nx radius n m nrm coef,
  arithmetic u eta B (z_rnd l) -> arithmetic w xi B'' (flt q) -> (2 ^ 44 <= B'')%Z -> 0 <= u <= 1 / 8 -> 0 <= eta -> accurate_zlib l ea ec -> 0 <= ea -> 0 <= ec ->
  (Z.of_nat ny * Z.of_nat ny + Z.of_nat nx * Z.of_nat nx <= B)%Z -> (Z.of_nat ny <= 2 ^ 20)%Z -> (Z.of_nat nx <= 2 ^ 20)%Z -> (Z.abs m <= B)%Z ->
  0 < radius -> eta <= u / 2 -> eta <= u * radius -> 8 * eta * radius <= u -> zvalid n m -> stored_coefficients u n m coef -> stored_norm u l n m nrm ->
  evaluates (off_rim l ny nx radius) ny nx radius false (mode_error u eta ea ec (Z.to_nat n) m (weight (zern_coef n m)) (znorm n m true)) n m (fl_mode q l ny nx radius n m nrm false coef).
Proof. exact modes. Qed.
Print Assumptions C161_modes.
(** A mode of unit amplitude never exceeds its normalization. *)
Theorem C161_bound : forall ny nx radius n m, zvalid n m -> 0 < radius -> mode_bound (fun _ _ => True) ny nx radius false (znorm n m true) n m.
Proof. exact bounded_modes. Qed.
Print Assumptions C161_bound.
(** The normalization Python computes is accurate. *)
Theorem C161_norm : forall u eta B w xi B'' l q n m, arithmetic u eta B (z_rnd l) -> arithmetic w xi B'' (flt q) -> 0 <= w <= u -> u <= 1 / 8 -> 0 <= xi <= u / 2 -> 0 <= eta <= u / 2 -> zvalid n m ->
  stored_norm u l n m (fl_norm q n m).
Proof. exact norm_stored. Qed.
Print Assumptions C161_norm.
(** Piston, tilts and defocus: the error is at most 500 u. *)
Theorem C161_trivial_modes : forall u eta B w xi B'' l q ea ec ny nx radius n m coef,
  arithmetic u eta B (z_rnd l) -> arithmetic w xi B'' (flt q) -> (2 ^ 44 <= B'')%Z -> 0 < u <= 1 / 10000 -> 0 <= w <= u -> 0 <= xi <= u / 2 -> 0 <= eta <= u / 100 -> accurate_zlib l ea ec -> 0 <= ea <= 8 * u -> 0 <= ec <= 8 * u ->
  (Z.of_nat ny * Z.of_nat ny + Z.of_nat nx * Z.of_nat nx <= B)%Z -> (1 <= B)%Z -> (Z.of_nat ny <= 2 ^ 20)%Z -> (Z.of_nat nx <= 2 ^ 20)%Z ->
  0 < radius -> eta <= u * radius -> 8 * eta * radius <= u -> In (n, m) [(0, 0); (1, -1); (1, 1); (2, 0)]%Z -> stored_coefficients u n m coef ->
  evaluates (off_rim l ny nx radius) ny nx radius false (500 * u) n m (fl_mode q l ny nx radius n m (fl_norm q n m) false coef).
Proof. exact trivial_modes. Qed.
Print Assumptions C161_trivial_modes.
(** The whole of remove_trivial_phase in double precision, modes included. *)
Theorem C161_removal_double : forall q l h ny nx radius t coef F f (d : bool) g, flt q = binary64 -> np q = binary64 -> sc q = binary64 -> z_rnd l = binary64 -> accurate_zlib l (/ 2 ^ 50) (/ 2 ^ 50) ->
  (forall n m, In (n, m) [(0, 0); (1, -1); (1, 1); (2, 0)]%Z -> coef n m = zern_coef n m) ->
  (Z.of_nat ny <= 2 ^ 20)%Z -> (Z.of_nat nx <= 2 ^ 20)%Z -> / 2 ^ 1000 <= radius <= 2 ^ 1000 -> clear_radius q ny nx radius -> adds_selected q ny nx radius t -> (depth t <= 50)%nat -> / 2 ^ 1000 <= F ->
  (forall i j, (i < ny)%nat -> (j < nx)%nat -> Rabs (f i j) <= F) ->
  remove_trivial_phase h ny nx f radius d = Ok (Some g) ->
  forall i j, (i < ny)%nat -> (j < nx)%nat -> off_rim l ny nx radius i j -> Rabs (fl_removal q l ny nx radius t coef f d i j - g i j) <= F / 2 ^ 29.
Proof. exact removal_double. Qed.
Print Assumptions C161_removal_double.
(** The Zernike decomposition, modes included, for any number of terms; e and Zm bound the errors and the normalizations of the modes used. *)
Theorem C161_decomposition : forall u eta B v theta B' w xi B'' l q ea ec h ny nx radius t coef e Zm F f T,
  arithmetic u eta B (z_rnd l) -> arithmetic u eta B (np q) -> arithmetic v theta B' (sc q) -> arithmetic w xi B'' (flt q) -> (2 ^ 44 <= B'')%Z -> 0 <= u <= 1 / 8 -> 0 <= w <= u -> 0 <= xi <= u / 2 -> 0 <= eta <= u / 2 -> 0 <= v -> 0 <= theta ->
  accurate_zlib l ea ec -> 0 <= ea -> 0 <= ec -> (Z.of_nat ny * Z.of_nat ny + Z.of_nat nx * Z.of_nat nx <= B)%Z -> (Z.of_nat T <= B)%Z -> (Z.of_nat ny <= 2 ^ 20)%Z -> (Z.of_nat nx <= 2 ^ 20)%Z ->
  0 < radius -> eta <= u * radius -> 8 * eta * radius <= u -> clear_radius q ny nx radius -> adds_selected q ny nx radius t -> 0 <= e -> 0 <= Zm ->
  (forall i j, (i < ny)%nat -> (j < nx)%nat -> off_rim l ny nx radius i j -> Rabs (f i j) <= F) -> (9 + 8 * (Z.of_nat T - 1) <= 2 ^ 53)%Z ->
  (forall k n m, (k < T)%nat -> zvalid n m -> (2 * Z.of_nat k = n * (n + 2) + m)%Z -> stored_coefficients u n m (coef n m) /\ mode_error u eta ea ec (Z.to_nat n) m (weight (zern_coef n m)) (znorm n m true) <= e /\ znorm n m true <= Zm) ->
  let er := coefficient_error u eta (depth t) F Zm e in
  exists cs g csf gf, zernike_decomposition h ny nx f radius (Z.of_nat T) false = Ok (map Some cs, Some g) /\ fl_zern_decomposition q l ny nx radius t coef f (Z.of_nat T) = Ok (csf, gf) /\ length cs = T /\
    Forall2 (fun c c' => Rabs (c' - c) <= er) cs csf /\
    (forall i j, (i < ny)%nat -> (j < nx)%nat -> off_rim l ny nx radius i j -> Rabs (gf i j - g i j) <= reconstruction_error w xi (term_error v theta (F * Zm) er Zm e) (F * Zm * Zm) T).
Proof. exact decomposition_modes. Qed.
Print Assumptions C161_decomposition.
(** Three terms, piston and tilts: errors of 500 u and normalizations of 2 meet the hypothesis. *)
Theorem C161_three_terms : forall u eta ea ec k n m, 0 < u <= 1 / 10000 -> 0 <= eta <= u / 100 -> 0 <= ea <= 8 * u -> 0 <= ec <= 8 * u -> (k < 3)%nat -> zvalid n m -> (2 * Z.of_nat k = n * (n + 2) + m)%Z ->
  stored_coefficients u n m (zern_coef n m) /\ mode_error u eta ea ec (Z.to_nat n) m (weight (zern_coef n m)) (znorm n m true) <= 500 * u /\ znorm n m true <= 2.
Proof. exact three_terms. Qed.
Print Assumptions C161_three_terms.
(** A correctly rounded library meets the hypotheses, and with three pixels all of them are off the rim. *)
Example C161_case : let q := Build_numerics binary64 binary64 binary64 in let t := Added (Added (Pixel 0 0) (Pixel 0 1)) (Pixel 0 2) in
  accurate_zlib rounded_lib (/ 2 ^ 50) (/ 2 ^ 50) /\ clear_radius q 1 3 2 /\ adds_selected q 1 3 2 t /\ (depth t <= 50)%nat /\ (forall j, (j < 3)%nat -> off_rim rounded_lib 1 3 2 0 j).
Proof. exact case_removal. Qed.
(** The rim matters: with the double nearest to the square root of 13 as radius, the pixel with x = 3, y = 2 lies outside the disc, where the mode is 0, but the code evaluates piston to 1 there. *)
Example C161_kept_pixel : let q := Build_numerics binary64 binary64 binary64 in let r := IZR 8118979690322419 / 2 ^ 51 in
  binary64 r = r /\ r ^ 2 < dist_sq 9 9 2 7 /\ fl_mode q rounded_lib 9 9 r 0 0 (fl_norm q 0 0) false [1] 2 7 = 1 /\ (forall z, samples_mode 9 9 r 0 0 false z -> z 2%nat 7%nat = 0).
Proof. exact kept_pixel. Qed.
