(** C160: rounding in the aperture analysis. *)
From Coq Require Import Reals ZArith List Permutation Lia Lra.
From Verif Require Import PyBase ProfileModel ZernSpec AnaSpec AnalysisModel FloatModel FloatSpec FloatFacts FlSimSpec FlAnaModel FlAnaSpec FlAnaFacts FlAnaFacts2 FlAnaFacts3 FlAnaThms.
Import ListNotations.
Open Scope R_scope.

(** The aperture loses exactly the pixels whose squared distance is the rounded square of the radius, if that is smaller than the square. *)
Theorem C160_aperture : forall u eta B q ny nx radius i j, arithmetic u eta B (flt q) -> (2 ^ 44 <= B)%Z -> (Z.of_nat ny <= 2 ^ 20)%Z -> (Z.of_nat nx <= 2 ^ 20)%Z -> (i < ny)%nat -> (j < nx)%nat ->
  fl_aperture q ny nx radius i j = true <-> dist_sq ny nx i j < radius ^ 2 /\ dist_sq ny nx i j <> flt q (radius ^ 2).
Proof. intros u eta B q ny nx radius i j A HB. exact (aperture_rounded u eta B q A HB ny nx radius i j). Qed.
Print Assumptions C160_aperture.
(** Integers, half integers and other short binary fractions are safe radii. *)
Theorem C160_safe_radius : forall u eta B q ny nx k n, arithmetic u eta B (flt q) -> (2 ^ 44 <= B)%Z -> (Z.of_nat ny <= 2 ^ 20)%Z -> (Z.of_nat nx <= 2 ^ 20)%Z -> (k * k <= B)%Z -> (2 * n <= 100)%nat ->
  clear_radius q ny nx (IZR k / 2 ^ n) /\ selected q ny nx (IZR k / 2 ^ n) = inside ny nx (IZR k / 2 ^ n).
Proof. exact safe_radius. Qed.
Print Assumptions C160_safe_radius.
(** Removal of the trivial phase: the error is proportional to the largest phase. *)
Theorem C160_removal : forall u eta B v theta B' w xi B'' q h ny nx radius t zv (G : nat -> nat -> Prop) dl e F f (d : bool) g,
  arithmetic u eta B (np q) -> arithmetic v theta B' (sc q) -> arithmetic w xi B'' (flt q) -> (2 ^ 44 <= B'')%Z -> 0 <= u -> 0 <= eta -> 0 <= v -> 0 <= theta ->
  (Z.of_nat ny <= 2 ^ 20)%Z -> (Z.of_nat nx <= 2 ^ 20)%Z -> 0 < radius -> clear_radius q ny nx radius -> adds_selected q ny nx radius t ->
  (forall i j, In (i, j) (inside ny nx radius) -> G i j) ->
  0 <= e <= dl -> dl <= 1 / 1000 -> u <= dl -> v <= dl -> (1 + u) ^ (depth t + 2) - 1 <= dl -> eta <= dl * F -> theta <= dl * F -> 0 < F ->
  (forall i j, (i < ny)%nat -> (j < nx)%nat -> G i j -> Rabs (f i j) <= F) ->
  (forall n m, In (n, m) ([(0, 0); (1, -1); (1, 1)] ++ if d then [(2, 0)] else [])%Z -> evaluates G ny nx radius false e n m (zv n m)) ->
  remove_trivial_phase h ny nx f radius d = Ok (Some g) ->
  forall i j, (i < ny)%nat -> (j < nx)%nat -> G i j -> Rabs (fl_remove_trivial_phase q t zv f d i j - g i j) <= (if d then 17600 else 2700) * dl * F.
Proof. exact removal. Qed.
Print Assumptions C160_removal.
(** Piston is removed up to that error. *)
Theorem C160_piston : forall u eta B v theta B' w xi B'' q h ny nx radius t zv dl e F f,
  arithmetic u eta B (np q) -> arithmetic v theta B' (sc q) -> arithmetic w xi B'' (flt q) -> (2 ^ 44 <= B'')%Z -> 0 <= u -> 0 <= eta -> 0 <= v -> 0 <= theta ->
  (Z.of_nat ny <= 2 ^ 20)%Z -> (Z.of_nat nx <= 2 ^ 20)%Z -> 0 < radius -> clear_radius q ny nx radius -> adds_selected q ny nx radius t ->
  0 <= e <= dl -> dl <= 1 / 1000 -> u <= dl -> v <= dl -> (1 + u) ^ (depth t + 2) - 1 <= dl -> eta <= dl * F -> theta <= dl * F -> 0 < F ->
  (forall i j, In (i, j) (inside ny nx radius) -> Rabs (f i j) <= F) ->
  (forall n m, In (n, m) [(0, 0); (1, -1); (1, 1)]%Z -> evaluates (fun i j => In (i, j) (inside ny nx radius)) ny nx radius false e n m (zv n m)) ->
  exists g, remove_trivial_phase h ny nx f radius false = Ok (Some g) /\ Rabs (average (inside ny nx radius) (fl_remove_trivial_phase q t zv f false)) <= 2700 * dl * F.
Proof. exact piston. Qed.
Print Assumptions C160_piston.
(** Double precision throughout, sums at most 50 additions deep, modes accurate to 2^-47. *)
Theorem C160_double : forall q h ny nx radius t zv F f (d : bool) g, flt q = binary64 -> np q = binary64 -> sc q = binary64 ->
  (Z.of_nat ny <= 2 ^ 20)%Z -> (Z.of_nat nx <= 2 ^ 20)%Z -> 0 < radius -> clear_radius q ny nx radius -> adds_selected q ny nx radius t -> (depth t <= 50)%nat -> / 2 ^ 1000 <= F ->
  (forall i j, (i < ny)%nat -> (j < nx)%nat -> Rabs (f i j) <= F) ->
  (forall n m, In (n, m) ([(0, 0); (1, -1); (1, 1)] ++ if d then [(2, 0)] else [])%Z -> evaluates (fun _ _ => True) ny nx radius false (/ 2 ^ 47) n m (zv n m)) ->
  remove_trivial_phase h ny nx f radius d = Ok (Some g) ->
  forall i j, (i < ny)%nat -> (j < nx)%nat -> Rabs (fl_remove_trivial_phase q t zv f d i j - g i j) <= F / 2 ^ 32.
Proof. exact in_double. Qed.
Print Assumptions C160_double.
(** The decomposition: coefficients and reconstruction. *)
Theorem C160_decomposition : forall u eta B v theta B' w xi B'' q h ny nx radius t zv (G : nat -> nat -> Prop) x e Zm F f T,
  arithmetic u eta B (np q) -> arithmetic v theta B' (sc q) -> arithmetic w xi B'' (flt q) -> (2 ^ 44 <= B'')%Z -> 0 <= u -> 0 <= eta -> 0 <= v -> 0 <= theta -> 0 <= w -> 0 <= xi ->
  (Z.of_nat ny <= 2 ^ 20)%Z -> (Z.of_nat nx <= 2 ^ 20)%Z -> 0 < radius -> clear_radius q ny nx radius -> adds_selected q ny nx radius t ->
  (forall i j, In (i, j) (inside ny nx radius) -> G i j) -> 0 <= e -> 0 <= Zm ->
  (forall i j, (i < ny)%nat -> (j < nx)%nat -> G i j -> Rabs (f i j) <= F) -> (9 + 8 * (Z.of_nat T - 1) <= 2 ^ 53)%Z ->
  (forall k n m, (k < T)%nat -> zvalid n m -> (2 * Z.of_nat k = n * (n + 2) + m)%Z -> evaluates G ny nx radius x e n m (zv n m) /\ mode_bound G ny nx radius x Zm n m) ->
  let ec := coefficient_error u eta (depth t) F Zm e in
  exists cs g csf gf, zernike_decomposition h ny nx f radius (Z.of_nat T) x = Ok (map Some cs, Some g) /\ fl_zernike_decomposition q t zv f (Z.of_nat T) = Ok (csf, gf) /\ length cs = T /\
    Forall2 (fun c c' => Rabs (c' - c) <= ec) cs csf /\
    (forall i j, (i < ny)%nat -> (j < nx)%nat -> G i j -> Rabs (gf i j - g i j) <= reconstruction_error w xi (term_error v theta (F * Zm) ec Zm e) (F * Zm * Zm) T).
Proof. exact decomposition. Qed.
Print Assumptions C160_decomposition.
(** Without rounding the functions are those of the exact model. *)
Theorem C160_no_rounding : forall h ny nx radius t zv f d g, 0 < radius -> adds_selected (Build_numerics (fun x => x) (fun x => x) (fun x => x)) ny nx radius t ->
  (Z.of_nat ny <= 2 ^ 20)%Z -> (Z.of_nat nx <= 2 ^ 20)%Z -> (forall n m, evaluates (fun _ _ => True) ny nx radius false 0 n m (zv n m)) ->
  remove_trivial_phase h ny nx f radius d = Ok (Some g) -> agree ny nx (fl_remove_trivial_phase (Build_numerics (fun x => x) (fun x => x) (fun x => x)) t zv f d) g.
Proof. exact no_rounding. Qed.
Print Assumptions C160_no_rounding.
(** A 1 x 3 array and radius 2: all three pixels are selected, and adding them from the left is two additions deep. *)
Example C160_case : let q := Build_numerics binary64 binary64 binary64 in let t := Added (Added (Pixel 0 0) (Pixel 0 1)) (Pixel 0 2) in
  clear_radius q 1 3 2 /\ adds_selected q 1 3 2 t /\ (depth t <= 50)%nat.
Proof. exact case_13. Qed.
(** The lost pixel exists: the double nearest to the square root of 17 is too large, its square rounds to 17, and the pixel with x = 4, y = 1 is not selected. *)
Example C160_lost_pixel : let q := Build_numerics binary64 binary64 binary64 in let r := IZR 4642204239785223 / 2 ^ 50 in
  binary64 r = r /\ fl_aperture q 9 9 r 3 8 = false /\ dist_sq 9 9 3 8 < r ^ 2.
Proof. exact lost_pixel. Qed.
