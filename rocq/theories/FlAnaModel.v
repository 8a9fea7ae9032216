(** analysis.py with rounding. The modes are given as Zernike.__call__ evaluates them; np.mean adds the selected pixels in some order. *)
From Coq Require Import Reals ZArith List Bool.
From Verif Require Import PyBase ProfileModel FloatModel AnalysisModel.
Import ListNotations.
Open Scope R_scope.

(** Rounding to float64 (coordinates), to the precision of [profile] and of its products with the modes, and to the precision of c * z: with a
    single precision backend NumPy 1 computes c * z in single precision, NumPy 2 in double precision. *)
Record numerics := { flt : R -> R; np : R -> R; sc : R -> R }.

(** analysis.py:28 and 80; the indices are integers, (Nx-1) / 2 is a float. *)
Definition fl_ana_x (q : numerics) (nx j : nat) : R := flt q (flt q (INR j) - flt q (flt q (INR nx - 1) / 2)).
Definition fl_ana_y (q : numerics) (ny i : nat) : R := flt q (flt q (INR ny - INR i) - flt q (flt q (INR ny + 1) / 2)).
(** analysis.py:34 and 82. *)
Definition fl_aperture (q : numerics) (ny nx : nat) (radius : R) (i j : nat) : bool :=
  Rltb (flt q (flt q (fl_ana_x q nx j ^ 2) + flt q (fl_ana_y q ny i ^ 2))) (flt q (radius ^ 2)).
(** The pixels profile[aperture] selects, in the order of the array. *)
Definition selected (q : numerics) (ny nx : nat) (radius : R) : list (nat * nat) :=
  filter (fun ij => fl_aperture q ny nx radius (fst ij) (snd ij)) (list_prod (seq 0 ny) (seq 0 nx)).

(** np.mean (analysis.py:38 and 91): the additions form any binary tree, the sum is divided by their number. *)
Fixpoint np_sum (r : R -> R) (f : nat -> nat -> R) (t : summation) : R :=
  match t with Pixel i j => f i j | Added x y => r (np_sum r f x + np_sum r f y) end.
Fixpoint np_len (t : summation) : nat := match t with Pixel _ _ => 1 | Added x y => np_len x + np_len y end.
Definition fl_coefficient (q : numerics) (t : summation) (f z : nat -> nat -> R) : R :=
  np q (np_sum (np q) (fun i j => np q (f i j * z i j)) t / INR (np_len t)).
(** analysis.py:41: profile - c * z; analysis.py:97: reconstructed_profile + c * z, an array of float64. *)
Definition fl_term (q : numerics) (c : R) (z : nat -> nat -> R) (i j : nat) : R := sc q (sc q c * z i j).
Definition fl_sub_mode (q : numerics) (f : nat -> nat -> R) (c : R) (z : nat -> nat -> R) (i j : nat) : R := np q (f i j - fl_term q c z i j).
Definition fl_add_mode (q : numerics) (f : nat -> nat -> R) (c : R) (z : nat -> nat -> R) (i j : nat) : R := flt q (f i j + fl_term q c z i j).

(** analysis.py:36-42. [zv n m] is the array Zernike(1, radius, n, m, ...)(xx, yy). *)
Fixpoint fl_remove (q : numerics) (t : summation) (zv : Z -> Z -> nat -> nat -> R) (terms : list (Z * Z)) (f : nat -> nat -> R) : nat -> nat -> R :=
  match terms with
  | [] => f
  | (n, m) :: r => fl_remove q t zv r (fl_sub_mode q f (fl_coefficient q t f (zv n m)) (zv n m))
  end.
Definition fl_remove_trivial_phase (q : numerics) (t : summation) (zv : Z -> Z -> nat -> nat -> R) (f : nat -> nat -> R) (remove_defocus : bool) : nat -> nat -> R :=
  fl_remove q t zv ([(0, 0); (1, -1); (1, 1)] ++ if remove_defocus then [(2, 0)] else [])%Z f.
(** analysis.py:88-102. *)
Fixpoint fl_decompose_loop (q : numerics) (t : summation) (zv : Z -> Z -> nat -> nat -> R) (f : nat -> nat -> R) (idxs : list nat)
    (st : list R * (nat -> nat -> R)) : res (list R * (nat -> nat -> R)) :=
  match idxs with
  | [] => Ok st
  | k :: r =>
      let! (n, m) := ansi_j_to_n_m (Z.of_nat k) in
      let c := fl_coefficient q t f (zv n m) in
      fl_decompose_loop q t zv f r (fst st ++ [c], fl_add_mode q (snd st) c (zv n m))
  end.
Definition fl_zernike_decomposition (q : numerics) (t : summation) (zv : Z -> Z -> nat -> nat -> R) (f : nat -> nat -> R) (num_terms : Z) : res (list R * (nat -> nat -> R)) :=
  fl_decompose_loop q t zv f (seq 0 (Z.to_nat num_terms)) ([], fun _ _ => 0).
