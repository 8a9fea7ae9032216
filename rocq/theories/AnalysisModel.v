(** Model of pySLM2/analysis.py. *)
From Coq Require Import Reals ZArith Arith List Bool Lia.
From Flocq Require Import Core.
From Coquelicot Require Import Complex.
From Verif Require Import Cx Sums PyBase ProfileModel SlmModel.
Import ListNotations.
Open Scope R_scope.

(** A 2-D numpy array of floats whose shape is known: the entries, or [None] when every entry is NaN.  The only
    source of NaN in analysis.py is the mean of an empty selection, which makes all entries NaN at once. *)
Definition arr := option (nat -> nat -> R).

(** analysis.py:28 and 80: np.arange(Nx) - (Nx-1)/2 and np.arange(Ny, 0, -1) - (Ny+1)/2. *)
Definition ana_x (nx j : nat) : R := INR j - (INR nx - 1) / 2.
Definition ana_y (ny i : nat) : R := (INR ny - INR i) - (INR ny + 1) / 2.
(** np.meshgrid of the two. *)
Definition ana_grid (ny nx : nat) : tensor R * tensor R :=
  (T2 ny nx (fun _ j => ana_x nx j), T2 ny nx (fun i _ => ana_y ny i)).
(** analysis.py:34 and 82. *)
Definition aperture (ny nx : nat) (radius : R) (i j : nat) : bool :=
  Rltb (ana_x nx j ^ 2 + ana_y ny i ^ 2) (radius ^ 2).

(** Number of selected entries, and np.mean of the selected entries (NaN when there are none). *)
Definition count (ny nx : nat) (ap : nat -> nat -> bool) : R := rsum2 ny nx (fun i j => if ap i j then 1 else 0).
Definition mean_sel (ny nx : nat) (ap : nat -> nat -> bool) (f : nat -> nat -> R) : option R :=
  if Req_EM_T (count ny nx ap) 0 then None
  else Some (rsum2 ny nx (fun i j => if ap i j then f i j else 0) / count ny nx ap).

(** FunctionProfile.__call__ (profile.py:14-17) of a fresh Zernike(1, radius, n, m, extrapolate=e) on the grid.
    normalize keeps its default True (profile.py:381).  The object is temporary. *)
Definition zernike_on_grid (h : heap) (ny nx : nat) (radius : R) (n m : Z) (e : bool) : res (nat -> nat -> R) :=
  let! (h1, p) := zernike_new h 1 radius n m true e in
  let! t := sample h1 p (ana_grid ny nx) in
  match t with
  | T2 _ _ v => Ok (fun i j => cast_r (v i j))
  | T0 v => Ok (fun _ _ => cast_r v)
  end.

(** c = np.mean(profile[aperture] * z[aperture]) (analysis.py:38, 91). *)
Definition coefficient (ny nx : nat) (radius : R) (prof : arr) (z : nat -> nat -> R) : option R :=
  match prof with
  | None => None
  | Some f => mean_sel ny nx (aperture ny nx radius) (fun i j => f i j * z i j)
  end.
(** profile - c * z (analysis.py:41), acc + c * z (analysis.py:97). *)
Definition sub_mode (prof : arr) (c : option R) (z : nat -> nat -> R) : arr :=
  match prof, c with Some f, Some c => Some (fun i j => f i j - c * z i j) | _, _ => None end.
Definition add_mode (acc : arr) (c : option R) (z : nat -> nat -> R) : arr :=
  match acc, c with Some f, Some c => Some (fun i j => f i j + c * z i j) | _, _ => None end.

(** analysis.py:36-42, the loop over the terms. *)
Fixpoint remove_terms (h : heap) (ny nx : nat) (radius : R) (terms : list (Z * Z)) (prof : arr) : res arr :=
  match terms with
  | [] => Ok prof
  | (n, m) :: r =>
      let! z := zernike_on_grid h ny nx radius n m false in
      remove_terms h ny nx radius r (sub_mode prof (coefficient ny nx radius prof z) z)
  end.
(** analysis.py:5-42. *)
Definition remove_trivial_phase (h : heap) (ny nx : nat) (prof : nat -> nat -> R) (radius : R) (remove_defocus : bool) : res arr :=
  remove_terms h ny nx radius ([(0, 0); (1, -1); (1, 1)] ++ if remove_defocus then [(2, 0)] else [])%Z (Some prof).

(** ** ansi_j_to_n_m (analysis.py:45-56), in IEEE binary64 with rounding to nearest even. *)
Definition b64 : R -> R := round radix2 (FLT_exp (-1074) 53) ZnearestE.
(** np.sqrt converts its integer argument to float64 first (uint64 / int64 integers; larger Python integers have no
    ufunc loop: TypeError); the square root of a negative number is NaN and int(nan) raises ValueError. *)
Definition ansi_j_to_n_m (idx : Z) : res (Z * Z) :=
  let a := (9 + 8 * idx)%Z in
  if (2 ^ 64 <=? a)%Z || (a <? - 2 ^ 63)%Z then Err TypeError
  else if (a <? 0)%Z then Err ValueError
  else
    let s := b64 (sqrt (b64 (IZR a))) in
    let n := Zceil (b64 (b64 (-3 + s) / 2)) in
    Ok (n, (2 * idx - n * (n + 2))%Z).

(** analysis.py:88-97, one iteration, and the loop over the indices. *)
Definition decompose_step (h : heap) (ny nx : nat) (radius : R) (e : bool) (prof : nat -> nat -> R)
    (idx : Z) (st : list (option R) * arr) : res (list (option R) * arr) :=
  let! (n, m) := ansi_j_to_n_m idx in
  let! z := zernike_on_grid h ny nx radius n m e in
  let c := coefficient ny nx radius (Some prof) z in
  Ok (fst st ++ [c], add_mode (snd st) c z).
Fixpoint decompose_loop (h : heap) (ny nx : nat) (radius : R) (e : bool) (prof : nat -> nat -> R)
    (idxs : list nat) (st : list (option R) * arr) : res (list (option R) * arr) :=
  match idxs with
  | [] => Ok st
  | k :: r => let! st' := decompose_step h ny nx radius e prof (Z.of_nat k) st in decompose_loop h ny nx radius e prof r st'
  end.
(** analysis.py:59-102.  With reconstruct=False only the coefficients are returned; the loop is otherwise the same.
    range(num_terms) is empty for a negative argument. *)
Definition zernike_decomposition (h : heap) (ny nx : nat) (prof : nat -> nat -> R) (radius : R) (num_terms : Z) (e : bool) : res (list (option R) * arr) :=
  decompose_loop h ny nx radius e prof (seq 0 (Z.to_nat num_terms)) ([], Some (fun _ _ => 0)).
