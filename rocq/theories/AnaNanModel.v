(** Model of pySLM2/analysis.py once more, for phase maps with missing samples: [None] stands for NaN. *)
From Coq Require Import Reals ZArith Arith List Bool Lia.
From Verif Require Import Cx Sums PyBase ProfileModel SlmModel LibModel AnalysisModel.
Import ListNotations.
Open Scope R_scope.

Definition mmap := nat -> nat -> option R.
(** c = np.mean(profile[aperture] * z[aperture]) (analysis.py:38, 91): NaN if nothing is selected or if a selected sample is NaN. *)
Definition m_coefficient (ny nx : nat) (radius : R) (f : mmap) (z : nat -> nat -> R) : option R :=
  let ap := aperture ny nx radius in
  if Req_EM_T (count ny nx ap) 0 then None
  else if allb2 (fun i j => if ap i j then match f i j with Some _ => true | None => false end else true) ny nx
  then Some (rsum2 ny nx (fun i j => if ap i j then match f i j with Some a => a * z i j | None => 0 end else 0) / count ny nx ap)
  else None.
(** profile - c * z (analysis.py:41), acc + c * z (analysis.py:97); NaN * 0 is NaN. *)
Definition m_sub (f : mmap) (c : option R) (z : nat -> nat -> R) : mmap :=
  fun i j => match f i j, c with Some a, Some c => Some (a - c * z i j) | _, _ => None end.
Definition m_add (f : mmap) (c : option R) (z : nat -> nat -> R) : mmap :=
  fun i j => match f i j, c with Some a, Some c => Some (a + c * z i j) | _, _ => None end.
(** analysis.py:36-42. *)
Fixpoint m_remove_terms (h : heap) (ny nx : nat) (radius : R) (terms : list (Z * Z)) (f : mmap) : res mmap :=
  match terms with
  | [] => Ok f
  | (n, m) :: r =>
      let! z := zernike_on_grid h ny nx radius n m false in
      m_remove_terms h ny nx radius r (m_sub f (m_coefficient ny nx radius f z) z)
  end.
(** analysis.py:5-42. *)
Definition m_remove_trivial_phase (h : heap) (ny nx : nat) (f : mmap) (radius : R) (remove_defocus : bool) : res mmap :=
  m_remove_terms h ny nx radius ([(0, 0); (1, -1); (1, 1)] ++ if remove_defocus then [(2, 0)] else [])%Z f.
(** analysis.py:88-97. *)
Definition m_decompose_step (h : heap) (ny nx : nat) (radius : R) (e : bool) (f : mmap) (idx : Z) (st : list (option R) * mmap) : res (list (option R) * mmap) :=
  let! (n, m) := ansi_j_to_n_m idx in
  let! z := zernike_on_grid h ny nx radius n m e in
  let c := m_coefficient ny nx radius f z in
  Ok (fst st ++ [c], m_add (snd st) c z).
Fixpoint m_decompose_loop (h : heap) (ny nx : nat) (radius : R) (e : bool) (f : mmap) (idxs : list nat) (st : list (option R) * mmap) : res (list (option R) * mmap) :=
  match idxs with
  | [] => Ok st
  | k :: r => let! st' := m_decompose_step h ny nx radius e f (Z.of_nat k) st in m_decompose_loop h ny nx radius e f r st'
  end.
(** analysis.py:59-102. *)
Definition m_zernike_decomposition (h : heap) (ny nx : nat) (f : mmap) (radius : R) (num_terms : Z) (e : bool) : res (list (option R) * mmap) :=
  m_decompose_loop h ny nx radius e f (seq 0 (Z.to_nat num_terms)) ([], fun _ _ => Some 0).
