(** C31, C54. *)
From Coq Require Import ZArith Arith List Bool.
From Verif Require Import PyBase BackendModel BackendFacts.
Import ListNotations.

(** C31: in every history of BACKEND operations every operation answers as specified by [expected]: reads return
    the precision last accepted before the first read; assignments raise AssertionError after a read,
    ValueError for anything but float32/float64; the FFT switch is independent. *)
Theorem C31_backend_history : forall gpu ops n o,
  nth_error ops n = Some o ->
  nth_error (snd (backend_run (backend_init gpu) ops)) n = Some (expected gpu (firstn n ops) o).
Proof. exact backend_history. Qed.
Print Assumptions C31_backend_history.

Theorem C31_precision_fixed_by_first_read : forall a b,
  existsb is_read a = true -> precision_after (a ++ b) = precision_after a.
Proof. exact precision_locked. Qed.
Print Assumptions C31_precision_fixed_by_first_read.

(** Real, complex and integer types always have the same width. *)
Theorem C31_matching_width : forall gpu before o r,
  is_read o = true -> expected gpu before o = Ok r -> out_bits r = Some (bits_f (precision_after before)).
Proof.
  intros gpu before o r R E; destruct o; try discriminate R; simpl in E; inversion E; subst;
    destruct (precision_after before); reflexivity.
Qed.
Print Assumptions C31_matching_width.

Example C31_history_nontrivial :
  let ops := [SetDtype (Dval F64); SetDtype Dother; SetFft 0; GetDtypeComplex; SetDtype (Dval F32); GetDtype; GetFft] in
  snd (backend_run (backend_init false) ops) =
  [Ok OutUnit; Err ValueError; Ok OutUnit; Ok (OutC C128); Err AssertionError; Ok (OutF F64); Ok (OutZ 0)].
Proof. reflexivity. Qed.

(** C54: for any interleaving of grid accesses (any number of objects) and BACKEND operations, the cached
    methods return what an uncached computation at that moment would return; at most 128 entries are kept. *)
Theorem C54_cache_transparent : forall (V : Type) (compute : nat -> fdtype -> V) gpu ops,
  snd (proc_run compute (proc_init gpu) ops) = snd (fresh_run compute (backend_init gpu) ops) /\
  length (pr_cache (fst (proc_run compute (proc_init gpu) ops))) <= 128.
Proof. exact @cache_transparent. Qed.
Print Assumptions C54_cache_transparent.

Theorem C54_grid_never_changes : forall (V : Type) (compute : nat -> fdtype -> V) gpu ops n m k,
  nth_error ops n = Some (PGrid k) -> nth_error ops m = Some (PGrid k) ->
  nth_error (snd (proc_run compute (proc_init gpu) ops)) n = nth_error (snd (proc_run compute (proc_init gpu) ops)) m.
Proof. exact @cache_stable. Qed.
Print Assumptions C54_grid_never_changes.

(** A history with evictions: 129 objects, then the first again. *)
Example C54_eviction_case :
  let ops := PBackend (SetDtype (Dval F64)) :: map PGrid (seq 0 129) ++ [PGrid 0] in
  let r := proc_run (fun k d => (k, d)) (proc_init false) ops in
  length (pr_cache (fst r)) = 128 /\ nth_error (snd r) 130 = Some (PoutV (0, F64)) /\
  lru_find 0 (pr_cache (fst (proc_run (fun k d => (k, d)) (proc_init false) (map PGrid (seq 0 129))))) = None.
Proof. vm_compute. repeat split. Qed.
