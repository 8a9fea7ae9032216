(** Model of pySLM2/_backend.py (class _BackEnd) and of functools.lru_cache as used on the grid methods. *)
From Coq Require Import ZArith List Bool Lia.
From Verif Require Import PyBase.
Import ListNotations.

(** tf dtypes relevant to the setter; [Dother] is any other value (e.g. tf.float16, tf.int32). *)
Inductive fdtype := F32 | F64.
Inductive dvalue := Dval (d : fdtype) | Dother.
Inductive cdtype := C64 | C128.
Inductive idtype := I32 | I64.

(** _backend.py:11-18 instance attributes. *)
Record backend := { be_dtype : fdtype; be_init : bool; be_fft : Z }.
(** _backend.py:5-6. *)
Definition FFT_BACKEND_TENSORFLOW : Z := 0.
Definition FFT_BACKEND_NUMPY : Z := 1.
(** _backend.py:11-18; [gpu] = "tf lists a logical GPU". *)
Definition backend_init (gpu : bool) : backend :=
  {| be_dtype := F32; be_init := false;
     be_fft := if gpu then FFT_BACKEND_TENSORFLOW else FFT_BACKEND_NUMPY |}.

(** The public operations on BACKEND. *)
Inductive bop :=
| GetDtype | GetDtypeComplex | GetDtypeInt | SetDtype (v : dvalue) | GetFft | SetFft (z : Z).
Inductive bout := OutF (d : fdtype) | OutC (d : cdtype) | OutI (d : idtype) | OutZ (z : Z) | OutUnit.

(** _backend.py:40. *)
Definition complex_of (d : fdtype) : cdtype := match d with F32 => C64 | F64 => C128 end.
(** _backend.py:46. *)
Definition int_of (d : fdtype) : idtype := match d with F32 => I32 | F64 => I64 end.
Definition mark (b : backend) : backend :=
  {| be_dtype := be_dtype b; be_init := true; be_fft := be_fft b |}.

Definition backend_step (b : backend) (o : bop) : backend * res bout :=
  match o with
  | GetDtype => (mark b, Ok (OutF (be_dtype b)))                          (* _backend.py:20-23 *)
  | GetDtypeComplex => (mark b, Ok (OutC (complex_of (be_dtype b))))      (* _backend.py:37-41 *)
  | GetDtypeInt => (mark b, Ok (OutI (int_of (be_dtype b))))              (* _backend.py:43-47 *)
  | SetDtype v =>                                                        (* _backend.py:25-35 *)
      if be_init b then (b, Err AssertionError)
      else match v with
           | Dother => (b, Err ValueError)
           | Dval d => ({| be_dtype := d; be_init := be_init b; be_fft := be_fft b |}, Ok OutUnit)
           end
  | GetFft => (b, Ok (OutZ (be_fft b)))                                   (* _backend.py:49-51 *)
  | SetFft z => ({| be_dtype := be_dtype b; be_init := be_init b; be_fft := z |}, Ok OutUnit)  (* :53-55 *)
  end.

Fixpoint backend_run (b : backend) (ops : list bop) : backend * list (res bout) :=
  match ops with
  | [] => (b, [])
  | o :: os => let (b1, r) := backend_step b o in let (b2, rs) := backend_run b1 os in (b2, r :: rs)
  end.

(** ** functools.lru_cache() with the default maxsize=128, decorating the grid methods
    (slm.py:98, 104, 115; simulation.py:94, 111).  The key is [self], hashed by identity; a cache is the list
    of (key, value), most recently used first. *)
Definition lru_maxsize : nat := 128.
Definition lru (V : Type) := list (nat * V).
Fixpoint lru_find {V} (k : nat) (c : lru V) : option V :=
  match c with [] => None | (k', v) :: r => if Nat.eqb k k' then Some v else lru_find k r end.
Fixpoint lru_remove {V} (k : nat) (c : lru V) : lru V :=
  match c with [] => [] | (k', v) :: r => if Nat.eqb k k' then r else (k', v) :: lru_remove k r end.
Definition lru_insert {V} (k : nat) (v : V) (c : lru V) : lru V :=
  (k, v) :: (if Nat.leb lru_maxsize (length c) then removelast c else c).

(** One process: the global BACKEND plus one cached grid method.  [compute] is the undecorated method: it
    depends on the (read-only) attributes of object [k] and on the precision it reads from BACKEND
    (slm.py:100-101, 117-118), and that read marks BACKEND as initialised. *)
Section Cached.
Context {V : Type} (compute : nat -> fdtype -> V).
Record proc := { pr_be : backend; pr_cache : lru V }.
Inductive pop := PBackend (o : bop) | PGrid (k : nat).
Inductive pout := PoutB (r : res bout) | PoutV (v : V).
Definition proc_step (s : proc) (o : pop) : proc * pout :=
  match o with
  | PBackend o => let (b, r) := backend_step (pr_be s) o in ({| pr_be := b; pr_cache := pr_cache s |}, PoutB r)
  | PGrid k =>
      match lru_find k (pr_cache s) with
      | Some v => ({| pr_be := pr_be s; pr_cache := (k, v) :: lru_remove k (pr_cache s) |}, PoutV v)
      | None =>
          let v := compute k (be_dtype (pr_be s)) in
          ({| pr_be := mark (pr_be s); pr_cache := lru_insert k v (pr_cache s) |}, PoutV v)
      end
  end.
Fixpoint proc_run (s : proc) (ops : list pop) : proc * list pout :=
  match ops with
  | [] => (s, [])
  | o :: os => let (s1, r) := proc_step s o in let (s2, rs) := proc_run s1 os in (s2, r :: rs)
  end.
Definition proc_init (gpu : bool) : proc := {| pr_be := backend_init gpu; pr_cache := [] |}.
End Cached.
