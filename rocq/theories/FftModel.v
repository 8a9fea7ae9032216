(** Fast Fourier transforms in floating point: numpy.fft.ifft2 as called at _lib.py:14-18.
    The decomposition is the mixed-radix one of Cooley and Tukey; which radices are used, how the small transforms
    ("butterflies") are evaluated and how the table of roots of unity is filled are arguments. *)
From Coq Require Import Reals ZArith Arith List.
From Coquelicot Require Import Complex.
From Verif Require Import Cx FloatModel.
Import ListNotations.
Open Scope R_scope.

Definition fl_cadd (a : fpu) (z w : C) : C := (rnd a (fst z + fst w), rnd a (snd z + snd w)).
(** [w n k] stands for exp(2 pi i k / n). *)
Definition table := nat -> nat -> C.
(** [b r f k] stands for the sum of f(j) exp(2 pi i j k / r) over j < r. *)
Definition butterfly := nat -> (nat -> C) -> nat -> C.
(** The transform of length r1 * ... * rn * 1: transforms of length r2 * ... * rn of the r1 interleaved parts, multiplication
    with roots of unity, butterflies of length r1. *)
Definition size (l : list nat) : nat := fold_right Nat.mul 1%nat l.
Fixpoint fl_fft (a : fpu) (w : table) (b : butterfly) (l : list nat) (f : nat -> C) : nat -> C :=
  match l with
  | [] => f
  | r :: l' => fun k => let m := size l' in
      b r (fun p => fl_cmul a (fl_fft a w b l' (fun j => f (r * j + p)%nat) (k mod m)) (w (r * m)%nat (p * (k mod m))%nat)) (k / m)%nat
  end.
(** Along one axis, with numpy's factor 1/n. *)
Definition fl_axis (a : fpu) (w : table) (b : butterfly) (l : list nat) (f : nat -> C) (k : nat) : C :=
  let c := rnd a (/ INR (size l)) in let z := fl_fft a w b l f k in (rnd a (fst z * c), rnd a (snd z * c)).
(** numpy.fft.ifft2: the last axis first. *)
Definition fl_ifft2 (a : fpu) (w : table) (b : butterfly) (ly lx : list nat) (f : nat -> nat -> C) (i j : nat) : C :=
  fl_axis a w b ly (fun u => fl_axis a w b lx (f u) j) i.
(** _lib.py:14-18 with NumPy before version 2.0: the transform is computed in double precision ([a']), the result is cast to the
    backend's precision ([a]). *)
Definition numpy_ifft2 (a a' : fpu) (w : table) (b : butterfly) (ly lx : list nat) (f : nat -> nat -> C) (i j : nat) : C :=
  let z := fl_ifft2 a' w b ly lx f i j in (rnd a (fst z), rnd a (snd z)).

(** A butterfly that adds the products up one after the other. *)
Fixpoint fl_csum (a : fpu) (n : nat) (f : nat -> C) : C := match n with O => RtoC 0 | S k => fl_cadd a (fl_csum a k f) (f k) end.
Definition direct (a : fpu) (w : table) : butterfly := fun r f k => fl_csum a r (fun j => fl_cmul a (f j) (w r ((j * k) mod r)%nat)).
