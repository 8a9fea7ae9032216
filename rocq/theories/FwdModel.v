(** The forward fast Fourier transform in floating point: numpy.fft.fft2 as called at _lib.py:7-11 (and tf.signal.fft2d, _lib.py:28).
    As in FftModel the radices, the butterflies and the table of roots of unity are arguments; here [w n k] stands for
    exp(-2 pi i k / n) and [b r f k] for the sum of f(j) exp(-2 pi i j k / r). There is no factor 1/n. *)
From Coq Require Import Reals List.
From Coquelicot Require Import Complex.
From Verif Require Import Cx FloatModel FftModel.
Open Scope R_scope.

(** The last axis first. *)
Definition fl_fft2 (a : fpu) (w : table) (b : butterfly) (ly lx : list nat) (f : nat -> nat -> C) (i j : nat) : C :=
  fl_fft a w b ly (fun u => fl_fft a w b lx (f u) j) i.
(** _lib.py:7-11 with NumPy before version 2.0: computed in double precision ([a']), cast to the backend's precision ([a]). *)
Definition numpy_fft2 (a a' : fpu) (w : table) (b : butterfly) (ly lx : list nat) (f : nat -> nat -> C) (i j : nat) : C :=
  let z := fl_fft2 a' w b ly lx f i j in (rnd a (fst z), rnd a (snd z)).
