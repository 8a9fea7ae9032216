(** Random numbers with a finite number of values. *)
From Coq Require Import Reals ZArith.
From Flocq Require Import Core.
Open Scope R_scope.

(** Numbers uniform on [0, 1) rounded down to multiples of 1/K: each of 0, 1/K, ..., (K-1)/K equally likely.  TensorFlow: K = 2^23 (float32), 2^52 (float64). *)
Definition quantised (K : Z) (u : nat -> nat -> R) : nat -> nat -> R := fun i j => IZR (Zfloor (u i j * IZR K)) / IZR K.
(** The next multiple of 1/K. *)
Definition next_step (K : Z) (g : R) : R := IZR (Zceil (g * IZR K)) / IZR K.
