(** What is assumed of the Fourier transform as evaluated by a library, and the notion of error used for powers. *)
From Coq Require Import Reals ZArith List Permutation.
From Coquelicot Require Import Complex.
From Verif Require Import Cx Sums DFT FloatModel FloatSpec.
Open Scope R_scope.

(** The Euclidean norm of a field. *)
Definition norm (ny nx : nat) (f : nat -> nat -> C) : R := sqrt (rsum2 ny nx (fun i j => Cmod (f i j) ^ 2)).
(** y differs from x by a relative error e and an absolute error d. *)
Definition near (e d x y : R) : Prop := Rabs (y - x) <= e * Rabs x + d.
(** A transform with relative error e and absolute error d in the Euclidean norm, on arrays of numbers of the backend's precision. *)
Definition accurate (a : fpu) (e d : R) (ny nx : nat) (F : (nat -> nat -> C) -> nat -> nat -> C) : Prop :=
  forall f, (forall i j, (i < ny)%nat -> (j < nx)%nat -> representable (rnd a) (f i j)) ->
    norm ny nx (fun i j => F f i j - ifft2 ny nx f i j)%C <= e * norm ny nx (ifft2 ny nx f) + d.
(** The transform of a library that rounds each component of the exact result. *)
Definition rounded_transform (a : fpu) (ny nx : nat) (f : nat -> nat -> C) (i j : nat) : C :=
  (rnd a (fst (ifft2 ny nx f i j)), rnd a (snd (ifft2 ny nx f i j))).
(** How many additions a pixel goes through at most. *)
Fixpoint depth (t : summation) : nat := match t with Pixel _ _ => 0 | Added l r => S (Nat.max (depth l) (depth r)) end.
(** Every pixel is added up once. *)
Definition each_once (ny nx : nat) (t : summation) : Prop := Permutation (pixels t) (list_prod (seq 0 ny) (seq 0 nx)).
(** The power of a field: the sum of squared moduli times the area of a pixel. *)
Definition field_power (ny nx : nat) (area : R) (f : nat -> nat -> C) : R := rsum2 ny nx (fun i j => Cmod (f i j) ^ 2) * area.
(** The constants of a simulation (areas of the pixels, normalisation) are not so small that they underflow. *)
Definition far_from_underflow (u eta : R) (ny nx : nat) (ps sf : R) : Prop :=
  let N := INR (ny * nx) in Forall (fun x => eta <= u * x / 4) (ps ^ 2 :: sf ^ 2 :: sf ^ 2 / N :: sf ^ 2 / N / ps ^ 2 :: N * ps ^ 2 / sf :: nil).
