(** What a mixed-radix FFT needs: a table of roots of unity and butterflies, each with bounded error. *)
From Coq Require Import Reals ZArith List.
From Coquelicot Require Import Complex.
From Verif Require Import Cx Sums FftModel FlSimSpec.
Open Scope R_scope.

(** The roots of unity. *)
Definition root (n k : nat) : C := cis (2 * PI * (INR k / INR n)).
(** The sum a butterfly stands for. *)
Definition dft (n : nat) (f : nat -> C) (k : nat) : C := csum n (fun j => f j * root n (j * k))%C.
(** Euclidean norm in one dimension. *)
Definition norm1 (n : nat) (f : nat -> C) : R := norm 1 n (fun _ j => f j).
Definition good_table (t : R) (w : table) : Prop := forall n k, (k < n)%nat -> Cmod (w n k - root n k)%C <= t.
(** Relative error e and absolute error d in the Euclidean norm; the exact result has norm sqrt r * norm1 r f. *)
Definition good_butterfly (e d : R) (b : butterfly) (r : nat) : Prop :=
  forall f, norm1 r (fun k => b r f k - dft r f k)%C <= e * (sqrt (INR r) * norm1 r f) + d.
(** A table whose entries are rounded from the exact values. *)
Definition rounded_table (f : R -> R) : table := fun n k => (f (fst (root n k)), f (snd (root n k))).
(** Relative and absolute error of the transform with radices l: eb and db are the errors of the butterflies, et and dt those of a
    multiplication with a root of unity. *)
Fixpoint fft_rel (eb : nat -> R) (et : R) (l : list nat) : R :=
  match l with nil => 0 | (r :: l')%list => (1 + fft_rel eb et l') * (1 + et) * (1 + eb r) - 1 end.
Fixpoint fft_abs (eb db : nat -> R) (et dt : R) (l : list nat) : R :=
  match l with
  | nil => 0
  | (r :: l')%list => sqrt (INR r) * (1 + eb r) * ((1 + et) * (sqrt (INR r) * fft_abs eb db et dt l') + sqrt (INR (size (r :: l'))) * dt) + sqrt (INR (size l')) * db r
  end.
(** Along one axis, with the factor 1/n: every multiplication with a root of unity contributes 10 u, the factor 4 u. *)
Definition axis_rel (u : R) (eb : nat -> R) (l : list nat) : R := (1 + fft_rel eb (10 * u) l) * (1 + 4 * u) - 1.
Definition axis_abs (u eta : R) (eb db : nat -> R) (l : list nat) : R := (1 + 4 * u) * fft_abs eb db (10 * u) (8 * eta) l / INR (size l) + sqrt (INR (size l)) * (2 * eta).
(** Butterflies evaluated by direct summation. *)
Definition direct_rel (u : R) (r : nat) : R := sqrt (INR r) * ((1 + 10 * u) * (1 + u) ^ r - 1).
Definition direct_abs (u eta : R) (r : nat) : R := sqrt (INR r) * (10 * INR r * eta * (1 + u) ^ r).
(** A factorisation of every length into radices. *)
Definition planner (plan : nat -> list nat) : Prop := forall n, (0 < n)%nat -> size (plan n) = n /\ Forall (fun r => 2 <= r)%nat (plan n).
