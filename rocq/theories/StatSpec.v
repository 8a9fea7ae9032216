(** Averages over independent thresholds, each uniform on [0, 1]. *)
From Coq Require Import Reals Arith List Bool.
From Coquelicot Require Import Hierarchy RInt.
Import ListNotations.
Open Scope R_scope.

(** Threshold array [u] with the threshold of mirror (i, j) replaced by t. *)
Definition replace_at (u : nat -> nat -> R) (i j : nat) (t : R) : nat -> nat -> R :=
  fun a b => if (Nat.eqb a i && Nat.eqb b j)%bool then t else u a b.
(** [is_mean l V M]: averaging V over the thresholds of the mirrors in l gives M, a function of the remaining ones.
    Every integral is required to exist. *)
Fixpoint is_mean (l : list (nat * nat)) (V M : (nat -> nat -> R) -> R) : Prop :=
  match l with
  | [] => forall u, M u = V u
  | (i, j) :: l' => exists M', is_mean l' V M' /\ forall u, is_RInt (fun t => M' (replace_at u i j t)) 0 1 (M u)
  end.
(** All mirrors of an ny x nx array. *)
Definition mirrors (ny nx : nat) : list (nat * nat) := list_prod (seq 0 ny) (seq 0 nx).
