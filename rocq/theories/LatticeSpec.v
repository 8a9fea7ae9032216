(** Vocabulary for the statements about resolution: phase maps given by a formula and sampled on the pixels. *)
From Coq Require Import Reals ZArith Arith List Bool Lia.
From Verif Require Import Sums ZernSpec AnaSpec.
Import ListNotations.
Open Scope R_scope.

(** A polynomial in two variables: a list of terms c x^a y^b. *)
Definition bpoly := list (R * (nat * nat)).
Definition beval (p : bpoly) (x y : R) : R := fold_right (fun t acc => fst t * (x ^ fst (snd t) * y ^ snd (snd t)) + acc) 0 p.
(** The function f, given on the unit disc, on the pixels of an aperture of the given radius (in pixels). *)
Definition sampled (ny nx : nat) (radius : R) (f : R -> R -> R) (i j : nat) : R := f (px nx j / radius) (py ny i / radius).
(** The aperture is at least one pixel wide and lies inside the array. *)
Definition aperture_fits (ny nx : nat) (radius : R) : Prop := 1 <= radius /\ 2 * radius <= INR ny /\ 2 * radius <= INR nx.
(** z k samples the mode with ANSI index k, for k < T. *)
Definition samples_ansi (ny nx : nat) (radius : R) (e : bool) (T : nat) (z : nat -> nat -> nat -> R) : Prop :=
  forall k, (k < T)%nat -> exists n m, zvalid n m /\ (2 * Z.of_nat k = n * (n + 2) + m)%Z /\ samples_mode ny nx radius n m e (z k).
