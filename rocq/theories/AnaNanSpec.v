(** Vocabulary for phase maps with missing samples. *)
From Coq Require Import Reals Arith.
From Verif Require Import AnaSpec.
Open Scope R_scope.

(** [f] is the map [P] with samples missing; none of them inside the circle. *)
Definition of_map (ny nx : nat) (f : nat -> nat -> option R) (P : nat -> nat -> R) : Prop := forall i j, (i < ny)%nat -> (j < nx)%nat -> f i j = Some (P i j) \/ f i j = None.
Definition outside_only (ny nx : nat) (radius : R) (f : nat -> nat -> option R) : Prop :=
  forall i j, (i < ny)%nat -> (j < nx)%nat -> dist_sq ny nx i j < radius ^ 2 -> f i j <> None.
(** [m] is the map [M], with samples missing where [f] has none. *)
Definition holed (ny nx : nat) (f m : nat -> nat -> option R) (M : option (nat -> nat -> R)) : Prop :=
  forall i j, (i < ny)%nat -> (j < nx)%nat -> m i j = match M, f i j with Some g, Some _ => Some (g i j) | _, _ => None end.
