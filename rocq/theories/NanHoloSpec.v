(** Vocabulary for holograms with undefined values. *)
From Coq Require Import Reals ZArith Arith List Bool.
From Coquelicot Require Import Complex.
From Verif Require Import Cx PyBase SlmModel LibModel DmdModel.
Open Scope R_scope.

(** An array without undefined values; an array with one. *)
Definition lift {A} (f : nat -> nat -> A) : nat -> nat -> option A := fun i j => Some (f i j).
Definition undefined {A} (d : slm) (f : nat -> nat -> option A) : Prop := exists i j, (i < s_Ny d)%nat /\ (j < s_Nx d)%nat /\ f i j = None.
(** No window. *)
Definition all_ones : nat -> nat -> C := fun _ _ => RtoC 1.
(** No mirror on; for a grey pattern, no level defined. *)
Definition dark (d : slm) (st : dstate) : Prop :=
  match st with
  | DBool ny nx f => ny = s_Ny d /\ nx = s_Nx d /\ forall i j, (i < ny)%nat -> (j < nx)%nat -> f i j = false
  | DFloat ny nx f => ny = s_Ny d /\ nx = s_Nx d /\ forall i j, (i < ny)%nat -> (j < nx)%nat -> f i j = NaN
  end.
(** The second pattern is the first one, except that the mirrors where the beam is undefined are off (undefined in a grey pattern). *)
Definition holes (F : nat -> nat -> option C) (st st' : dstate) : Prop :=
  match st, st' with
  | DBool ny nx f, DBool ny' nx' f' => ny' = ny /\ nx' = nx /\ forall i j, (i < ny)%nat -> (j < nx)%nat -> f' i j = match F i j with Some _ => f i j | None => false end
  | DFloat ny nx f, DFloat ny' nx' f' => ny' = ny /\ nx' = nx /\ forall i j, (i < ny)%nat -> (j < nx)%nat -> f' i j = match F i j with Some _ => f i j | None => NaN end
  | _, _ => False
  end.
