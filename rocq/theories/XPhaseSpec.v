(** What missing samples of a phase map should do to a grating. *)
From Coq Require Import Reals ZArith List Bool.
From Verif Require Import Cx PyBase ProfileModel SlmModel LibModel DmdModel DmdSpec.
Open Scope R_scope.

(** [filled a b]: b has the shape of a, and the values of a where these are defined. *)
Definition filled (a : tensor (option R)) (b : tensor R) : Prop :=
  match a, b with
  | T0 x, T0 y => x = None \/ x = Some y
  | T2 ny nx f, T2 ny' nx' g => ny = ny' /\ nx = nx' /\ forall i j, f i j = None \/ f i j = Some (g i j)
  | _, _ => False
  end.
(** Both phases are defined at the mirror. *)
Definition both (a b : tensor (option R)) (i j : nat) : Prop := tget a i j <> None /\ tget b i j <> None.
(** An element of a dark mirror: off, or NaN for grey levels. *)
Definition missing (b : bool) : cell := if b then CBool false else CFloat NaN.
