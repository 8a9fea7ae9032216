(** Vocabulary for sequences of circular patches (C130). *)
From Coq Require Import Reals ZArith Arith List Bool.
From Coquelicot Require Import Complex.
From Verif Require Import Cx Sums PyBase ProfileModel SlmModel LibModel DmdModel SimModel SimSpec DmdSpec.
Import ListNotations.
Open Scope R_scope.

(** The arguments of one call of circular_patch. *)
Record patch := { p_heap : heap; p_i : R; p_j : R; p_amp : parg; p_pin : parg; p_pout : parg; p_diam : R; p_method : method; p_kw : kwargs; p_u : nat -> nat -> R }.
Definition lay (p : patch) : call := CPatch (p_heap p) (p_i p) (p_j p) (p_amp p) (p_pin p) (p_pout p) (p_diam p) (p_method p) (p_kw p) (p_u p).
(** The mirrors inside the circle. *)
Definition covers (p : patch) (i j : nat) : Prop := pixel_distance (p_i p) (p_j p) i j < Rabs (p_diam p) / 2.
(** The same grating set on the whole device shows c at mirror (i, j). *)
Definition full_frame (d : dmd) (p : patch) (i j : nat) (c : cell) : Prop :=
  exists d2, set_dmd_grating_state (p_heap p) d (p_amp p) (p_pin p) (p_pout p) (p_method p) (p_kw p) (p_u p) = (d2, Ok tt) /\ cell_at (d_state d2) i j = c.
(** The patches that did not raise. *)
Fixpoint laid (ps : list patch) (os : list (res unit)) : list patch :=
  match ps, os with p :: ps, Ok _ :: os => p :: laid ps os | _ :: ps, Err _ :: os => laid ps os | _, _ => [] end.
(** The last patch of the list that covers the mirror, if any. *)
Definition topmost (ps : list patch) (i j : nat) (o : option patch) : Prop :=
  match o with
  | Some p => exists below above, ps = below ++ p :: above /\ covers p i j /\ forall q, In q above -> ~ covers q i j
  | None => forall q, In q ps -> ~ covers q i j
  end.
(** Two circles that do not overlap. *)
Definition apart (p q : patch) : Prop := Rabs (p_diam p) / 2 + Rabs (p_diam q) / 2 <= sqrt ((p_i p - p_i q) ^ 2 + (p_j p - p_j q) ^ 2).
