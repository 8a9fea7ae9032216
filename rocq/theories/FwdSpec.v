(** Tables and butterflies of a forward transform. *)
From Coq Require Import Reals List.
From Coquelicot Require Import Complex.
From Verif Require Import Cx Sums FftModel FlSimSpec FftSpec.
Open Scope R_scope.

Definition good_forward_table (t : R) (w : table) : Prop := forall n k, (k < n)%nat -> Cmod (w n k - cconj (root n k))%C <= t.
Definition good_forward_butterfly (e d : R) (b : butterfly) (r : nat) : Prop :=
  forall f, norm1 r (fun k => b r f k - csum r (fun j => f j * cconj (root r (j * k))))%C <= e * (sqrt (INR r) * norm1 r f) + d.
(** A table whose entries are rounded from the exact values. *)
Definition rounded_forward_table (f : R -> R) : table := fun n k => (f (fst (root n k)), f (- snd (root n k))).
