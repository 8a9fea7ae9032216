(** What a grating with an amplitude that is not finite should look like. *)
From Coq Require Import Reals ZArith List.
From Verif Require Import Cx PyBase ProfileModel SlmModel LibModel DmdModel DmdSpec.
Open Scope R_scope.

(** A number or an array of the size of the panel. *)
Definition fits {A} (d : dmd) (t : tensor A) : Prop := tshape t = S0 \/ tshape t = S2 (s_Ny (d_slm d)) (s_Nx (d_slm d)).
(** Height of the carrier at a mirror, from 0 in the troughs to 1. *)
Definition height (d : dmd) (Pi Po : nat -> nat -> R) (i j : nat) : R := (1 + cos (carrier d i j - signed (d_neg d) (Po i j - Pi i j))) / 2.
(** Method "simple": an infinite amplitude opens all mirrors except those in a trough. *)
Definition lit (a : xr) (b : R) : Prop := match a with Fin r => 1 / 2 < r * b | PInf => 0 < b | MInf => False | NaN => False end.
(** Method "ideal". *)
Definition grey (a : xr) (b : R) (g : xr) : Prop :=
  match a with
  | Fin r => g = Fin (r * b)
  | PInf => (0 < b -> g = PInf) /\ (b = 0 -> g = NaN)
  | MInf => (0 < b -> g = MInf) /\ (b = 0 -> g = NaN)
  | NaN => g = NaN
  end.
(** Method "ideal" in a patch on a panel of binary mirrors: every value but 0 counts as on. *)
Definition cast_on (a : xr) (b : R) : Prop := match a with Fin r => r * b <> 0 | _ => True end.
(** The mirrors after a patch: rule P inside the disc, unchanged outside. *)
Definition patched (d : dmd) (ci cj diam : R) (g f : nat -> nat -> bool) (P : nat -> nat -> Prop) : Prop :=
  forall i j, (i < s_Ny (d_slm d))%nat -> (j < s_Nx (d_slm d))%nat ->
    (pixel_distance ci cj i j < Rabs diam / 2 -> (f i j = true <-> P i j)) /\ (Rabs diam / 2 <= pixel_distance ci cj i j -> f i j = g i j).
