(** Vocabulary for the statements about analysis.py. *)
From Coq Require Import Reals ZArith Arith List Bool Lia.
From Verif Require Import Cx Sums ZernSpec.
Import ListNotations.
Open Scope R_scope.

(** Coordinates of pixel (row i, column j) of an ny x nx array in units of pixels: the origin is the centre of the
    array, x grows with the column and y decreases with the row. *)
Definition px (nx j : nat) : R := INR j - (INR nx - 1) / 2.
Definition py (ny i : nat) : R := (INR ny - 1) / 2 - INR i.
Definition dist_sq (ny nx i j : nat) : R := px nx j ^ 2 + py ny i ^ 2.
(** Pixels strictly inside the circle of the given radius. *)
Definition inside (ny nx : nat) (radius : R) : list (nat * nat) :=
  filter (fun ij => if Rlt_dec (dist_sq ny nx (fst ij) (snd ij)) (radius ^ 2) then true else false) (list_prod (seq 0 ny) (seq 0 nx)).
Definition total (l : list (nat * nat)) (f : nat -> nat -> R) : R := fold_right (fun ij acc => f (fst ij) (snd ij) + acc) 0 l.
Definition average (l : list (nat * nat)) (f : nat -> nat -> R) : R := total l f / INR (length l).
(** z samples a Zernike mode of unit amplitude on the pixels. *)
Definition samples_mode (ny nx : nat) (radius : R) (n m : Z) (e : bool) (z : nat -> nat -> R) : Prop :=
  forall i j r phi, (i < ny)%nat -> (j < nx)%nat -> 0 <= r -> px nx j = r * cos phi -> py ny i = r * sin phi ->
  z i j = if (e || if Rle_dec r radius then true else false)%bool then zmode 1 radius n m true r phi else 0.
Definition agree (ny nx : nat) (f g : nat -> nat -> R) : Prop := forall i j, (i < ny)%nat -> (j < nx)%nat -> f i j = g i j.
