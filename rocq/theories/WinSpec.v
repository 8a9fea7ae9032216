(** Vocabulary for the error of a hologram inside a signal window (C105, C106). *)
From Coq Require Import Reals ZArith Arith List Bool Lia.
From Coquelicot Require Import Complex.
From Verif Require Import Cx Sums PyBase ProfileModel SlmModel LibModel DmdModel SimModel SimSpec DmdSpec HoloSpec.
Open Scope R_scope.

(** Squared difference of two images, weighted by the window. *)
Definition window_difference (ny nx : nat) (w : nat -> nat -> R) (I I' : nat -> nat -> C) : R :=
  rsum2 ny nx (fun u v => w u v * Cmod (I u v - I' u v)%C ^ 2).
(** Image shown by a mirror pattern, and by a grey pattern, in the field F. *)
Definition shown (ny nx : nat) (F : nat -> nat -> C) (f : nat -> nat -> bool) : nat -> nat -> C :=
  image_of ny nx (fun i j => (F i j * RtoC (if f i j then 1 else 0))%C).
Definition shown_grey (ny nx : nat) (F : nat -> nat -> C) (q : nat -> nat -> R) : nat -> nat -> C :=
  image_of ny nx (fun i j => (F i j * RtoC (q i j))%C).
(** The grey patterns an IFTA run goes through: [G 0] is q, and [G (k+1)] is read off from the corrected image (cf. [ifta_run]). *)
Definition ifta_patterns (ny nx : nat) (F V : nat -> nat -> C) (q : nat -> nat -> R) (N : Z) (G : nat -> nat -> nat -> R) : Prop :=
  (forall i j, (i < ny)%nat -> (j < nx)%nat -> G O i j = q i j) /\
  (forall k, (k < Z.to_nat N)%nat -> exists B : nat -> nat -> R,
     (forall i j, (i < ny)%nat -> (j < nx)%nat -> clipped (INR (k + 1) / (2 * IZR N)) (G k i j) (B i j)) /\
     let fixed := fun u v => (shown_grey ny nx F B u v + V u v * (shown_grey ny nx F q u v - shown_grey ny nx F B u v))%C in
     forall i j, (i < ny)%nat -> (j < nx)%nat ->
       (F i j = RtoC 0 -> G (S k) i j = 0) /\
       (F i j <> RtoC 0 -> G (S k) i j = fst (spectrum_of ny nx fixed i j / F i j)%C)).
(** The pattern obtained by rounding a grey one. *)
Definition rounded (ny nx : nat) (g : nat -> nat -> R) (f : nat -> nat -> bool) : Prop :=
  forall i j, (i < ny)%nat -> (j < nx)%nat -> (f i j = true <-> 1 / 2 < g i j).
