(** Vocabulary for C115: a Laguerre-Gauss mode as a sum of Hermite-Gauss modes. *)
From Coq Require Import Reals ZArith Arith.
From Coquelicot Require Import Complex.
From Verif Require Import Cx ModeSpec HermSpec.
Open Scope R_scope.

(** (x^2 + y^2)^p (x + j y)^q multiplied out, with e n m in place of x^n y^m. *)
Fixpoint vortex (j : C) (q : nat) (e : nat -> nat -> C) : C :=
  match q with O => e 0%nat 0%nat | S k => vortex j k (fun n m => e (S n) m + j * e n (S m))%C end.
Fixpoint rings (j : C) (p q : nat) (e : nat -> nat -> C) : C :=
  match p with O => vortex j q e | S k => rings j k q (fun n m => e (S (S n)) m + e n (S (S m)))%C end.
(** The same with all coefficients replaced by their moduli. *)
Fixpoint vortex_abs (q : nat) (e : nat -> nat -> R) : R :=
  match q with O => e 0%nat 0%nat | S k => vortex_abs k (fun n m => e (S n) m + e n (S m)) end.
Fixpoint rings_abs (p q : nat) (e : nat -> nat -> R) : R :=
  match p with O => vortex_abs q e | S k => rings_abs k q (fun n m => e (S (S n)) m + e n (S (S m))) end.
(** The helicity of exp(-i l phi), and the normalisation. *)
Definition helix (l : Z) : C := if (l <? 0)%Z then Ci else (- Ci)%C.
Definition ring_norm (p q : nat) : R := (-4) ^ p * INR (fact p) * 2 ^ q.
