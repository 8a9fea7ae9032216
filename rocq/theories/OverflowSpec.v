(** Vocabulary for overflow (C146, C147). *)
From Coq Require Import Reals ZArith.
From Verif Require Import FloatModel FloatSpec FlHoloModel OverflowModel.
Open Scope R_scope.

(** At most k powers of two above one; at least k powers of two below one. *)
Definition below2 (k : nat) (x : R) : Prop := Rabs x <= 2 ^ k.
Definition above2 (k : nat) (x : R) : Prop := / 2 ^ k <= Rabs x.
(** Errors no larger than those of single precision (with gradual underflow or flush to zero), and at least its range. *)
Definition rounds (f : R -> R) : Prop := forall x, Rabs (f x - x) <= / 2 ^ 24 * Rabs x + / 2 ^ 120.
Record roomy (L : limits) (a : fpu) : Prop := {
  ro_rnd : rounds (rnd a); ro_dbl : rounds (dbl a); ro_lim : 2 ^ 127 <= lim L; ro_dlim : 2 ^ 127 <= dlim L;
  ro_pos : forall x, 0 <= x -> 0 <= rnd a x;
  ro_cos : forall x, Rabs (f_cos a x) <= 1; ro_sin : forall x, Rabs (f_sin a x) <= 1; ro_tanh : forall x, Rabs (f_tanh a x) <= 1;
  ro_acos : forall x, Rabs (f_acos a x) <= 4; ro_asin : forall x, Rabs (f_asin a x) <= 4 }.
(** The largest finite numbers of IEEE 754. *)
Definition max32 : R := 2 ^ 128 - 2 ^ 104.
Definition max64 : R := 2 ^ 1024 - 2 ^ 971.
Definition single_limits : limits := {| lim := max32; dlim := max64 |}.
Definition double_limits : limits := {| lim := max64; dlim := max64 |}.
(** Numbers of pixels added up. *)
Fixpoint terms (t : summation) : nat := match t with Pixel _ _ => 1 | Added l r => terms l + terms r end.
