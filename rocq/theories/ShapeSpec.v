(** Vocabulary for the shapes of user-supplied arrays. *)
From Coq Require Import Reals ZArith Arith List Bool Lia.
From Coquelicot Require Import Complex.
From Verif Require Import Cx Sums PyBase ProfileModel SlmModel LibModel DmdModel.
Open Scope R_scope.

(** The argument is an array (real or complex, numpy or tensor) with y rows and x columns. *)
Definition array_of (a : parg) (y x : nat) : Prop :=
  (exists f, a = ATensorR (T2 y x f) \/ a = AConstR (T2 y x f)) \/ (exists f, a = ATensorC (T2 y x f) \/ a = AConstC (T2 y x f)).
(** It has the size of the device, or one row or column that can be repeated. *)
Definition fits (s : slm) (y x : nat) : Prop := (y = s_Ny s \/ y = 1%nat) /\ (x = s_Nx s \/ x = 1%nat).
Definition misfits (s : slm) (a : parg) : Prop := exists y x, array_of a y x /\ ~ fits s y x.
(** An optional argument that misfits. *)
Definition misfits_opt (s : slm) (o : option parg) : Prop := exists a, o = Some a /\ misfits s a.
Definition lstate_shape (s : lstate) : nat * nat := match s with LComplex a b _ => (a, b) | LReal a b _ => (a, b) end.
(** An array whose single row / column is repeated. *)
Definition repeated {A} (y x : nat) (f : nat -> nat -> A) (i j : nat) : A := f (if Nat.eqb y 1 then 0%nat else i) (if Nat.eqb x 1 then 0%nat else j).
(** An image that is dark except for the row through the optical axis. *)
Definition line (n : nat) (t : nat -> C) (u v : nat) : C := if Nat.eqb u (n / 2) then t v else RtoC 0.
(** A keyword argument that is a complex array; that is a complex array or number, or a real number. *)
Definition is_complex_array (o : option parg) : Prop := exists y x f, o = Some (ATensorC (T2 y x f)) \/ o = Some (AConstC (T2 y x f)).
Definition complex_or_number (o : option parg) : Prop := is_complex_array o \/ (exists z, o = Some (ATensorC (T0 z)) \/ o = Some (AConstC (T0 z))) \/ exists r, o = Some (AConstR (T0 r)).
