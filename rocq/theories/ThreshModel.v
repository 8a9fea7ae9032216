(** The thresholds of IFTA in floating point. *)
From Coq Require Import Reals ZArith.
From Verif Require Import FloatModel.
Open Scope R_scope.

(** _lib.py:267 step = 0.5 / tf.cast(N, dtype). *)
Definition fl_step (a : fpu) (N : nat) : R := rnd a (rnd a (1 / 2) / rnd a (INR N)).
(** _lib.py:272-274 (i+1) * step, i cast to the backend's dtype. *)
Definition fl_threshold (a : fpu) (N i : nat) : R := rnd a (rnd a (rnd a (INR i) + rnd a 1) * fl_step a N).
(** _lib.py:216-219 at one mirror: above 1 - threshold, then below the threshold. *)
Definition fl_upper (a : fpu) (t : R) : R := rnd a (rnd a 1 - t).
Definition fl_binarize (a : fpu) (t g : R) : R :=
  let b := if Rlt_dec (fl_upper a t) g then rnd a 1 else g in
  if Rlt_dec g t then 0 else b.
