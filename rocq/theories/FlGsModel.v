(** Gerchberg-Saxton and MRAF with rounding: _lib.py:322-404. The transforms, the angle of a complex number and the cosine and sine are
    arguments. Simplification: overflow is not modelled. *)
From Coq Require Import Reals ZArith.
From Coquelicot Require Import Complex.
From Verif Require Import Cx DFT LibModel FloatModel FlSimModel FlHoloModel FftModel.
Open Scope R_scope.

(** _lib.py:348, 352, 396, 400: tf.exp(1j * phase). The product with 1j is exact and the exponential of an imaginary number is the library's cosine and sine. *)
Definition fl_cis (a : fpu) (phi : R) : C := (f_cos a phi, f_sin a phi).
(** _lib.py:341, 381: 2 * math.pi is Python's; [u] the random number. *)
Definition fl_start (a : fpu) (u : R) : R := rnd a (rnd a (dbl a (2 * dbl a PI)) * u).
(** _lib.py:346-353; [F] the inverse transform, [G] the transform, [Tc] the shifted target. *)
Definition fl_gs_step (a : fpu) (q : polar) (F G : transform) (ny nx : nat) (E : nat -> nat -> C) (Tc : nat -> nat -> R) (ph : nat -> nat -> R) : nat -> nat -> R :=
  let modulated := fun i j => fl_cmul a (E i j) (fl_cis a (ph i j)) in
  let image := F ny nx modulated in
  let corrected := fun i j => fl_cmul a (RtoC (Tc i j)) (fl_cis a (f_angle q (image i j))) in
  let back := G ny nx corrected in
  fun i j => f_angle q (back i j).
(** _lib.py:322-355. *)
Definition fl_gs_array (a : fpu) (q : polar) (F G : transform) (ny nx : nat) (E : nat -> nat -> C) (T u : nat -> nat -> R) (N : Z) : nat -> nat -> R :=
  iter (Z.to_nat N) (fl_gs_step a q F G ny nx E (ifftshift2 ny nx T)) (fun i j => fl_start a (u i j)).
(** _lib.py:316, 386-389: the mixing factor and one minus it. *)
Definition fl_mix (a : fpu) (m : R) : R * R := (rnd a m, rnd a (1 - rnd a m)).
(** _lib.py:394-402; [W] is the shifted window. *)
Definition fl_mraf_step (a : fpu) (q : polar) (F G : transform) (ny nx : nat) (E : nat -> nat -> C) (Tc : nat -> nat -> R) (W : nat -> nat -> C) (m : R)
  (ph : nat -> nat -> R) : nat -> nat -> R :=
  let (m1, m2) := fl_mix a m in
  let modulated := fun i j => fl_cmul a (E i j) (fl_cis a (ph i j)) in
  let image := F ny nx modulated in
  let corrected := fun i j =>
    fl_cadd a (fl_cmul a (fl_cmul a (fl_cmul a (RtoC m1) (RtoC (Tc i j))) (fl_cis a (f_angle q (image i j)))) (W i j))
              (fl_cmul a (fl_cmul a (RtoC m2) (image i j)) (fl_cadd a (RtoC 1) (- W i j)%C)) in
  let back := G ny nx corrected in
  fun i j => f_angle q (back i j).
(** _lib.py:357-404. *)
Definition fl_mraf_array (a : fpu) (q : polar) (F G : transform) (ny nx : nat) (E : nat -> nat -> C) (T : nat -> nat -> R) (W : nat -> nat -> C) (m : R)
  (u : nat -> nat -> R) (N : Z) : nat -> nat -> R :=
  iter (Z.to_nat N) (fl_mraf_step a q F G ny nx E (ifftshift2 ny nx T) (ifftshift2 ny nx W) m) (fun i j => fl_start a (u i j)).
