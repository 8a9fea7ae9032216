(** The hologram calculation of a DMD in floating point: slm.py:270-322 (_calc_amp_phase) and slm.py:324-376 (calculate_dmd_state).
    The Fourier transform of the library is a parameter, and so are its modulus and its angle of a complex number.
    Simplifications: overflow is not modelled; ps ** 2 is rounded once; pixel size and scaling factor are given as numbers. *)
From Coq Require Import Reals.
From Coquelicot Require Import Complex.
From Verif Require Import Cx DFT PyBase SlmModel LibModel DmdModel FloatModel.
Open Scope R_scope.

(** tf.math.abs and tf.math.angle of a complex tensor (slm.py:302-311). *)
Record polar := { f_abs : C -> R; f_angle : C -> R }.
(** slm.py:296-300: fftshift(fft2(ifftshift(target))), times the window if there is one. *)
Definition fl_spectrum (a : fpu) (F : nat -> nat -> (nat -> nat -> C) -> nat -> nat -> C) (ny nx : nat) (T : nat -> nat -> C)
  (W : option (nat -> nat -> C)) (i j : nat) : C :=
  let z := fftshift2 ny nx (F ny nx (ifftshift2 ny nx T)) i j in
  match W with None => z | Some w => fl_cmul a z (w i j) end.
(** slm.py:307-311. *)
Definition fl_phase_out (q : polar) (z : C) : R := if C_dec0 z then 0 else f_angle q z.
(** slm.py:303-305, 313-320: the normalised amplitude and the maximum of the ratios. *)
Definition fl_holo_amp (a : fpu) (q : polar) (ny nx : nat) (S E : nat -> nat -> C) (i j : nat) : xr :=
  fl_amp_scaled a ny nx (fun i j => f_abs q (S i j)) (fun i j => f_abs q (E i j)) i j.
Definition fl_holo_max (a : fpu) (q : polar) (ny nx : nat) (S E : nat -> nat -> C) : xr :=
  reduce_max (T2 ny nx (fun i j => fl_ratio a (f_abs q (S i j)) (f_abs q (E i j)))).
(** slm.py:363, 370-373 with method "ideal" and "simple"; None where the amplitude is not finite. *)
Definition fl_holo_level (a : fpu) (q : polar) (neg : bool) (ny nx : nat) (ps p th : R) (S E : nat -> nat -> C) (i j : nat) : option R :=
  match fl_holo_amp a q ny nx S E i j with
  | Fin A => let (x, y) := fl_grid a ny nx ps i j in
             Some (fl_ideal a neg A (f_angle q (E i j)) (fl_phase_out q (S i j)) x y (rnd a p) (rnd a th))
  | _ => None
  end.
Definition fl_holo_mirror (a : fpu) (q : polar) (neg : bool) (ny nx : nat) (ps p th : R) (S E : nat -> nat -> C) (i j : nat) : option bool :=
  match fl_holo_amp a q ny nx S E i j with
  | Fin A => let (x, y) := fl_grid a ny nx ps i j in
             Some (fl_simple a neg A (f_angle q (E i j)) (fl_phase_out q (S i j)) x y (rnd a p) (rnd a th))
  | _ => None
  end.
(** slm.py:375: Python floats; None where the maximum is not finite or zero. *)
Definition fl_holo_eta (a : fpu) (ny nx : nat) (ps sf : R) (M : xr) : option R :=
  match M with
  | Fin m => if Req_EM_T m 0 then None
             else Some (dbl a (dbl a (dbl a (dbl a (dbl a (ps ^ 2) / sf) * INR nx) * INR ny) / m))
  | _ => None
  end.
