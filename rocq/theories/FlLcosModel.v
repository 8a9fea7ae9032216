(** The phase factors of an LCOS with rounding, and the power of the input field (simulation.py:195-203). *)
From Coq Require Import Reals ZArith List.
From Coquelicot Require Import Complex.
From Verif Require Import Cx DFT SimModel FloatModel FlSimModel.
Open Scope R_scope.

(** slm.py:484-485 _state_tensor: the cast rounds the phase, multiplying by -1j changes its sign, and the exponential of an imaginary number
    is the library's cosine and sine (exp(0) = 1 and the product with it are exact). *)
Definition fl_phase_factor (a : fpu) (phi : R) : C := (f_cos a (- rnd a phi), f_sin a (- rnd a phi)).
(** simulation.py:134-135, 195-203. *)
Definition fl_input_power (a : fpu) (w : promotion) (py px ny nx : nat) (ps : R) (input : nat -> nat -> C) (t : summation) : R :=
  fl_power a w (fl_fourier_area a ps) (pad_fun py px ny nx input) t.
