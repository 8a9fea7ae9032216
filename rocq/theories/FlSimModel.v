(** propagate_to_image and the powers (simulation.py:69-76, 125-146, 195-225) with rounding. The inverse Fourier transform is any function
    [F ny nx]; the device's state and the input field are given as complex arrays of the backend's precision. *)
From Coq Require Import Reals ZArith List.
From Coquelicot Require Import Complex.
From Verif Require Import Cx DFT SimModel FloatModel.
Open Scope R_scope.

Definition transform := nat -> nat -> (nat -> nat -> C) -> nat -> nat -> C.
(** simulation.py:69-76; Python's floats. *)
Definition fl_fourier_area (a : fpu) (ps : R) : R := dbl a (ps ^ 2).
Definition fl_image_area (a : fpu) (ny nx : nat) (ps sf : R) : R := dbl a (dbl a (dbl a (sf ^ 2) / dbl a (INR (ny * nx))) / dbl a (ps ^ 2)).
(** simulation.py:146, the factor; it becomes a complex number of the backend's precision when it is multiplied to the tensor. *)
Definition fl_norm_factor (a : fpu) (ny nx : nat) (ps sf : R) : R := dbl a (dbl a (dbl a (INR (ny * nx)) * fl_fourier_area a ps) / sf).
(** simulation.py:137-140: the field behind the device; padding copies. *)
Definition fl_output (a : fpu) (py px ny nx : nat) (input state : nat -> nat -> C) : nat -> nat -> C :=
  pad_fun py px ny nx (fun i j => fl_cmul a (input i j) (state i j)).
(** simulation.py:142-146; the shifts copy. *)
Definition fl_to_image (a : fpu) (F : transform) (ny nx : nat) (ps sf : R) (out : nat -> nat -> C) (i j : nat) : C :=
  fl_cmul a (fftshift2 ny nx (F ny nx (ifftshift2 ny nx out)) i j) (RtoC (rnd a (fl_norm_factor a ny nx ps sf))).
(** simulation.py:205-225. [ny], [nx] are the padded sizes. *)
Definition fl_output_power (a : fpu) (w : promotion) (ps : R) (out : nat -> nat -> C) (t : summation) : R := fl_power a w (fl_fourier_area a ps) out t.
Definition fl_image_power (a : fpu) (w : promotion) (ny nx : nat) (ps sf : R) (image : nat -> nat -> C) (t : summation) : R :=
  fl_power a w (fl_image_area a ny nx ps sf) image t.
