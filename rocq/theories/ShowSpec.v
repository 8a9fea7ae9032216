(** Where the mirrors stand.  Interpretations of the call logs only, independent of the controller code. *)
From Coq Require Import ZArith Arith List Bool Lia.
From Verif Require Import PyBase ControllerModel ControllerSpec.
Import ListNotations.

(** ALP: whether projection inversion is switched on; allocating the device anew starts from the defaults. *)
Definition inv_step (b : bool) (x : alp_call) : bool :=
  match x with A_Initialize => false | A_ProjInversionEnable => true | _ => b end.
Definition board_inverted (log : list alp_call) : bool := fold_left inv_step log false.
(** ALP: mirror (row i, column j) of picture k of the running sequence, on a board of h rows and w columns, stands at b. *)
Definition alp_mirror (log : list alp_call) (h w k i j : nat) (b : bool) : Prop :=
  exists q data z, d_running (alp_dev log) = Some q /\ k < q_frames q /\ q_data q = Some data /\
    nth_error data (k * (h * w) + (i * w + j)) = Some z /\ (z = 0%Z \/ z = 255%Z) /\ b = xorb (Z.eqb z 255) (board_inverted log).
(** Luxbeam: mirror (i, j) stands at b after t triggers.  The inversion asked for at construction is the vendor object's. *)
Definition lux_mirror (invert : bool) (log : list lux_call) (h w t i j : nat) (b : bool) : Prop :=
  let d := lux_dev log in
  l_running d = true /\
  exists k n a z, after_triggers (l_program d) (l_reg0 d) t k /\ k_shown k = Some n /\ l_images d n = Some a /\
    im_h a = h /\ im_w a = w /\ nth_error (im_pix a) (i * w + j) = Some z /\ b = xorb z invert.
