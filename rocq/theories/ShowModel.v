(** Handing a computed pattern to a controller: dmd.dmd_state as the argument of load_single / load_multiple. *)
From Coq Require Import Reals ZArith Arith List Bool Lia.
From Verif Require Import PyBase SlmModel LibModel DmdModel ControllerModel.
Import ListNotations.

(** slm.py:198, 207, 211, 219, 268, 370: the attribute dmd_state as the numpy array the controllers are given.  A grey pattern (method
    "ideal", floating point) has no image here: the controllers ask for dtype bool (controller.py:137, 164, 254, 272), and what the
    vendor libraries make of other types is not modelled. *)
Definition state_image (st : dstate) : option image :=
  match st with
  | DBool ny nx f => Some {| im_h := ny; im_w := nx; im_pix := flatten ny nx f |}
  | DFloat _ _ _ => None
  end.
(** The list of the patterns of several devices (or of one device at several moments). *)
Fixpoint state_images (l : list dstate) : option (list image) :=
  match l with
  | [] => Some []
  | st :: r => match state_image st, state_images r with Some a, Some t => Some (a :: t) | _, _ => None end
  end.
