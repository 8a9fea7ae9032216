(** Gratings with amplitudes that are not finite. *)
From Coq Require Import Reals ZArith List.
From Verif Require Import Cx PyBase ProfileModel SlmModel LibModel DmdModel.
Open Scope R_scope.

(** slm.py:213-221 with the amplitude given as an array or number that may contain infinities and NaN (np.inf, np.nan, or the
    result of a division); profile_to_tensor (131-165) hands such values on unchanged. The phases are finite. The model of
    _lib.py:41-209 takes extended reals already. *)
Definition xgrating_of (h : heap) (d : dmd) (amp : tensor xr) (pin pout : parg) (m : method) (kw : kwargs) (u : nat -> nat -> R) : res dstate :=
  let s := d_slm d in
  let! pin := profile_to_tensor_r h s pin true in
  let! pout := profile_to_tensor_r h s pout true in
  let (x, y) := fourier_plane_grid s in
  let! g := calculate_dmd_grating m (d_neg d) amp pin pout x y (d_p d) (d_theta d) kw (raw_tensor (k_input kw)) (raw_tensor (k_window kw)) u in
  to_dstate g.
Definition xset_grating (h : heap) (d : dmd) (amp : tensor xr) (pin pout : parg) (m : method) (kw : kwargs) (u : nat -> nat -> R) : dmd * res unit :=
  match xgrating_of h d amp pin pout m kw u with
  | Ok s => (with_state d s, Ok tt)
  | Err e => (d, Err e)
  end.
(** slm.py:230-268 in the same way. *)
Definition xcircular_patch (h : heap) (d : dmd) (ci cj : R) (amp : tensor xr) (pin pout : parg) (diam : R) (m : method) (kw : kwargs)
  (u : nat -> nat -> R) : dmd * res unit :=
  let s := d_slm d in
  match xgrating_of h d amp pin pout m kw u with
  | Err e => (d, Err e)
  | Ok new =>
      let (ii, jj) := fourier_plane_pixel_grid s in
      let mask := fun i j => circular_mask ci cj diam (tget ii i j) (tget jj i j) in
      match masked_assign (d_state d) new mask (s_Ny s) (s_Nx s) with
      | Some st => (with_state d st, Ok tt)
      | None => (d, Err ETensorFlow)
      end
  end.
