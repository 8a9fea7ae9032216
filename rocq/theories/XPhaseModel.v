(** Gratings with phase maps that have missing samples. *)
From Coq Require Import Reals ZArith List.
From Coquelicot Require Import Complex.
From Verif Require Import Cx PyBase ProfileModel SlmModel LibModel DmdModel NanModel NanHoloModel.
Import ListNotations.
Open Scope R_scope.

(** slm.py:213-221 and _lib.py:41-209 once more, the phases given as numbers or arrays whose samples may be undefined: [None] stands for NaN and
    for an infinity, whose cosine is NaN. Amplitudes are extended reals. Profile objects are not modelled here. *)
Definition ograting_tensor {A} (px : xr -> option R -> option R -> R -> R -> nat -> nat -> A) (amp : tensor xr) (pin pout : tensor (option R)) (x y : tensor R) : res (tensor A) :=
  let! s := bc_all (tshape amp) [tshape pin; tshape pout; tshape x; tshape y] in
  Ok (mk s (fun i j => px (tget amp i j) (tget pin i j) (tget pout i j) (tget x i j) (tget y i j) i j)).
(** _lib.py:223-284 as in [grating_ifta]. *)
Definition ograting_ifta (d : dmd) (amp : tensor xr) (pin pout : tensor (option R)) (x y : tensor R) (input window : option (tensor C)) (N : Z) (s : R) : res (tensor bool) :=
  let! g0 := ograting_tensor (fun a pi po x y _ _ => u_ideal (d_neg d) a pi po x y (d_p d) (d_theta d)) amp pin pout x y in
  match input, window, g0 with
  | Some F, Some (T2 a b W), T2 ny nx g =>
      match stretch ny nx F, stretch ny nx (T2 a b W) with
      | Some F', Some W' => Ok (T2 ny nx (ifta_array ny nx F' W' g N s))
      | _, _ => Err ETensorFlow
      end
  | _, _, _ => Err ETensorFlow
  end.
Definition ograting_of (d : dmd) (amp : tensor xr) (pin pout : tensor (option R)) (m : method) (kw : kwargs) (u : nat -> nat -> R) : res dstate :=
  let (x, y) := fourier_plane_grid (d_slm d) in
  let! g := match m with
            | MIdeal => rmap GFloat (ograting_tensor (fun a pi po x y _ _ => u_ideal (d_neg d) a pi po x y (d_p d) (d_theta d)) amp pin pout x y)
            | MSimple => rmap GBool (ograting_tensor (fun a pi po x y _ _ => u_simple (d_neg d) a pi po x y (d_p d) (d_theta d)) amp pin pout x y)
            | MRandom => rmap GBool (ograting_tensor (fun a pi po x y i j => u_random (d_neg d) a pi po x y (d_p d) (d_theta d) (dflt (k_r kw) 10) (u i j)) amp pin pout x y)
            | MIfta => rmap GBool (ograting_ifta d amp pin pout x y (raw_tensor (k_input kw)) (raw_tensor (k_window kw)) (dflt (k_N kw) 200%Z) (dflt (k_s kw) 1))
            | MUnknown => Err ValueError
            end in
  to_dstate g.
Definition oset_grating (d : dmd) (amp : tensor xr) (pin pout : tensor (option R)) (m : method) (kw : kwargs) (u : nat -> nat -> R) : dmd * res unit :=
  match ograting_of d amp pin pout m kw u with
  | Ok s => (with_state d s, Ok tt)
  | Err e => (d, Err e)
  end.
(** slm.py:230-268 in the same way. *)
Definition ocircular_patch (d : dmd) (ci cj : R) (amp : tensor xr) (pin pout : tensor (option R)) (diam : R) (m : method) (kw : kwargs)
  (u : nat -> nat -> R) : dmd * res unit :=
  let s := d_slm d in
  match ograting_of d amp pin pout m kw u with
  | Err e => (d, Err e)
  | Ok new =>
      let (ii, jj) := fourier_plane_pixel_grid s in
      let mask := fun i j => circular_mask ci cj diam (tget ii i j) (tget jj i j) in
      match masked_assign (d_state d) new mask (s_Ny s) (s_Nx s) with
      | Some st => (with_state d st, Ok tt)
      | None => (d, Err ETensorFlow)
      end
  end.
