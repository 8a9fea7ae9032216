(** simulation.py:125-146 once more, for beams that are not finite: [None] is a sample with an infinite or undefined part, as in NanModel.v.
    The beam comes as an array or tensor; profile objects are evaluated in ProfileModel.v, over finite numbers. *)
From Coq Require Import Reals ZArith Arith List Bool Lia.
From Coquelicot Require Import Complex.
From Verif Require Import Cx Sums DFT PyBase ProfileModel SlmModel LibModel DmdModel SimModel NanModel.
Open Scope R_scope.

(** simulation.py:131-146, after the conversion of the argument in line 130. *)
Definition b_propagate (dev : device) (m : nsim) (inp : tensor (option C)) : nsim * res unit :=
  let s := dev_slm dev in
  match n_tf_pad (n_pad_y m) (n_pad_x m) inp with
  | Err e => (m, Err e)
  | Ok fin =>
    let m1 := n_fields m (Some fin) (n_output m) (n_image m) in
    match (let! st := n_state_tensor dev in tmap2 n_mul inp st) with
    | Err e => (m1, Err e)
    | Ok out =>
      match n_tf_pad (n_pad_y m) (n_pad_x m) out with
      | Err e => (m1, Err e)
      | Ok fout =>
        let m2 := n_fields m (Some fin) (Some fout) (n_image m) in
        if Req_EM_T (scaling_factor s) 0 then (m2, Err ZeroDivisionError)
        else
          let norm := IZR (n_Nx s m * n_Ny s m) * fourier_plane_pixel_area s / scaling_factor s in
          (n_fields m (Some fin) (Some fout) (Some (tmap (option_map (fun z => (z * RtoC norm)%C)) (n_to_image fout))), Ok tt)
      end
    end
  end.
