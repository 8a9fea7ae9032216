(** Model of pySLM2/simulation.py. *)
From Coq Require Import Reals ZArith Arith List Bool Lia.
From Coquelicot Require Import Complex.
From Verif Require Import Cx Sums DFT PyBase ProfileModel SlmModel LibModel DmdModel.
Import ListNotations.
Open Scope R_scope.

(** simulation.py:44-61.  The simulation refers to a device object; methods take the device in its current
    state as an argument, the three field attributes are the simulation's own state. *)
Record sim := { pad_x : Z; pad_y : Z; f_input : option (tensor C); f_output : option (tensor C); f_image : option (tensor C) }.
(** Dynamically typed constructor arguments (isinstance(True, int) holds in Python). *)
Inductive pyarg := PyInt (z : Z) | PyBool (b : bool) | PyFloat (r : R) | PyOther.
Definition as_int (a : pyarg) : option Z :=
  match a with PyInt z => Some z | PyBool b => Some (Z.b2z b) | _ => None end.
(** [None]: the first argument is not an SLM. *)
Definition sim_new (d : option device) (px py : pyarg) : res sim :=
  match as_int px with
  | None => Err TypeError
  | Some x => match as_int py with
      | None => Err TypeError
      | Some y => match d with
          | None => Err TypeError
          | Some _ => Ok {| pad_x := x; pad_y := y; f_input := None; f_output := None; f_image := None |}
          end
      end
  end.
(** simulation.py:242-248. *)
Definition dmd_sim_new (d : option device) (px py : pyarg) : res sim :=
  match d with Some (DevDmd _) => sim_new d px py | _ => Err TypeError end.
(** simulation.py:63-67. *)
Definition clear (m : sim) : sim :=
  {| pad_x := pad_x m; pad_y := pad_y m; f_input := None; f_output := None; f_image := None |}.
(** simulation.py:69-92. *)
Definition sim_Nx (s : slm) (m : sim) : Z := (Z.of_nat (s_Nx s) + 2 * pad_x m)%Z.
Definition sim_Ny (s : slm) (m : sim) : Z := (Z.of_nat (s_Ny s) + 2 * pad_y m)%Z.
Definition fourier_plane_pixel_area (s : slm) : R := pixel_size s ^ 2.
Definition image_plane_pixel_area (s : slm) (m : sim) : res R :=
  if (sim_Nx s m * sim_Ny s m =? 0)%Z then Err ZeroDivisionError
  else if Req_EM_T (pixel_size s) 0 then Err ZeroDivisionError
  else Ok (scaling_factor s ^ 2 / IZR (sim_Nx s m * sim_Ny s m) / pixel_size s ^ 2).
(** simulation.py:94-104 (padded sizes not positive: outside the model, the nat conversion then gives an empty
    grid). *)
Definition image_plane_padded_grid (s : slm) (m : sim) : tensor R * tensor R :=
  image_grid_of (Z.to_nat (sim_Nx s m)) (Z.to_nat (sim_Ny s m)) (pixel_size s) (scaling_factor s).
(** simulation.py:111-118. *)
Definition fourier_plane_padded_grid (s : slm) (m : sim) : tensor R * tensor R :=
  grid_map (pixel_to_coord s)
    (mesh_ij (map IZR (arange (- pad_y m) (Z.of_nat (s_Ny s) + pad_y m)))
             (map IZR (arange (- pad_x m) (Z.of_nat (s_Nx s) + pad_x m)))).

(** tf.pad(t, [[py, py], [px, px]]) with zeros: rank 2 and non-negative paddings only. *)
Definition pad_fun (py px ny nx : nat) (f : nat -> nat -> C) (i j : nat) : C :=
  if (Nat.leb py i && Nat.ltb i (py + ny) && Nat.leb px j && Nat.ltb j (px + nx))%bool
  then f (i - py)%nat (j - px)%nat else RtoC 0.
Definition tf_pad (py px : Z) (t : tensor C) : res (tensor C) :=
  match t with
  | T0 _ => Err ETensorFlow
  | T2 ny nx f =>
      if (py <? 0)%Z then Err ETensorFlow else if (px <? 0)%Z then Err ETensorFlow
      else let a := Z.to_nat py in let b := Z.to_nat px in
           Ok (T2 (a + ny + a) (b + nx + b) (pad_fun a b ny nx f))
  end.
(** fftshift(ifft2(ifftshift(t))). *)
Definition to_image (t : tensor C) : tensor C :=
  match t with
  | T0 z => T0 z
  | T2 ny nx f => T2 ny nx (fftshift2 ny nx (ifft2 ny nx (ifftshift2 ny nx f)))
  end.
Definition with_fields (m : sim) (i o p : option (tensor C)) : sim :=
  {| pad_x := pad_x m; pad_y := pad_y m; f_input := i; f_output := o; f_image := p |}.
(** simulation.py:125-146; the three attributes are assigned one after the other. *)
Definition propagate_to_image (h : heap) (dev : device) (m : sim) (input : parg) : sim * res unit :=
  let s := dev_slm dev in
  match profile_to_tensor_c h s input true with
  | Err e => (m, Err e)
  | Ok inp =>
    match tf_pad (pad_y m) (pad_x m) inp with
    | Err e => (m, Err e)
    | Ok fin =>
      let m1 := with_fields m (Some fin) (f_output m) (f_image m) in
      match (let! st := state_tensor dev in tmap2 Cmult inp st) with
      | Err e => (m1, Err e)
      | Ok out =>
        match tf_pad (pad_y m) (pad_x m) out with
        | Err e => (m1, Err e)
        | Ok fout =>
          let m2 := with_fields m (Some fin) (Some fout) (f_image m) in
          if Req_EM_T (scaling_factor s) 0 then (m2, Err ZeroDivisionError)
          else
            let norm := IZR (sim_Nx s m * sim_Ny s m) * fourier_plane_pixel_area s / scaling_factor s in
            (with_fields m (Some fin) (Some fout) (Some (tmap (fun z => (z * RtoC norm)%C) (to_image fout))), Ok tt)
        end
      end
    end
  end.

(** simulation.py:148-193 intensities. *)
Definition intensity (t : tensor C) : tensor R := tmap (fun z => fst z ^ 2 + snd z ^ 2) t.
Definition tsum (t : tensor R) : R := match t with T0 r => r | T2 ny nx f => rsum2 ny nx f end.
Definition input_intensity (m : sim) : option (tensor R) := option_map intensity (f_input m).
Definition output_intensity (m : sim) : option (tensor R) := option_map intensity (f_output m).
Definition image_plane_intensity (m : sim) : option (tensor R) := option_map intensity (f_image m).
(** np.sum(None) is None and None * float is a TypeError. *)
Definition power (o : option (tensor R)) (area : res R) : res R :=
  let! a := area in match o with None => Err TypeError | Some t => Ok (tsum t * a) end.
(** simulation.py:195-225. *)
Definition get_input_power (s : slm) (m : sim) : res R := power (input_intensity m) (Ok (fourier_plane_pixel_area s)).
Definition get_output_power (s : slm) (m : sim) : res R := power (output_intensity m) (Ok (fourier_plane_pixel_area s)).
Definition get_image_plane_power (s : slm) (m : sim) : res R := power (image_plane_intensity m) (image_plane_pixel_area s m).

(** simulation.py:255-269; [below q r] is q < r ** 2 for an IEEE number r. *)
Definition below (q : R) (r : xr) : bool :=
  match r with Fin r => if Rlt_dec q (r ^ 2) then true else false | PInf | MInf => true | NaN => false end.
Definition block_zeroth_order (d : dmd) (m : sim) (r : option R) : sim * res unit :=
  let s := d_slm d in
  match f_output m with
  | None => (m, Err TypeError)
  | Some _ =>
      let rr := match r with Some r => Fin r | None => xdiv (xdiv (Fin (scaling_factor s)) (Fin (d_p d))) (Fin 2) end in
      let (x, y) := image_plane_padded_grid s m in
      match f_image m with
      | None => (m, Err ETensorFlow)
      | Some img =>
          match tmap2 (fun (p : R * R) z => if below (fst p ^ 2 + snd p ^ 2) rr then RtoC 0 else z)
                  (match x with T2 ny nx f => T2 ny nx (fun i j => (f i j, tget y i j)) | T0 a => T0 (a, tget y 0 0) end)
                  img with
          | Err e => (m, Err e)
          | Ok img' => (with_fields m (f_input m) (f_output m) (Some img'), Ok tt)
          end
      end
  end.
