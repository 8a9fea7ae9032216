(** simulation.py once more, for device states that are not finite. A number is [None] when it is infinite or NaN (a complex number
    when one of its parts is); sums and products of such numbers are again not finite. Overflow is not modelled. *)
From Coq Require Import Reals ZArith Arith List Bool Lia.
From Coquelicot Require Import Complex.
From Verif Require Import Cx Sums DFT PyBase ProfileModel SlmModel LibModel DmdModel SimModel.
Open Scope R_scope.

Record nsim := { n_pad_x : Z; n_pad_y : Z; n_input : option (tensor (option C)); n_output : option (tensor (option C)); n_image : option (tensor (option C)) }.
(** simulation.py:44-67. *)
Definition n_new (px py : Z) : nsim := {| n_pad_x := px; n_pad_y := py; n_input := None; n_output := None; n_image := None |}.
(** slm.py:390-391; 484-485 and 167-168 as in [state_tensor]. The values outside the array do not matter. *)
Definition n_state_tensor (d : device) : res (tensor (option C)) :=
  match d with
  | DevDmd d =>
      match d_state d with
      | DBool ny nx f => Ok (T2 ny nx (fun i j => Some (RtoC (if f i j then 1 else 0))))
      | DFloat ny nx f => Ok (T2 ny nx (fun i j => if (Nat.ltb i ny && Nat.ltb j nx)%bool then option_map RtoC (fin_of (f i j)) else Some (RtoC (xr_val (f i j)))))
      end
  | d => rmap (tmap Some) (state_tensor d)
  end.
Definition n_mul (a b : option C) : option C := match a, b with Some a, Some b => Some (a * b)%C | _, _ => None end.
(** tf.pad as in [tf_pad]. *)
Definition n_pad_fun (py px ny nx : nat) (f : arr) : arr := fun i j =>
  if (Nat.leb py i && Nat.ltb i (py + ny) && Nat.leb px j && Nat.ltb j (px + nx))%bool then f (i - py)%nat (j - px)%nat else Some (RtoC 0).
Definition n_tf_pad (py px : Z) (t : tensor (option C)) : res (tensor (option C)) :=
  match t with
  | T0 _ => Err ETensorFlow
  | T2 ny nx f =>
      if (py <? 0)%Z then Err ETensorFlow else if (px <? 0)%Z then Err ETensorFlow
      else let a := Z.to_nat py in let b := Z.to_nat px in Ok (T2 (a + ny + a) (b + nx + b) (n_pad_fun a b ny nx f))
  end.
(** simulation.py:139-141; one number that is not finite reaches every output of the transform ([oifft2]). *)
Definition n_to_image (t : tensor (option C)) : tensor (option C) :=
  match t with
  | T0 z => T0 z
  | T2 ny nx f => T2 ny nx (fftshift2 ny nx (oifft2 ny nx (ifftshift2 ny nx f)))
  end.
Definition n_fields (m : nsim) (i o p : option (tensor (option C))) : nsim :=
  {| n_pad_x := n_pad_x m; n_pad_y := n_pad_y m; n_input := i; n_output := o; n_image := p |}.
(** simulation.py:69-92. *)
Definition n_Nx (s : slm) (m : nsim) : Z := (Z.of_nat (s_Nx s) + 2 * n_pad_x m)%Z.
Definition n_Ny (s : slm) (m : nsim) : Z := (Z.of_nat (s_Ny s) + 2 * n_pad_y m)%Z.
(** simulation.py:125-146. *)
Definition n_propagate (h : heap) (dev : device) (m : nsim) (input : parg) : nsim * res unit :=
  let s := dev_slm dev in
  match profile_to_tensor_c h s input true with
  | Err e => (m, Err e)
  | Ok inp =>
    match n_tf_pad (n_pad_y m) (n_pad_x m) (tmap Some inp) with
    | Err e => (m, Err e)
    | Ok fin =>
      let m1 := n_fields m (Some fin) (n_output m) (n_image m) in
      match (let! st := n_state_tensor dev in tmap2 n_mul (tmap Some inp) st) with
      | Err e => (m1, Err e)
      | Ok out =>
        match n_tf_pad (n_pad_y m) (n_pad_x m) out with
        | Err e => (m1, Err e)
        | Ok fout =>
          let m2 := n_fields m (Some fin) (Some fout) (n_image m) in
          if Req_EM_T (scaling_factor s) 0 then (m2, Err ZeroDivisionError)
          else
            let norm := IZR (n_Nx s m * n_Ny s m) * fourier_plane_pixel_area s / scaling_factor s in
            (n_fields m (Some fin) (Some fout) (Some (tmap (option_map (fun z => (z * RtoC norm)%C)) (n_to_image fout))), Ok tt)
        end
      end
    end
  end.
(** simulation.py:148-193. *)
Definition n_intensity (t : tensor (option C)) : tensor (option R) := tmap (option_map (fun z => fst z ^ 2 + snd z ^ 2)) t.
(** np.sum. *)
Definition n_sum (t : tensor (option R)) : option R :=
  match t with
  | T0 r => r
  | T2 ny nx f => if allb2 (fun i j => isome (f i j)) ny nx then Some (rsum2 ny nx (fun i j => match f i j with Some r => r | None => 0 end)) else None
  end.
Definition n_power (o : option (tensor (option C))) (area : res R) : res (option R) :=
  let! a := area in match o with None => Err TypeError | Some t => Ok (option_map (fun p => p * a) (n_sum (n_intensity t))) end.
(** simulation.py:74-76. *)
Definition n_image_area (s : slm) (m : nsim) : res R :=
  if (n_Nx s m * n_Ny s m =? 0)%Z then Err ZeroDivisionError
  else if Req_EM_T (pixel_size s) 0 then Err ZeroDivisionError
  else Ok (scaling_factor s ^ 2 / IZR (n_Nx s m * n_Ny s m) / pixel_size s ^ 2).
(** simulation.py:195-225. *)
Definition n_input_power (s : slm) (m : nsim) : res (option R) := n_power (n_input m) (Ok (fourier_plane_pixel_area s)).
Definition n_output_power (s : slm) (m : nsim) : res (option R) := n_power (n_output m) (Ok (fourier_plane_pixel_area s)).
Definition n_image_power (s : slm) (m : nsim) : res (option R) := n_power (n_image m) (n_image_area s m).
(** simulation.py:255-269; tf.where selects, so a NaN inside the mask does not survive. *)
Definition n_block (d : dmd) (m : nsim) (r : option R) : nsim * res unit :=
  let s := d_slm d in
  match n_output m with
  | None => (m, Err TypeError)
  | Some _ =>
      let rr := match r with Some r => Fin r | None => xdiv (xdiv (Fin (scaling_factor s)) (Fin (d_p d))) (Fin 2) end in
      let (x, y) := image_grid_of (Z.to_nat (n_Nx s m)) (Z.to_nat (n_Ny s m)) (pixel_size s) (scaling_factor s) in
      match n_image m with
      | None => (m, Err ETensorFlow)
      | Some img =>
          match tmap2 (fun (p : R * R) z => if below (fst p ^ 2 + snd p ^ 2) rr then Some (RtoC 0) else z)
                  (match x with T2 ny nx f => T2 ny nx (fun i j => (f i j, tget y i j)) | T0 a => T0 (a, tget y 0 0) end)
                  img with
          | Err e => (m, Err e)
          | Ok img' => (n_fields m (n_input m) (n_output m) (Some img'), Ok tt)
          end
      end
  end.
