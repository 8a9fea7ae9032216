(** calculate_dmd_state, pack_dmd_state and propagate_to_image for arrays of any rank. Nothing in slm.py looks at the rank of an array: a stack of
    K targets (rank 3) goes through and leaves a stack of K patterns in dmd_state. Not covered here: method "ifta", profile objects (always rank 2)
    and conversions of the element type; see DmdModel.v for these. *)
From Coq Require Import Reals ZArith Arith List Bool.
From Coquelicot Require Import Complex.
From Verif Require Import Cx Sums DFT PyBase ProfileModel SlmModel LibModel DmdModel SimModel.
Import ListNotations.
Open Scope R_scope.

(** A numpy array or tensor; shape and index are written with the last axis first, the order in which broadcasting aligns axes. *)
Record nd (A : Type) := Nd { nsh : list nat; nel : list nat -> A }.
Arguments Nd {A}. Arguments nsh {A}. Arguments nel {A}.
(** Arrays of rank 0 and 2 of the other model files. *)
Definition nd_of {A} (t : tensor A) : nd A :=
  match t with
  | T0 a => Nd [] (fun _ => a)
  | T2 ny nx f => Nd [nx; ny] (fun idx => match idx with j :: i :: _ => f i j | _ => f 0%nat 0%nat end)
  end.
(** Broadcasting: axes are aligned from the last one, missing axes count as size 1. *)
Fixpoint nbshape (s t : list nat) : option (list nat) :=
  match s, t with
  | [], _ => Some t
  | _, [] => Some s
  | a :: s', b :: t' => match bdim a b, nbshape s' t' with Some n, Some r => Some (n :: r) | _, _ => None end
  end.
Fixpoint nclip (s idx : list nat) : list nat :=
  match s with [] => [] | n :: s' => (if Nat.eqb n 1 then 0%nat else hd 0%nat idx) :: nclip s' (tl idx) end.
Definition nget {A} (a : nd A) (idx : list nat) : A := nel a (nclip (nsh a) idx).
Definition nmap {A B} (g : A -> B) (a : nd A) : nd B := Nd (nsh a) (fun idx => g (nel a idx)).
Definition nmap2 {A B D} (g : A -> B -> D) (a : nd A) (b : nd B) : res (nd D) :=
  match nbshape (nsh a) (nsh b) with
  | Some s => Ok (Nd s (fun idx => g (nget a idx) (nget b idx)))
  | None => Err ETensorFlow
  end.
(** tf.signal.fftshift / ifftshift without the argument axes: every axis, the leading ones too. *)
Fixpoint shift_all (f : nat -> nat -> nat) (s idx : list nat) : list nat :=
  match s, idx with n :: s', k :: r => f n k :: shift_all f s' r | _, _ => [] end.
Definition nfftshift {A} (a : nd A) : nd A := Nd (nsh a) (fun idx => nel a (shift_all shift_idx (nsh a) idx)).
Definition nifftshift {A} (a : nd A) : nd A := Nd (nsh a) (fun idx => nel a (shift_all ishift_idx (nsh a) idx)).
(** np.fft.fft2 / tf.signal.fft2d: the last two axes, separately for every index of the others; rank 0 and 1 raise. *)
Definition nfft2 (a : nd C) : res (nd C) :=
  match nsh a with
  | nx :: ny :: _ => Ok (Nd (nsh a) (fun idx => match idx with j :: i :: r => fft2 ny nx (fun i j => nel a (j :: i :: r)) i j | _ => RtoC 0 end))
  | _ => Err ETensorFlow
  end.
(** tf.math.reduce_max over all axes. *)
Fixpoint nmax (s : list nat) (el : list nat -> xr) : xr :=
  match s with [] => el [] | n :: s' => nmax s' (fun r => xmax1 (fun k => el (k :: r)) n) end.
(** slm.py:270-322 _calc_amp_phase. *)
Definition nd_calc_amp_phase (input target : nd C) (window : option (nd C)) : res (nd xr * nd R * nd R * xr) :=
  let! fp := nfft2 (nifftshift target) in
  let fp := nfftshift fp in
  let! fp := match window with None => Ok fp | Some w => nmap2 Cmult fp w end in
  let phase_in := nmap carg input in
  let amp_in := nmap Cmod input in
  let amp_out := nmap Cmod fp in
  let phase_out := nmap (fun z => if C_dec0 z then 0 else carg z) fp in
  let! amp_scaled := nmap2 safe_ratio amp_out amp_in in
  let one_over_eta_fft := nmax (nsh amp_scaled) (nel amp_scaled) in
  Ok (nmap (fun a => xdiv a one_over_eta_fft) amp_scaled, phase_in, phase_out, one_over_eta_fft).
(** _lib.py:117-209 with broadcasting, cf. LibModel.grating_tensor. *)
Definition nbshape_r (r : res (list nat)) (t : list nat) : res (list nat) :=
  let! s := r in match nbshape s t with Some s' => Ok s' | None => Err ETensorFlow end.
Definition nd_grating {A} (px : xr -> R -> R -> R -> R -> list nat -> A) (amp : nd xr) (pin pout x y : nd R) : res (nd A) :=
  let! s := fold_left nbshape_r [nsh pin; nsh pout; nsh x; nsh y] (Ok (nsh amp)) in
  Ok (Nd s (fun idx => px (nget amp idx) (nget pin idx) (nget pout idx) (nget x idx) (nget y idx) idx)).
(** The array left in dmd_state. *)
Inductive ndstate := NBool (t : nd bool) | NFloat (t : nd xr).
(** _lib.py:41-89; [u] is the uniform threshold of each element. *)
Definition nd_calculate_dmd_grating (m : method) (neg : bool) (amp : nd xr) (pin pout x y : nd R) (p theta : R) (r : option R) (u : list nat -> R) : res ndstate :=
  match m with
  | MIdeal => rmap NFloat (nd_grating (if Req_EM_T p 0 then fun _ _ _ _ _ _ => NaN else fun a pi po x y _ => px_ideal neg a pi po x y p theta) amp pin pout x y)
  | MSimple => rmap NBool (nd_grating (if Req_EM_T p 0 then fun _ _ _ _ _ _ => false else fun a pi po x y _ => px_simple neg a pi po x y p theta) amp pin pout x y)
  | MRandom => rmap NBool (nd_grating (if Req_EM_T p 0 then fun _ _ _ _ _ _ => false else fun a pi po x y idx => px_random neg a pi po x y p theta (dflt r 10) (u idx)) amp pin pout x y)
  | MIfta => Err EUnmodelled
  | MUnknown => Err ValueError
  end.
(** slm.py:324-376 for arrays: the new dmd_state (None: unchanged) and the returned efficiency. *)
Definition nd_calculate_dmd_state (d : dmd) (input target : nd C) (m : method) (window : option (nd C)) (r : option R) (u : list nat -> R) : option ndstate * res xr :=
  let s := d_slm d in
  let (x, y) := fourier_plane_grid s in
  match (let! (amp, pin, pout, one) := nd_calc_amp_phase input target window in
         let! g := nd_calculate_dmd_grating m (d_neg d) amp pin pout (nd_of x) (nd_of y) (d_p d) (d_theta d) r u in Ok (g, one)) with
  | Err e => (None, Err e)
  | Ok (g, one) =>
      if Req_EM_T (scaling_factor s) 0 then (Some g, Err ZeroDivisionError)
      else (Some g, py_div (pixel_size s ^ 2 / scaling_factor s * INR (s_Nx s) * INR (s_Ny s)) one)
  end.
(** slm.py:393-406: np.packbits flattens in C order (last axis fastest). *)
Fixpoint all_idx (s : list nat) : list (list nat) :=
  match s with [] => [[]] | n :: s' => flat_map (fun r => map (fun k => k :: r) (seq 0 n)) (all_idx s') end.
Definition nd_pack (st : ndstate) : res (list Z) :=
  match st with NBool t => Ok (packbits (map (nel t) (all_idx (nsh t)))) | NFloat _ => Err TypeError end.
(** slm.py:390-391 _state_tensor; levels that are not finite are outside the model. *)
Definition nd_state_tensor (st : ndstate) : res (nd C) :=
  match st with
  | NBool t => Ok (nmap (fun b : bool => if b then RtoC 1 else RtoC 0) t)
  | NFloat t => Ok (nmap (fun v => match v with Fin r => RtoC r | _ => RtoC 0 end) t)
  end.
(** tf.pad with two rows of paddings: rank 2 only. *)
Definition nd_tf_pad (py px : Z) (a : nd C) : res (tensor C) :=
  match nsh a with
  | [nx; ny] => tf_pad py px (T2 ny nx (fun i j => nel a [j; i]))
  | _ => Err ETensorFlow
  end.
(** simulation.py:125-146, input already a tensor. *)
Definition nd_propagate (s : slm) (st : ndstate) (m : sim) (inp : nd C) : sim * res unit :=
  match nd_tf_pad (pad_y m) (pad_x m) inp with
  | Err e => (m, Err e)
  | Ok fin =>
    let m1 := with_fields m (Some fin) (f_output m) (f_image m) in
    match (let! q := nd_state_tensor st in let! out := nmap2 Cmult inp q in nd_tf_pad (pad_y m) (pad_x m) out) with
    | Err e => (m1, Err e)
    | Ok fout =>
      let m2 := with_fields m (Some fin) (Some fout) (f_image m) in
      if Req_EM_T (scaling_factor s) 0 then (m2, Err ZeroDivisionError)
      else
        let norm := IZR (sim_Nx s m * sim_Ny s m) * fourier_plane_pixel_area s / scaling_factor s in
        (with_fields m (Some fin) (Some fout) (Some (tmap (fun z => (z * RtoC norm)%C) (to_image fout))), Ok tt)
    end
  end.
