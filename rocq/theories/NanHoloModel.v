(** Holograms once more, for beams, targets and windows with undefined values: a sample is [None] when one of its parts is NaN.  Infinite samples and
    overflow are not modelled.  All arrays have the size of the device (no profile objects, no broadcasting: DmdModel.v). *)
From Coq Require Import Reals ZArith Arith List Bool Lia.
From Coquelicot Require Import Complex.
From Verif Require Import Cx Sums DFT PyBase ProfileModel SlmModel LibModel DmdModel NanModel.
Open Scope R_scope.

(** slm.py:296-300. *)
Definition u_spectrum (ny nx : nat) (T : arr) (W : option arr) : arr :=
  let fp := fftshift2 ny nx (offt2 ny nx (ifftshift2 ny nx T)) in
  match W with None => fp | Some w => fun i j => n_mul (fp i j) (w i j) end.
(** slm.py:302-317, one pixel: [z] wanted, [f] incoming.  Where nothing is wanted the quotient is not used; NaN is not equal to 0. *)
Definition u_ratio (z f : option C) : xr :=
  match z, f with
  | None, _ => NaN
  | Some z, Some f => safe_ratio (Cmod z) (Cmod f)
  | Some z, None => if Req_EM_T (Cmod z) 0 then Fin 0 else NaN
  end.
Definition u_phase_in (f : option C) : option R := option_map carg f.
Definition u_phase_out (z : option C) : option R := option_map (fun z => if C_dec0 z then 0 else carg z) z.
(** slm.py:319 (NaN is absorbing, as in [xmax]). *)
Definition u_max (ny nx : nat) (F fp : arr) : xr := xmax2 (fun i j => u_ratio (fp i j) (F i j)) ny nx.
(** _lib.py:117-161, 165-209, one mirror; a phase that is NaN makes the cosine NaN. *)
Definition u_ideal (neg : bool) (amp : xr) (pin pout : option R) (x y p theta : R) : xr :=
  match pin, pout with
  | Some i, Some o => if Req_EM_T p 0 then NaN else px_ideal neg amp i o x y p theta
  | _, _ => NaN
  end.
Definition u_simple (neg : bool) (amp : xr) (pin pout : option R) (x y p theta : R) : bool := xgtb (u_ideal neg amp pin pout x y p theta) 0.5.
Definition u_random (neg : bool) (amp : xr) (pin pout : option R) (x y p theta r u : R) : bool :=
  match pin, pout with
  | Some i, Some o => if Req_EM_T p 0 then false else px_random neg amp i o x y p theta r u
  | _, _ => false
  end.
(** _lib.py:212-284. [F], [W] input and shifted window. *)
Definition u_omul (f : option C) (r : option R) : option C := match f with Some f => omul f r | None => None end.
Definition u_correct (profile ideal w : option C) : option C := match w with Some w => ifta_correct profile ideal w | None => None end.
Definition u_step (ny nx : nat) (F W ideal : arr) (t : R) (g : nat -> nat -> option R) : nat -> nat -> option R :=
  let image := oifft2 ny nx (fun i j => u_omul (F i j) (ifta_binarize (g i j) t)) in
  let back := offt2 ny nx (fun i j => u_correct (image i j) (ideal i j) (W i j)) in
  fun i j => match F i j with
             | None => None
             | Some f => if C_dec0 f then Some 0 else match back i j with Some z => Some (fst (z / f)%C) | None => None end
             end.
Fixpoint u_loop (ny nx : nat) (F W ideal : arr) (N : Z) (k : nat) (g : nat -> nat -> option R) : nat -> nat -> option R :=
  match k with
  | O => g
  | S j => u_step ny nx F W ideal ((INR j + 1) * (0.5 / IZR N)) (u_loop ny nx F W ideal N j g)
  end.
Definition u_ifta (ny nx : nat) (F W : arr) (g0 : nat -> nat -> xr) (N : Z) (s : R) : nat -> nat -> bool :=
  let g := fun i j => fin_of (xscale (g0 i j) s) in
  let ideal := oifft2 ny nx (fun i j => u_omul (F i j) (g i j)) in
  let out := u_loop ny nx F (ifftshift2 ny nx W) ideal N (Z.to_nat N) g in
  fun i j => match out i j with Some r => if Rlt_dec 0.5 r then true else false | None => false end.
(** slm.py:324-376; [SW] is the keyword signal_window. *)
Definition u_dmd_state (d : dmd) (F T : arr) (m : method) (W SW : option arr) (kw : kwargs) (u : nat -> nat -> R) : dmd * res xr :=
  let s := d_slm d in
  let ny := s_Ny s in let nx := s_Nx s in
  let fp := u_spectrum ny nx T W in
  let one := u_max ny nx F fp in
  let amp := fun i j => xdiv (u_ratio (fp i j) (F i j)) one in
  let pin := fun i j => u_phase_in (F i j) in
  let pout := fun i j => u_phase_out (fp i j) in
  let (gx, gy) := fourier_plane_grid s in
  let x := tget gx in let y := tget gy in
  let new :=
    match m with
    | MIdeal => Ok (DFloat ny nx (fun i j => u_ideal (d_neg d) (amp i j) (pin i j) (pout i j) (x i j) (y i j) (d_p d) (d_theta d)))
    | MSimple => Ok (DBool ny nx (fun i j => u_simple (d_neg d) (amp i j) (pin i j) (pout i j) (x i j) (y i j) (d_p d) (d_theta d)))
    | MRandom => Ok (DBool ny nx (fun i j => u_random (d_neg d) (amp i j) (pin i j) (pout i j) (x i j) (y i j) (d_p d) (d_theta d) (dflt (k_r kw) 10) (u i j)))
    | MIfta =>
        match SW with
        | None => Err KeyError
        | Some w => Ok (DBool ny nx (u_ifta ny nx F w (fun i j => u_ideal (d_neg d) (amp i j) (pin i j) (pout i j) (x i j) (y i j) (d_p d) (d_theta d))
                                       (dflt (k_N kw) 200%Z) (dflt (k_s kw) 1)))
        end
    | MUnknown => Err ValueError
    end in
  match new with
  | Err e => (d, Err e)
  | Ok st =>
      let d' := with_state d st in
      if Req_EM_T (scaling_factor s) 0 then (d', Err ZeroDivisionError)
      else (d', py_div (pixel_size s ^ 2 / scaling_factor s * INR nx * INR ny) one)
  end.

(** ** _lib.py:322-404; a phase is [None] when it is NaN. *)
Definition u_wave (f : option C) (ph : option R) : option C := match f, ph with Some f, Some ph => Some (f * cis ph)%C | _, _ => None end.
Definition u_arg (z : option C) : option R := option_map carg z.
Definition u_gs_step (ny nx : nat) (F Tc : arr) (ph : nat -> nat -> option R) : nat -> nat -> option R :=
  let image := oifft2 ny nx (fun i j => u_wave (F i j) (ph i j)) in
  let back := offt2 ny nx (fun i j => u_wave (Tc i j) (u_arg (image i j))) in
  fun i j => u_arg (back i j).
Definition u_gs (ny nx : nat) (F T : arr) (u : nat -> nat -> R) (N : Z) : nat -> nat -> option R :=
  iter (Z.to_nat N) (u_gs_step ny nx F (ifftshift2 ny nx T)) (fun i j => Some (2 * PI * u i j)).
Definition u_mix (m : R) (t w z : option C) : option C :=
  match t, w, z with
  | Some t, Some w, Some z => Some (RtoC m * t * cis (carg z) * w + RtoC (1 - m) * z * (RtoC 1 - w))%C
  | _, _, _ => None
  end.
Definition u_mraf_step (ny nx : nat) (F Tc W : arr) (m : R) (ph : nat -> nat -> option R) : nat -> nat -> option R :=
  let image := oifft2 ny nx (fun i j => u_wave (F i j) (ph i j)) in
  let back := offt2 ny nx (fun i j => u_mix m (Tc i j) (W i j) (image i j)) in
  fun i j => u_arg (back i j).
Definition u_mraf (ny nx : nat) (F T W : arr) (m : R) (u : nat -> nat -> R) (N : Z) : nat -> nat -> option R :=
  iter (Z.to_nat N) (u_mraf_step ny nx F (ifftshift2 ny nx T) (ifftshift2 ny nx W) m) (fun i j => Some (2 * PI * u i j)).
(** slm.py:487-515: the phases written to slm_state; the target is real. *)
Definition u_hologram (s : slm) (F : arr) (T : nat -> nat -> option R) (m : lmethod) (W : option arr) (kw : lkwargs) (u : nat -> nat -> R) : res (nat -> nat -> option R) :=
  let ny := s_Ny s in let nx := s_Nx s in
  let T : arr := fun i j => option_map RtoC (T i j) in
  match m with
  | MGs => Ok (u_gs ny nx F T u (dflt (lk_N kw) 200%Z))
  | MMraf => match W with
             | None => Err KeyError
             | Some w => Ok (u_mraf ny nx F T w (dflt (lk_mix kw) 0.4) u (dflt (lk_N kw) 200%Z))
             end
  | MLUnknown => Err ValueError
  end.
