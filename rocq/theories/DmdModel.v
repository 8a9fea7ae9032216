(** Model of pySLM2/slm.py: class DMD (171-406), the concrete DMD models, class LCOS_SLM (474-515), PLUTO_2.
    Methods return the new object together with the result, so partial effects of raising calls are visible. *)
From Coq Require Import Reals ZArith Arith List Bool Lia.
From Coquelicot Require Import Complex.
From Verif Require Import Cx Sums DFT PyBase ProfileModel SlmModel LibModel.
Import ListNotations.
Open Scope R_scope.

(** A numpy array attribute dmd_state: bool or floating point, 2-D. *)
Inductive dstate := DBool (ny nx : nat) (f : nat -> nat -> bool) | DFloat (ny nx : nat) (f : nat -> nat -> xr).
Record dmd := { d_slm : slm; d_p : R; d_theta : R; d_neg : bool; d_state : dstate }.
Definition with_state (d : dmd) (s : dstate) : dmd :=
  {| d_slm := d_slm d; d_p := d_p d; d_theta := d_theta d; d_neg := d_neg d; d_state := s |}.

(** slm.py:205-211. *)
Definition all_mirrors (s : slm) (b : bool) : dstate := DBool (s_Ny s) (s_Nx s) (fun _ _ => b).
Definition set_dmd_state_off (d : dmd) : dmd := with_state d (all_mirrors (d_slm d) false).
Definition set_dmd_state_on (d : dmd) : dmd := with_state d (all_mirrors (d_slm d) true).
(** slm.py:194-203. *)
Definition dmd_new (wl fl periodicity theta : R) (Nx Ny : nat) (ps : R) (neg : bool) : dmd :=
  let s := {| wavelength := wl; focal_length := fl; s_Nx := Nx; s_Ny := Ny; pixel_size := ps |} in
  {| d_slm := s; d_p := periodicity * ps; d_theta := theta; d_neg := neg; d_state := all_mirrors s false |}.
(** slm.py:425-427, 447-449, 469-471. *)
Definition micro : R := / 10 ^ 6.
Definition DLP9500 wl fl per th neg : dmd := dmd_new wl fl per th 1920 1080 (10.8 * micro) neg.
Definition DLP7000 wl fl per th neg : dmd := dmd_new wl fl per th 1024 768 (13.68 * micro) neg.
Definition DLP9000 wl fl per th neg : dmd := dmd_new wl fl per th (20 * 128) (10 * 160) (7.56 * micro) neg.

(** ** packing (slm.py:393-406) *)
(** numpy.packbits of a row-major flattened bool array, bitorder 'big': groups of 8, zero padded. *)
Definition flatten (ny nx : nat) (f : nat -> nat -> bool) : list bool :=
  concat (map (fun i => map (f i) (seq 0 nx)) (seq 0 ny)).
Definition byte_of (l : list bool) : Z :=
  fold_left (fun a b => 2 * a + Z.b2z b)%Z (firstn 8 (l ++ repeat false 8)) 0%Z.
Fixpoint packbits_n (k : nat) (l : list bool) : list Z :=
  match k with O => [] | S k' => byte_of (firstn 8 l) :: packbits_n k' (skipn 8 l) end.
Definition packbits (l : list bool) : list Z := packbits_n ((length l + 7) / 8) l.
Definition pack_dmd_state (d : dmd) : res (list Z) :=
  match d_state d with
  | DBool ny nx f => Ok (packbits (flatten ny nx f))
  | DFloat _ _ _ => Err TypeError
  end.

(** ** gratings *)
(** Keyword arguments: r, N, s, signal_window, input_profile. *)
Record kwargs := { k_r : option R; k_N : option Z; k_s : option R; k_window : option parg; k_input : option parg }.
Definition no_kwargs : kwargs := {| k_r := None; k_N := None; k_s := None; k_window := None; k_input := None |}.
Inductive method := MIdeal | MSimple | MRandom | MIfta | MUnknown.
Definition dflt {A} (o : option A) (a : A) : A := match o with Some x => x | None => a end.
(** Result of calculate_dmd_grating as a numpy array. *)
Inductive garr := GBool (t : tensor bool) | GFloat (t : tensor xr).
(** An argument which reaches the ifta code unconverted: it multiplies complex tensors there, so complex arrays (of the
    backend's precision) and Python numbers work, real arrays have the wrong dtype and profile objects are no tensors. *)
Definition raw_tensor (o : option parg) : option (tensor C) :=
  match o with
  | Some (ATensorC t) | Some (AConstC t) => Some t
  | Some (AConstR (T0 r)) => Some (T0 (RtoC r))
  | _ => None
  end.
(** _lib.py:41-89; [win], [inp] are the signal_window / input_profile keyword values already in tensor form. *)
Definition calculate_dmd_grating (m : method) (neg : bool) (amp : tensor xr) (pin pout x y : tensor R) (p theta : R)
  (kw : kwargs) (inp win : option (tensor C)) (u : nat -> nat -> R) : res garr :=
  match m with
  | MIdeal => rmap GFloat (grating_ideal neg amp pin pout x y p theta)
  | MSimple => rmap GBool (grating_simple neg amp pin pout x y p theta)
  | MRandom => rmap GBool (grating_random neg amp pin pout x y p theta (dflt (k_r kw) 10) u)
  | MIfta => rmap GBool (grating_ifta neg amp pin pout x y p theta inp win (dflt (k_N kw) 200%Z) (dflt (k_s kw) 1))
  | MUnknown => Err ValueError
  end.
(** np.array(...) stored into dmd_state; the grids make the result rank 2 always. *)
Definition to_dstate (g : garr) : res dstate :=
  match g with
  | GBool (T2 ny nx f) => Ok (DBool ny nx f)
  | GFloat (T2 ny nx f) => Ok (DFloat ny nx f)
  | _ => Err EUnmodelled
  end.
Definition grating_of (h : heap) (d : dmd) (amp pin pout : parg) (m : method) (kw : kwargs) (u : nat -> nat -> R) : res dstate :=
  let s := d_slm d in
  let! amp := profile_to_tensor_r h s amp true in
  let! pin := profile_to_tensor_r h s pin true in
  let! pout := profile_to_tensor_r h s pout true in
  let (x, y) := fourier_plane_grid s in
  let! g := calculate_dmd_grating m (d_neg d) (tmap Fin amp) pin pout x y (d_p d) (d_theta d) kw
              (raw_tensor (k_input kw)) (raw_tensor (k_window kw)) u in
  to_dstate g.
(** slm.py:213-221. *)
Definition set_dmd_grating_state (h : heap) (d : dmd) (amp pin pout : parg) (m : method) (kw : kwargs) (u : nat -> nat -> R)
  : dmd * res unit :=
  match grating_of h d amp pin pout m kw u with
  | Ok s => (with_state d s, Ok tt)
  | Err e => (d, Err e)
  end.

(** slm.py:223-228. *)
Definition circular_mask (i j : R) (d : R) (ii jj : R) : bool :=
  if Rlt_dec ((jj - j) ^ 2 + (ii - i) ^ 2) ((d / 2) ^ 2) then true else false.
(** numpy assignment casts: float -> bool is "non zero" (NaN and inf are True), bool -> float is 0 / 1. *)
Definition xr_to_bool (a : xr) : bool := match a with Fin r => if Req_EM_T r 0 then false else true | _ => true end.
Definition bool_to_xr (b : bool) : xr := Fin (if b then 1 else 0).
(** slm.py:268 dmd_state[mask] = new[mask]; [None]: shapes do not fit (IndexError). *)
Definition masked_assign (old new : dstate) (mask : nat -> nat -> bool) (ny nx : nat) : option dstate :=
  let fits a b := (Nat.eqb a ny && Nat.eqb b nx)%bool in
  match old, new with
  | DBool a b f, DBool a' b' g =>
      if fits a b && fits a' b' then Some (DBool a b (fun i j => if mask i j then g i j else f i j)) else None
  | DBool a b f, DFloat a' b' g =>
      if fits a b && fits a' b' then Some (DBool a b (fun i j => if mask i j then xr_to_bool (g i j) else f i j)) else None
  | DFloat a b f, DBool a' b' g =>
      if fits a b && fits a' b' then Some (DFloat a b (fun i j => if mask i j then bool_to_xr (g i j) else f i j)) else None
  | DFloat a b f, DFloat a' b' g =>
      if fits a b && fits a' b' then Some (DFloat a b (fun i j => if mask i j then g i j else f i j)) else None
  end.
(** slm.py:230-268. *)
Definition circular_patch (h : heap) (d : dmd) (ci cj : R) (amp pin pout : parg) (diam : R) (m : method) (kw : kwargs)
  (u : nat -> nat -> R) : dmd * res unit :=
  let s := d_slm d in
  match grating_of h d amp pin pout m kw u with
  | Err e => (d, Err e)
  | Ok new =>
      let (ii, jj) := fourier_plane_pixel_grid s in
      let mask := fun i j => circular_mask ci cj diam (tget ii i j) (tget jj i j) in
      match masked_assign (d_state d) new mask (s_Ny s) (s_Nx s) with
      | Some st => (with_state d st, Ok tt)
      | None => (d, Err ETensorFlow)
      end
  end.

(** ** _calc_amp_phase (slm.py:270-322) *)
Fixpoint xmax1 (f : nat -> xr) (n : nat) : xr := match n with O => MInf | S k => xmax (xmax1 f k) (f k) end.
Fixpoint xmax2 (f : nat -> nat -> xr) (ny nx : nat) : xr :=
  match ny with O => MInf | S k => xmax (xmax2 f k nx) (xmax1 (f k) nx) end.
(** tf.math.reduce_max. *)
Definition reduce_max (t : tensor xr) : xr := match t with T0 a => a | T2 ny nx f => xmax2 f ny nx end.
(** fftshift(fft2(ifftshift(target))). *)
Definition target_fp (ny nx : nat) (t : nat -> nat -> C) : nat -> nat -> C :=
  fftshift2 ny nx (fft2 ny nx (ifftshift2 ny nx t)).
Definition safe_ratio (amp_out amp_in : R) : xr :=
  if Req_EM_T amp_out 0 then Fin 0 else xdiv (Fin amp_out) (Fin amp_in).
Definition calc_amp_phase (input target : tensor C) (window : option (tensor C))
  : res (tensor xr * tensor R * tensor R * xr) :=
  match target with
  | T0 _ => Err ETensorFlow
  | T2 ny nx t =>
      let fp := T2 ny nx (target_fp ny nx t) in
      let! fp := match window with None => Ok fp | Some w => tmap2 Cmult fp w end in
      let phase_in := tmap carg input in
      let amp_in := tmap Cmod input in
      let amp_out := tmap Cmod fp in
      let phase_out := tmap (fun z => if C_dec0 z then 0 else carg z) fp in
      let! amp_scaled := tmap2 safe_ratio amp_out amp_in in
      let one_over_eta_fft := reduce_max amp_scaled in
      Ok (tmap (fun a => xdiv a one_over_eta_fft) amp_scaled, phase_in, phase_out, one_over_eta_fft)
  end.
(** Python float division a / float(b). *)
Definition py_div (a : R) (b : xr) : res xr :=
  match b with
  | Fin r => if Req_EM_T r 0 then Err ZeroDivisionError else Ok (Fin (a / r))
  | PInf | MInf => Ok (Fin 0)
  | NaN => Ok NaN
  end.
(** slm.py:324-376. *)
Definition calculate_dmd_state (h : heap) (d : dmd) (input target : parg) (m : method) (window : option parg)
  (kw : kwargs) (u : nat -> nat -> R) : dmd * res xr :=
  let s := d_slm d in
  let new :=
    let! input := profile_to_tensor_c h s input true in
    let! target := profile_to_tensor_c h s target false in
    let! window := match window with
                   | None => Ok None
                   | Some w => let! w := profile_to_tensor_c h s w true in Ok (Some w)
                   end in
    let! (amp, pin, pout, one) := calc_amp_phase input target window in
    let (x, y) := fourier_plane_grid s in
    let! (inp, win) := match m with
                       | MIfta => match k_window kw with
                                  | None => Err KeyError
                                  | Some w => let! w := profile_to_tensor_c h s w false in Ok (Some input, Some w)
                                  end
                       | _ => Ok (raw_tensor (k_input kw), raw_tensor (k_window kw))
                       end in
    let! g := calculate_dmd_grating m (d_neg d) amp pin pout x y (d_p d) (d_theta d) kw inp win u in
    let! st := to_dstate g in
    Ok (st, one) in
  match new with
  | Err e => (d, Err e)
  | Ok (st, one) =>
      let d' := with_state d st in
      if Req_EM_T (scaling_factor s) 0 then (d', Err ZeroDivisionError)
      else (d', py_div (pixel_size s ^ 2 / scaling_factor s * INR (s_Nx s) * INR (s_Ny s)) one)
  end.
(** slm.py:383-388; np.cos gives a numpy float, so division by zero gives inf or NaN. *)
Definition first_order_origin (d : dmd) : xr * xr :=
  (xdiv (Fin (cos (d_theta d) * scaling_factor (d_slm d))) (Fin (d_p d)), xdiv (Fin (sin (d_theta d) * scaling_factor (d_slm d))) (Fin (d_p d))).

(** ** LCOS_SLM (slm.py:474-515) *)
(** slm_state: the initial complex zeros, or the real phase array of a computed hologram. *)
Inductive lstate := LComplex (ny nx : nat) (f : nat -> nat -> C) | LReal (ny nx : nat) (f : nat -> nat -> R).
Record lcos := { l_slm : slm; l_state : lstate }.
Definition lcos_zero (s : slm) : lstate := LComplex (s_Ny s) (s_Nx s) (fun _ _ => RtoC 0).
(** slm.py:477-482. *)
Definition lcos_new (s : slm) : lcos := {| l_slm := s; l_state := lcos_zero s |}.
Definition reset_slm_state (l : lcos) : lcos := lcos_new (l_slm l).
(** slm.py:527ff PLUTO_2: 1920 x 1080, 8 micrometres. *)
Definition PLUTO_2 (wl fl : R) : lcos :=
  lcos_new {| wavelength := wl; focal_length := fl; s_Nx := 1920; s_Ny := 1080; pixel_size := 8 * micro |}.
Inductive lmethod := MGs | MMraf | MLUnknown.
Record lkwargs := { lk_N : option Z; lk_window : option parg; lk_mix : option R }.
(** _lib.py:287-319; the loops keep the shape of the input; a rank-0 input, target or window raises (fft or ifftshift of a
    scalar). *)
Definition calculate_lcos_hologram (m : lmethod) (input : tensor C) (target : tensor R) (win : option (tensor C))
  (kw : lkwargs) (u : nat -> nat -> R) : res lstate :=
  let N := dflt (lk_N kw) 200%Z in
  match m with
  | MLUnknown => Err ValueError
  | MGs =>
      match input, target with
      | T2 ny nx F, T2 _ _ _ =>
          match stretch ny nx target with
          | Some T => Ok (LReal ny nx (gs_array ny nx F T u N))
          | None => Err ETensorFlow
          end
      | _, _ => Err ETensorFlow
      end
  | MMraf =>
      match input, target, win with
      | T2 ny nx F, T2 _ _ _, Some (T2 a b W) =>
          match stretch ny nx target, stretch ny nx (T2 a b W) with
          | Some T, Some W => Ok (LReal ny nx (mraf_array ny nx F T W (dflt (lk_mix kw) 0.4) u N))
          | _, _ => Err ETensorFlow
          end
      | _, _, _ => Err ETensorFlow
      end
  end.
(** slm.py:487-515. *)
Definition calculate_hologram (h : heap) (l : lcos) (input target : parg) (m : lmethod) (kw : lkwargs) (u : nat -> nat -> R)
  : lcos * res unit :=
  let s := l_slm l in
  let new :=
    let! input := profile_to_tensor_c h s input true in
    let! target := profile_to_tensor_r h s target false in
    let! win := match m with
                | MMraf => match lk_window kw with
                           | None => Err KeyError
                           | Some w => let! w := profile_to_tensor_c h s w false in Ok (Some w)
                           end
                | _ => Ok (raw_tensor (lk_window kw))
                end in
    calculate_lcos_hologram m input target win kw u in
  match new with
  | Err e => (l, Err e)
  | Ok st => ({| l_slm := s; l_state := st |}, Ok tt)
  end.

(** ** _state_tensor: the complex transmission of the device. *)
Inductive device := DevBase (s : slm) | DevDmd (d : dmd) | DevLcos (l : lcos).
Definition dev_slm (d : device) : slm := match d with DevBase s => s | DevDmd d => d_slm d | DevLcos l => l_slm l end.
Definition xr_fin (a : xr) : bool := match a with Fin _ => true | _ => false end.
Definition xr_val (a : xr) : R := match a with Fin r => r | _ => 0 end.
Definition state_tensor (d : device) : res (tensor C) :=
  match d with
  | DevBase _ => Err NotImplementedError                                              (* slm.py:167-168 *)
  | DevDmd d =>                                                                       (* slm.py:390-391 *)
      match d_state d with
      | DBool ny nx f => Ok (T2 ny nx (fun i j => RtoC (if f i j then 1 else 0)))
      | DFloat ny nx f =>
          if allb2 (fun i j => xr_fin (f i j)) ny nx then Ok (T2 ny nx (fun i j => RtoC (xr_val (f i j)))) else Err EUnmodelled
      end
  | DevLcos l =>                                                                      (* slm.py:484-485 *)
      match l_state l with
      | LComplex ny nx f => Ok (T2 ny nx (fun i j => cexp (- Ci * f i j)%C))
      | LReal ny nx f => Ok (T2 ny nx (fun i j => cexp (- Ci * RtoC (f i j))%C))
      end
  end.
