(** calculate_dmd_state with method "ifta" for arrays of any rank (arguments already complex tensors). Values that are not finite are [None], as in
    LibModel.v. *)
From Coq Require Import Reals ZArith Arith List Bool.
From Coquelicot Require Import Complex.
From Verif Require Import Cx Sums DFT PyBase ProfileModel SlmModel LibModel DmdModel RankModel RankLcosModel.
Import ListNotations.
Open Scope R_scope.

(** Transforms of the last two axes, cf. [nfft2]; one NaN spoils its own image only. *)
Definition nofft2 (a : nd (option C)) : res (nd (option C)) :=
  match nsh a with
  | nx :: ny :: _ => Ok (Nd (nsh a) (fun idx => match idx with j :: i :: r => offt2 ny nx (fun i j => nel a (j :: i :: r)) i j | _ => None end))
  | _ => Err ETensorFlow
  end.
Definition noifft2 (a : nd (option C)) : res (nd (option C)) :=
  match nsh a with
  | nx :: ny :: _ => Ok (Nd (nsh a) (fun idx => match idx with j :: i :: r => oifft2 ny nx (fun i j => nel a (j :: i :: r)) i j | _ => None end))
  | _ => Err ETensorFlow
  end.
Definition olift2 (g : C -> C -> C) (a b : option C) : option C := match a, b with Some x, Some y => Some (g x y) | _, _ => None end.
(** _lib.py:212-213. *)
Definition nd_ifta_correct (profile ideal : nd (option C)) (W : nd C) : res (nd (option C)) :=
  let! d := nmap2 (olift2 Cminus) ideal profile in
  let! d := nmap2 (fun a w => olift2 Cmult a (Some w)) d W in
  nmap2 (olift2 Cplus) d profile.
(** _lib.py:272-282: tf.where broadcasts the mask and the zeros, which have the shape of the input. *)
Definition nd_ifta_step (input W : nd C) (ideal : nd (option C)) (t : R) (g : nd (option R)) : res (nd (option R)) :=
  let binarized := nmap (fun v => ifta_binarize v t) g in
  let! modulated := nmap2 omul input binarized in
  let! image := noifft2 modulated in
  let! corrected := nd_ifta_correct image ideal W in
  let! back := nofft2 corrected in
  let! quotient := nmap2 (fun z e => match z with Some z => if C_dec0 e then None else Some (fst (z / e)%C) | None => None end) back input in
  nmap2 (fun e v => if C_dec0 e then Some 0 else v) input quotient.
Fixpoint nd_ifta_iter (step : R -> nd (option R) -> res (nd (option R))) (N : Z) (k : nat) (g : nd (option R)) : res (nd (option R)) :=
  match k with O => Ok g | S j => let! a := nd_ifta_iter step N j g in step ((INR j + 1) * (0.5 / IZR N)) a end.
(** The loop of a tf.function, cf. [nd_loop]. *)
Definition nd_ifta_loop (step : R -> nd (option R) -> res (nd (option R))) (N : Z) (g : nd (option R)) : res (nd (option R)) :=
  let! b := step (0.5 / IZR N) g in
  if list_eq_dec Nat.eq_dec (nsh b) (nsh g) then nd_ifta_iter step N (Z.to_nat N) g else Err ETensorFlow.
(** _lib.py:256-284, from the ideal grating on. *)
Definition nd_ifta (g0 : nd xr) (input window : nd C) (N : Z) (s : R) : res (nd bool) :=
  let g := nmap (fun a => fin_of (xscale a s)) g0 in
  let! lit := nmap2 omul input g in
  let! ideal := noifft2 lit in
  let! W := nd_ifftshift window in
  let! out := nd_ifta_loop (nd_ifta_step input W ideal) N g in
  Ok (nmap (fun v => match v with Some r => if Rlt_dec 0.5 r then true else false | None => false end) out).
(** slm.py:324-376. *)
Definition nd_calculate_ifta (d : dmd) (input target : nd C) (window sw : option (nd C)) (N : option Z) (s0 : option R) : option ndstate * res xr :=
  let s := d_slm d in
  let (x, y) := fourier_plane_grid s in
  match (let! (amp, pin, pout, one) := nd_calc_amp_phase input target window in
         let! sw := match sw with None => Err KeyError | Some w => Ok w end in
         let! g0 := nd_grating (if Req_EM_T (d_p d) 0 then fun _ _ _ _ _ _ => NaN else fun a pi po x y _ => px_ideal (d_neg d) a pi po x y (d_p d) (d_theta d)) amp pin pout (nd_of x) (nd_of y) in
         let! g := nd_ifta g0 input sw (dflt N 200%Z) (dflt s0 1) in Ok (g, one)) with
  | Err e => (None, Err e)
  | Ok (g, one) =>
      if Req_EM_T (scaling_factor s) 0 then (Some (NBool g), Err ZeroDivisionError)
      else (Some (NBool g), py_div (pixel_size s ^ 2 / scaling_factor s * INR (s_Nx s) * INR (s_Ny s)) one)
  end.
