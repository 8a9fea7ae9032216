(** LCOS_SLM.calculate_hologram for arrays of any rank (the arguments already complex, real, complex tensors; no profile objects). *)
From Coq Require Import Reals ZArith Arith List Bool.
From Coquelicot Require Import Complex.
From Verif Require Import Cx Sums DFT PyBase ProfileModel SlmModel LibModel DmdModel RankModel.
Import ListNotations.
Open Scope R_scope.

(** np.fft.ifft2 / tf.signal.ifft2d, cf. [nfft2]. *)
Definition nifft2 (a : nd C) : res (nd C) :=
  match nsh a with
  | nx :: ny :: _ => Ok (Nd (nsh a) (fun idx => match idx with j :: i :: r => ifft2 ny nx (fun i j => nel a (j :: i :: r)) i j | _ => RtoC 0 end))
  | _ => Err ETensorFlow
  end.
(** tf.signal.ifftshift without the argument axes: every axis; a scalar raises. *)
Definition nd_ifftshift {A} (a : nd A) : res (nd A) := match nsh a with [] => Err ETensorFlow | _ => Ok (nifftshift a) end.
(** A loop of tf.function: the body is traced once, whatever N is, and has to keep the shape of the phases. *)
Fixpoint nloop (n : nat) (f : nd R -> res (nd R)) (a : nd R) : res (nd R) := match n with O => Ok a | S k => let! b := nloop k f a in f b end.
Definition nd_loop (N : Z) (f : nd R -> res (nd R)) (a : nd R) : res (nd R) :=
  let! b := f a in if list_eq_dec Nat.eq_dec (nsh b) (nsh a) then nloop (Z.to_nat N) f a else Err ETensorFlow.
(** _lib.py:346-353. *)
Definition nd_gs_step (input : nd C) (T : nd R) (ph : nd R) : res (nd R) :=
  let! modulated := nmap2 (fun e p => (e * cis p)%C) input ph in
  let! image := nifft2 modulated in
  let! corrected := nmap2 (fun t z => (RtoC t * cis (carg z))%C) T image in
  let! back := nfft2 corrected in
  Ok (nmap carg back).
(** _lib.py:322-355; the random phases have the shape of the input. *)
Definition nd_gs (input : nd C) (target : nd R) (N : Z) (u : list nat -> R) : res (nd R) :=
  let! T := nd_ifftshift target in
  nd_loop N (nd_gs_step input T) (Nd (nsh input) (fun idx => 2 * PI * u idx)).
(** _lib.py:394-402. *)
Definition nd_mraf_step (input : nd C) (T : nd R) (W : nd C) (m : R) (ph : nd R) : res (nd R) :=
  let! modulated := nmap2 (fun e p => (e * cis p)%C) input ph in
  let! image := nifft2 modulated in
  let! aimed := nmap2 (fun t z => (RtoC m * RtoC t * cis (carg z))%C) T image in
  let! signal := nmap2 Cmult aimed W in
  let! rest := nmap2 (fun z w => (RtoC (1 - m) * z * (RtoC 1 - w))%C) image W in
  let! corrected := nmap2 Cplus signal rest in
  let! back := nfft2 corrected in
  Ok (nmap carg back).
(** _lib.py:357-404. *)
Definition nd_mraf (input : nd C) (target : nd R) (W : nd C) (m : R) (N : Z) (u : list nat -> R) : res (nd R) :=
  let! T := nd_ifftshift target in
  let! W := nd_ifftshift W in
  nd_loop N (nd_mraf_step input T W m) (Nd (nsh input) (fun idx => 2 * PI * u idx)).
(** slm.py:487-515 and _lib.py:287-319: the new slm_state (None: unchanged) and the outcome. *)
Definition nd_calculate_hologram (input : nd C) (target : nd R) (m : lmethod) (window : option (nd C)) (N : option Z) (mix : option R) (u : list nat -> R)
  : option (nd R) * res unit :=
  match (match m with
         | MGs => nd_gs input target (dflt N 200%Z) u
         | MMraf => match window with None => Err KeyError | Some w => nd_mraf input target w (dflt mix 0.4) (dflt N 200%Z) u end
         | MLUnknown => Err ValueError
         end) with
  | Ok st => (Some st, Ok tt)
  | Err e => (None, Err e)
  end.
