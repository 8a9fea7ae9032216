(** Model of pySLM2/_lib.py.
    FFTs are their defining sums (DFT.v) over exact complex numbers; both FFT backends (_lib.py:7-38) compute
    the same transform.  Random numbers are explicit arguments. *)
From Coq Require Import Reals ZArith Arith List Bool Lia.
From Coquelicot Require Import Complex.
From Verif Require Import Cx Sums DFT PyBase.
Import ListNotations.
Open Scope R_scope.

(** ** Gratings, at one mirror. *)
(** _lib.py:113. *)
Definition grating_phase (x y theta p : R) : R := (2 * PI / p) * (cos theta * x + sin theta * y).
(** phase_out - phase_in after the negative_order swap (_lib.py:146-148, 196-198). *)
Definition rel_phase (neg : bool) (pin pout : R) : R :=
  let pin := if neg then - pin else pin in
  let pout := if neg then - pout else pout in
  pout - pin.
(** _lib.py:117-151. *)
Definition px_ideal (neg : bool) (amp : xr) (pin pout x y p theta : R) : xr :=
  xscale amp (cos (grating_phase x y theta p - rel_phase neg pin pout) / 2 + 0.5).
(** _lib.py:155-161. *)
Definition px_simple (neg : bool) (amp : xr) (pin pout x y p theta : R) : bool :=
  xgtb (px_ideal neg amp pin pout x y p theta) 0.5.
(** _lib.py:165-209; u is the uniform threshold of this mirror; asin out of range gives NaN. *)
Definition random_duty (neg : bool) (amp : xr) (pin pout x y p theta r : R) : xr :=
  let q := acos (cos (grating_phase x y theta p - rel_phase neg pin pout)) in
  match xasin amp with
  | Fin w => Fin (0.5 * (tanh (r * (q + w)) - tanh (r * (q - w))))
  | _ => NaN
  end.
Definition px_random (neg : bool) (amp : xr) (pin pout x y p theta r u : R) : bool :=
  xgtb (random_duty neg amp pin pout x y p theta r) u.

(** ** Whole-array versions with broadcasting; x, y are full grids, amp and phases may be scalars. *)
Definition bc_all (amp : shape) (l : list shape) : res shape := fold_left bshape_r l (Ok amp).
Definition grating_tensor {A} (px : xr -> R -> R -> R -> R -> nat -> nat -> A)
  (amp : tensor xr) (pin pout x y : tensor R) : res (tensor A) :=
  let! s := bc_all (tshape amp) [tshape pin; tshape pout; tshape x; tshape y] in
  Ok (mk s (fun i j => px (tget amp i j) (tget pin i j) (tget pout i j) (tget x i j) (tget y i j) i j)).
(** 2*pi/p with p = 0 is infinite, its product with any coordinate is infinite or NaN, and cos of that is NaN: the
    first function replaces the second one. *)
Definition guard_p {A} (p : R) (bad px : xr -> R -> R -> R -> R -> nat -> nat -> A) : xr -> R -> R -> R -> R -> nat -> nat -> A :=
  if Req_EM_T p 0 then bad else px.
Definition grating_ideal (neg : bool) (amp : tensor xr) (pin pout x y : tensor R) (p theta : R) : res (tensor xr) :=
  grating_tensor (guard_p p (fun _ _ _ _ _ _ _ => NaN) (fun a pi po x y _ _ => px_ideal neg a pi po x y p theta)) amp pin pout x y.
Definition grating_simple (neg : bool) (amp : tensor xr) (pin pout x y : tensor R) (p theta : R) : res (tensor bool) :=
  grating_tensor (guard_p p (fun _ _ _ _ _ _ _ => false) (fun a pi po x y _ _ => px_simple neg a pi po x y p theta)) amp pin pout x y.
Definition grating_random (neg : bool) (amp : tensor xr) (pin pout x y : tensor R) (p theta r : R)
  (u : nat -> nat -> R) : res (tensor bool) :=
  grating_tensor (guard_p p (fun _ _ _ _ _ _ _ => false) (fun a pi po x y i j => px_random neg a pi po x y p theta r (u i j))) amp pin pout x y.

(** ** FFTs of arrays that may contain NaN: one NaN contaminates every output. *)
Fixpoint allb (f : nat -> bool) (n : nat) : bool := match n with O => true | S k => allb f k && f k end.
Fixpoint allb2 (f : nat -> nat -> bool) (ny nx : nat) : bool := match ny with O => true | S k => allb2 f k nx && allb (f k) nx end.
Definition isome {A} (o : option A) : bool := match o with Some _ => true | None => false end.
Definition arr := nat -> nat -> option C.
Definition oget (f : arr) (i j : nat) : C := match f i j with Some z => z | None => RtoC 0 end.
Definition offt2 (ny nx : nat) (f : arr) : arr := fun u v =>
  if allb2 (fun i j => isome (f i j)) ny nx then Some (fft2 ny nx (oget f) u v) else None.
Definition oifft2 (ny nx : nat) (f : arr) : arr := fun u v =>
  if allb2 (fun i j => isome (f i j)) ny nx then Some (ifft2 ny nx (oget f) u v) else None.
Definition omul (a : C) (b : option R) : option C := match b with Some r => Some (a * RtoC r)%C | None => None end.

(** ** IFTA (_lib.py:212-284). *)
(** _lib.py:212-213. *)
Definition ifta_correct (profile ideal : option C) (window : C) : option C :=
  match profile, ideal with Some p, Some q => Some ((q - p) * window + p)%C | _, _ => None end.
(** _lib.py:216-219 (NaN compares false twice and is kept). *)
Definition ifta_binarize (h : option R) (t : R) : option R :=
  match h with
  | None => None
  | Some r => if Rlt_dec r t then Some 0 else if Rlt_dec (1 - t) r then Some 1 else Some r
  end.
Definition fin_of (a : xr) : option R := match a with Fin r => Some r | _ => None end.
(** One iteration (_lib.py:272-282): [F] input, [W] shifted window, [PI0] ideal image, [t] threshold. *)
Definition ifta_step (ny nx : nat) (F W : nat -> nat -> C) (ideal : arr) (t : R) (g : nat -> nat -> option R)
  : nat -> nat -> option R :=
  let binarized := fun i j => ifta_binarize (g i j) t in
  let modulated : arr := fun i j => omul (F i j) (binarized i j) in
  let image := oifft2 ny nx modulated in
  let corrected : arr := fun i j => ifta_correct (image i j) (ideal i j) (W i j) in
  let back := offt2 ny nx corrected in
  fun i j => if C_dec0 (F i j) then Some 0
             else match back i j with Some z => Some (fst (z / F i j)%C) | None => None end.
(** _lib.py:272: thresholds (i+1)*step with step = 0.5/N, for i = 0 .. N-1; [k] iterations done so far. *)
Fixpoint ifta_loop (ny nx : nat) (F W : nat -> nat -> C) (ideal : arr) (N : Z) (k : nat) (g : nat -> nat -> option R)
  : nat -> nat -> option R :=
  match k with
  | O => g
  | S j => ifta_step ny nx F W ideal ((INR j + 1) * (0.5 / IZR N)) (ifta_loop ny nx F W ideal N j g)
  end.
(** _lib.py:223-284 on full-size arrays; [g0] is the ideal grating. *)
Definition ifta_array (ny nx : nat) (F W : nat -> nat -> C) (g0 : nat -> nat -> xr) (N : Z) (s : R) : nat -> nat -> bool :=
  let g := fun i j => fin_of (xscale (g0 i j) s) in
  let ideal := oifft2 ny nx (fun i j => omul (F i j) (g i j)) in
  let W' := ifftshift2 ny nx W in
  let out := ifta_loop ny nx F W' ideal N (Z.to_nat N) g in
  fun i j => match out i j with Some r => if Rlt_dec 0.5 r then true else false | None => false end.
(** A tensor broadcast to shape (ny, nx); [None]: the result of an operation with an (ny, nx) array would not have that
    shape, which the loops of this file refuse ("shape invariant" of tf.while_loop, or incompatible shapes).
    Windows and targets are shifted before they are broadcast in the code, after in the model; the broadcast direction is
    constant, so this is the same. *)
Definition stretch {A} (ny nx : nat) (t : tensor A) : option (nat -> nat -> A) :=
  match t with
  | T0 a => Some (fun _ _ => a)
  | T2 a b f =>
      if ((Nat.eqb a ny || Nat.eqb a 1) && (Nat.eqb b nx || Nat.eqb b 1))%bool
      then Some (fun i j => f (if Nat.eqb a ny then i else 0%nat) (if Nat.eqb b nx then j else 0%nat)) else None
  end.
(** input_profile and signal_window in tensor form (None if missing or of a type TensorFlow refuses); ifftshift refuses a
    rank-0 window. *)
Definition grating_ifta (neg : bool) (amp : tensor xr) (pin pout x y : tensor R) (p theta : R)
  (input window : option (tensor C)) (N : Z) (s : R) : res (tensor bool) :=
  let! g0 := grating_ideal neg amp pin pout x y p theta in
  match input, window, g0 with
  | Some F, Some (T2 a b W), T2 ny nx g =>
      match stretch ny nx F, stretch ny nx (T2 a b W) with
      | Some F', Some W' => Ok (T2 ny nx (ifta_array ny nx F' W' g N s))
      | _, _ => Err ETensorFlow
      end
  | _, _, _ => Err ETensorFlow
  end.

(** ** LCOS holograms (_lib.py:287-404), on full-size arrays; [F] input, [T] target as given, [u] the uniform
    random numbers. *)
(** _lib.py:346-353 one Gerchberg-Saxton iteration; [Tc] is the shifted target. *)
Definition gs_step (ny nx : nat) (F : nat -> nat -> C) (Tc : nat -> nat -> R) (ph : nat -> nat -> R) : nat -> nat -> R :=
  let modulated := fun i j => (F i j * cis (ph i j))%C in
  let image := ifft2 ny nx modulated in
  let corrected := fun i j => (RtoC (Tc i j) * cis (carg (image i j)))%C in
  let back := fft2 ny nx corrected in
  fun i j => carg (back i j).
Fixpoint iter {A} (n : nat) (f : A -> A) (a : A) : A := match n with O => a | S k => f (iter k f a) end.
(** _lib.py:322-355. *)
Definition gs_array (ny nx : nat) (F : nat -> nat -> C) (T : nat -> nat -> R) (u : nat -> nat -> R) (N : Z) : nat -> nat -> R :=
  iter (Z.to_nat N) (gs_step ny nx F (ifftshift2 ny nx T)) (fun i j => 2 * PI * u i j).
(** _lib.py:394-402 one MRAF iteration; [W] is the shifted window, [m] the mixing factor. *)
Definition mraf_step (ny nx : nat) (F : nat -> nat -> C) (Tc : nat -> nat -> R) (W : nat -> nat -> C) (m : R)
  (ph : nat -> nat -> R) : nat -> nat -> R :=
  let modulated := fun i j => (F i j * cis (ph i j))%C in
  let image := ifft2 ny nx modulated in
  let corrected := fun i j =>
    (RtoC m * RtoC (Tc i j) * cis (carg (image i j)) * W i j + RtoC (1 - m) * image i j * (RtoC 1 - W i j))%C in
  let back := fft2 ny nx corrected in
  fun i j => carg (back i j).
(** _lib.py:357-404. *)
Definition mraf_array (ny nx : nat) (F : nat -> nat -> C) (T : nat -> nat -> R) (W : nat -> nat -> C) (m : R)
  (u : nat -> nat -> R) (N : Z) : nat -> nat -> R :=
  iter (Z.to_nat N) (mraf_step ny nx F (ifftshift2 ny nx T) (ifftshift2 ny nx W) m) (fun i j => 2 * PI * u i j).
