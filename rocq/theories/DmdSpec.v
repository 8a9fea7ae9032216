(** Vocabulary for stating DMD properties. *)
From Coq Require Import Reals ZArith Arith List Bool Lia.
From Coquelicot Require Import Complex.
From Verif Require Import Cx Sums PyBase ProfileModel SlmModel LibModel DmdModel SimSpec.
Import ListNotations.
Open Scope R_scope.

(** One element of dmd_state with its element type. *)
Inductive cell := CBool (b : bool) | CFloat (x : xr).
Definition is_bool_state (s : dstate) : bool := match s with DBool _ _ _ => true | DFloat _ _ _ => false end.
Definition state_shape (s : dstate) : nat * nat := match s with DBool a b _ => (a, b) | DFloat a b _ => (a, b) end.
Definition cell_at (s : dstate) (i j : nat) : cell :=
  match s with DBool _ _ f => CBool (f i j) | DFloat _ _ f => CFloat (f i j) end.
(** numpy conversion of an element to bool (non-zero is True, NaN is True) or to float. *)
Definition cell_as (to_bool : bool) (c : cell) : cell :=
  match c, to_bool with
  | CFloat (Fin r), true => CBool (if Req_EM_T r 0 then false else true)
  | CFloat _, true => CBool true
  | CBool b, false => CFloat (Fin (if b then 1 else 0))
  | _, _ => c
  end.
(** Distance of mirror (i, j) from a centre given in pixel indices. *)
Definition pixel_distance (ci cj : R) (i j : nat) : R := sqrt ((INR i - ci) ^ 2 + (INR j - cj) ^ 2).

(** [reads h s a A]: the argument, sampled at the Fourier plane as a real array, is a scalar or a full-size array,
    and its value at mirror (i, j) is A i j. *)
Definition reads (h : heap) (s : slm) (a : parg) (A : nat -> nat -> R) : Prop :=
  exists t, profile_to_tensor_r h s a true = Ok t /\ (tshape t = S0 \/ tshape t = S2 (s_Ny s) (s_Nx s)) /\
    forall i j, (i < s_Ny s)%nat -> (j < s_Nx s)%nat -> tget t i j = A i j.
(** Position of mirror (i, j): centre of the array at the origin, y upwards. *)
Definition mirror_x (s : slm) (j : nat) : R := (INR j - INR (s_Nx s) / 2) * pixel_size s.
Definition mirror_y (s : slm) (i : nat) : R := (INR (s_Ny s) / 2 - INR i) * pixel_size s.
(** Carrier phase of the grating at mirror (i, j). *)
Definition carrier (d : dmd) (i j : nat) : R :=
  2 * PI * (cos (d_theta d) * mirror_x (d_slm d) j + sin (d_theta d) * mirror_y (d_slm d) i) / d_p d.

(** Calls on a DMD. *)
Inductive call :=
| COn | COff
| CGrating (h : heap) (amp pin pout : parg) (m : method) (kw : kwargs) (u : nat -> nat -> R)
| CPatch (h : heap) (ci cj : R) (amp pin pout : parg) (diam : R) (m : method) (kw : kwargs) (u : nat -> nat -> R)
| CCalc (h : heap) (input target : parg) (m : method) (window : option parg) (kw : kwargs) (u : nat -> nat -> R)
| CPack.
Definition ignore {A} (r : res A) : res unit := rmap (fun _ => tt) r.
Definition do_call (d : dmd) (c : call) : dmd * res unit :=
  match c with
  | COn => (set_dmd_state_on d, Ok tt)
  | COff => (set_dmd_state_off d, Ok tt)
  | CGrating h a b c m kw u => set_dmd_grating_state h d a b c m kw u
  | CPatch h ci cj a b c dm m kw u => circular_patch h d ci cj a b c dm m kw u
  | CCalc h i t m w kw u => let (d', r) := calculate_dmd_state h d i t m w kw u in (d', ignore r)
  | CPack => (d, ignore (pack_dmd_state d))
  end.
(** A history: the calls with their outcomes (exceptions are caught by the caller). *)
Fixpoint do_calls (d : dmd) (cs : list call) : dmd * list (call * res unit) :=
  match cs with
  | [] => (d, [])
  | c :: r => let (d1, o) := do_call d c in let (d2, l) := do_calls d1 r in (d2, (c, o) :: l)
  end.
Definition binary (m : method) : bool := match m with MSimple | MRandom | MIfta => true | _ => false end.
(** Which call decided the element type: the last one that stored a whole new array. *)
Definition element_type (before : bool) (co : call * res unit) : bool :=
  match co with
  | (COn, _) | (COff, _) => true
  | (CGrating _ _ _ _ m _ _, Ok _) => binary m
  | (CCalc _ _ _ m _ _ _, Ok _) | (CCalc _ _ _ m _ _ _, Err ZeroDivisionError) => binary m
  | _ => before
  end.

(** ** Fourier optics of the hologram calculation *)
(** The centred plane wave linking pixel (i, j) of one plane to pixel (u, v) of the other. *)
Definition centred (n k : nat) : Z := (Z.of_nat k - Z.of_nat (n / 2))%Z.
Definition wave (ny nx i j u v : nat) : C :=
  cis (2 * PI * (IZR (centred ny i * centred ny u) / INR ny + IZR (centred nx j * centred nx v) / INR nx)).
(** Fourier-plane field of an image, and image of a Fourier-plane field. *)
Definition spectrum_of (ny nx : nat) (T : nat -> nat -> C) (i j : nat) : C :=
  csum2 ny nx (fun u v => (T u v * cconj (wave ny nx i j u v))%C).
Definition image_of (ny nx : nat) (E : nat -> nat -> C) (u v : nat) : C :=
  (csum2 ny nx (fun i j => (E i j * wave ny nx i j u v)%C) / RtoC (INR (ny * nx)))%C.
(** An image displaced by a columns to the right and b rows up, cyclically. *)
Definition displaced (ny nx : nat) (a b : Z) (T : nat -> nat -> C) (u v : nat) : C :=
  T (Z.to_nat ((Z.of_nat u + b) mod Z.of_nat ny)) (Z.to_nat ((Z.of_nat v - a) mod Z.of_nat nx)).
(** Constant phase caused by the half-pixel offset of odd-sized grids; 1 for even sizes. *)
Definition half_pixel_phase (ny nx : nat) (a b : Z) : C :=
  cis (2 * PI * ((INR nx / 2 - INR (nx / 2)) * IZR a / INR nx - (INR ny / 2 - INR (ny / 2)) * IZR b / INR ny)).
(** Phase of z, with phase 0 for z = 0; z / |z|. *)
Definition phase_of (z : C) : R := if C_dec0 z then 0 else carg z.
Definition unit_of (z : C) : C := cis (carg z).
(** The target argument is a full-size image-plane array. *)
Definition full_target (h : heap) (s : slm) (a : parg) (T : nat -> nat -> C) : Prop :=
  profile_to_tensor_c h s a false = Ok (T2 (s_Ny s) (s_Nx s) T).
(** The optional Fourier-plane window, read as a factor per mirror (1 when absent). *)
Definition window_reads (h : heap) (s : slm) (w : option parg) (W : nat -> nat -> C) : Prop :=
  match w with
  | None => forall i j, W i j = RtoC 1
  | Some a => exists t, profile_to_tensor_c h s a true = Ok t /\ (tshape t = S0 \/ tshape t = S2 (s_Ny s) (s_Nx s)) /\
      forall i j, (i < s_Ny s)%nat -> (j < s_Nx s)%nat -> tget t i j = W i j
  end.
(** Image-plane pixel pitch. *)
Definition image_pitch_x (s : slm) : R := scaling_factor s / (INR (s_Nx s) * pixel_size s).
Definition image_pitch_y (s : slm) : R := scaling_factor s / (INR (s_Ny s) * pixel_size s).
(** Two states with the same element type, shape and entries. *)
Definition same_state (a b : dstate) : Prop :=
  state_shape a = state_shape b /\ is_bool_state a = is_bool_state b /\
  forall i j, (i < fst (state_shape a))%nat -> (j < snd (state_shape a))%nat -> cell_at a i j = cell_at b i j.

(** Sign convention of negative_order. *)
Definition signed (neg : bool) (r : R) : R := if neg then - r else r.
(** Duty cycle of the random grating. *)
Definition duty (r q A : R) : R := (tanh (r * (q + asin A)) - tanh (r * (q - asin A))) / 2.
(** [q] is the distance of [t] from the nearest multiple of 2 pi. *)
Definition folded (t q : R) : Prop := 0 <= q <= PI /\ exists k : Z, t = 2 * PI * IZR k + q \/ t = 2 * PI * IZR k - q.
(** Spectrum of the target after the optional Fourier-plane window. *)
Definition windowed (d : dmd) (T W : nat -> nat -> C) (i j : nat) : C := (spectrum_of (s_Ny (d_slm d)) (s_Nx (d_slm d)) T i j * W i j)%C.
(** The three orders of an ideal hologram in the Fourier plane; [S] is the (windowed) spectrum of the target. *)
Definition zeroth_order (F S : nat -> nat -> C) (i j : nat) : C := (RtoC (Cmod (S i j)) * unit_of (F i j))%C.
Definition first_order (d : dmd) (S : nat -> nat -> C) (i j : nat) : C := (S i j * cis (- signed (d_neg d) (carrier d i j)))%C.
Definition conjugate_order (d : dmd) (F S : nat -> nat -> C) (i j : nat) : C :=
  (cconj (S i j) * (unit_of (F i j) * unit_of (F i j)) * cis (signed (d_neg d) (carrier d i j)))%C.
(** Intensity-independent normalisation of eta: Nx Ny (pixel size)^2 / (wavelength * focal length). *)
Definition eta_scale (s : slm) : R := INR (s_Nx s) * INR (s_Ny s) * pixel_size s ^ 2 / scaling_factor s.
(** (i, j) is a mirror of the array. *)
Definition in_array (d : dmd) (i j : nat) : Prop := (i < s_Ny (d_slm d))%nat /\ (j < s_Nx (d_slm d))%nat.
(** The mirrors of [d], on/off or grey, are in the positions [q]. *)
Definition shows (d : dmd) (q : nat -> nat -> R) : Prop := state_shape (d_state d) = (s_Ny (d_slm d), s_Nx (d_slm d)) /\
  forall i j, in_array d i j -> cell_at (d_state d) i j = CFloat (Fin (q i j)) \/ exists b : bool, cell_at (d_state d) i j = CBool b /\ q i j = if b then 1 else 0.
