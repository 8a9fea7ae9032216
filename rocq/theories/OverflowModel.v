(** Floating-point evaluation with a check for overflow after every operation: the formulas of FloatModel.v, FlGridModel.v, FlModeModel.v and
    FlHoloModel.v once more, where a result beyond the largest finite number ends the evaluation (None). The quotients of amplitudes, where the
    code goes on with infinities in a way that matters, follow IEEE 754 instead. *)
From Coq Require Import Reals ZArith List Bool.
From Coquelicot Require Import Complex.
From Verif Require Import Cx DFT PyBase ProfileModel SlmModel LibModel DmdModel SimModel FloatModel FlGridModel FlModeModel FlHoloModel.
Open Scope R_scope.

(** The largest finite numbers of BACKEND.dtype and of Python's floats. *)
Record limits := { lim : R; dlim : R }.
(** One operation: the rounded result if it is finite. *)
Definition fin_op (m : R) (f : R -> R) (x : R) : option R := if Rle_dec (Rabs (f x)) m then Some (f x) else None.
Notation "'let?' x := e 'in' k" := (match e with Some x => k | None => None end) (at level 200, x pattern, right associativity).

(** slm.py:82-87. *)
Definition ck_to_coordinate (L : limits) (a : fpu) (Ny Nx : nat) (ps i j : R) : option (R * R) :=
  let? n := fin_op (lim L) (rnd a) (INR Ny) in
  let? i1 := fin_op (lim L) (rnd a) (n - i) in
  let? dx := fin_op (dlim L) (dbl a) (INR Nx / 2) in
  let? hx := fin_op (lim L) (rnd a) dx in
  let? j1 := fin_op (lim L) (rnd a) (j - hx) in
  let? dy := fin_op (dlim L) (dbl a) (INR Ny / 2) in
  let? hy := fin_op (lim L) (rnd a) dy in
  let? i2 := fin_op (lim L) (rnd a) (i1 - hy) in
  let? p := fin_op (lim L) (rnd a) ps in
  let? x := fin_op (lim L) (rnd a) (j1 * p) in
  let? y := fin_op (lim L) (rnd a) (i2 * p) in
  Some (x, y).
(** slm.py:98-107. *)
Definition ck_grid (L : limits) (a : fpu) (Ny Nx : nat) (ps : R) (i j : nat) : option (R * R) :=
  let? ri := fin_op (lim L) (rnd a) (INR i) in
  let? rj := fin_op (lim L) (rnd a) (INR j) in
  ck_to_coordinate L a Ny Nx ps ri rj.
(** simulation.py:111-118. *)
Definition ck_padded_grid (L : limits) (a : fpu) (Ny Nx : nat) (ps : R) (py px : Z) (i j : nat) : option (R * R) :=
  let? sy := fin_op (lim L) (rnd a) (IZR (- py)) in
  let? ri := fin_op (lim L) (rnd a) (INR i) in
  let? ti := fin_op (lim L) (rnd a) (sy + ri) in
  let? sx := fin_op (lim L) (rnd a) (IZR (- px)) in
  let? rj := fin_op (lim L) (rnd a) (INR j) in
  let? tj := fin_op (lim L) (rnd a) (sx + rj) in
  ck_to_coordinate L a Ny Nx ps ti tj.
(** slm.py:89-96. *)
Definition ck_to_index (L : limits) (a : fpu) (Ny Nx : nat) (ps x y : R) : option (R * R) :=
  let? p := fin_op (lim L) (rnd a) ps in
  let? x1 := fin_op (lim L) (rnd a) (x / p) in
  let? y1 := fin_op (lim L) (rnd a) (y / p) in
  let? dy := fin_op (dlim L) (dbl a) (INR Ny / 2) in
  let? hy := fin_op (lim L) (rnd a) dy in
  let? i := fin_op (lim L) (rnd a) (y1 + hy) in
  let? dx := fin_op (dlim L) (dbl a) (INR Nx / 2) in
  let? hx := fin_op (lim L) (rnd a) dx in
  let? j := fin_op (lim L) (rnd a) (x1 + hx) in
  let? n := fin_op (lim L) (rnd a) (INR Ny) in
  let? i1 := fin_op (lim L) (rnd a) (n - i) in
  Some (i1, j).
(** slm.py:223-228. *)
Definition ck_circular_mask (L : limits) (a : fpu) (i j d : R) (ii jj : nat) : option bool :=
  let? rjj := fin_op (lim L) (rnd a) (INR jj) in
  let? rj := fin_op (lim L) (rnd a) j in
  let? dj := fin_op (lim L) (rnd a) (rjj - rj) in
  let? qj := fin_op (lim L) (rnd a) (dj ^ 2) in
  let? rii := fin_op (lim L) (rnd a) (INR ii) in
  let? ri := fin_op (lim L) (rnd a) i in
  let? di := fin_op (lim L) (rnd a) (rii - ri) in
  let? qi := fin_op (lim L) (rnd a) (di ^ 2) in
  let? rr := fin_op (lim L) (rnd a) (qj + qi) in
  let? d2 := fin_op (dlim L) (dbl a) (d / 2) in
  let? dd := fin_op (dlim L) (dbl a) (d2 ^ 2) in
  let? t := fin_op (lim L) (rnd a) dd in
  Some (if Rlt_dec rr t then true else false).

(** _lib.py:113. *)
Definition ck_grating_phase (L : limits) (a : fpu) (x y theta p : R) : option R :=
  let? pi := fin_op (dlim L) (dbl a) PI in
  let? pi2 := fin_op (dlim L) (dbl a) (2 * pi) in
  let? t := fin_op (lim L) (rnd a) pi2 in
  let? k := fin_op (lim L) (rnd a) (t / p) in
  let? cx := fin_op (lim L) (rnd a) (f_cos a theta * x) in
  let? sy := fin_op (lim L) (rnd a) (f_sin a theta * y) in
  let? s := fin_op (lim L) (rnd a) (cx + sy) in
  fin_op (lim L) (rnd a) (k * s).
(** _lib.py:145-150, 195-200. *)
Definition ck_fringe (L : limits) (a : fpu) (neg : bool) (pin pout x y p theta : R) : option R :=
  let? g := ck_grating_phase L a x y theta p in
  let pin := if neg then - pin else pin in
  let pout := if neg then - pout else pout in
  let? dp := fin_op (lim L) (rnd a) (pout - pin) in
  let? t := fin_op (lim L) (rnd a) (g - dp) in
  Some (f_cos a t).
(** _lib.py:150, 161. *)
Definition ck_ideal (L : limits) (a : fpu) (neg : bool) (amp pin pout x y p theta : R) : option R :=
  let? c := ck_fringe L a neg pin pout x y p theta in
  let? h := fin_op (lim L) (rnd a) (c / 2) in
  let? o := fin_op (lim L) (rnd a) (1 / 2) in
  let? s := fin_op (lim L) (rnd a) (h + o) in
  fin_op (lim L) (rnd a) (amp * s).
Definition ck_simple (L : limits) (a : fpu) (neg : bool) (amp pin pout x y p theta : R) : option bool :=
  let? o := fin_op (lim L) (rnd a) (1 / 2) in
  let? g := ck_ideal L a neg amp pin pout x y p theta in
  Some (if Rlt_dec o g then true else false).
(** _lib.py:200-207. *)
Definition ck_random (L : limits) (a : fpu) (neg : bool) (amp pin pout x y p theta r u : R) : option bool :=
  let? c := ck_fringe L a neg pin pout x y p theta in
  let q := f_acos a c in
  let w := f_asin a amp in
  let? rr := fin_op (lim L) (rnd a) r in
  let? qp := fin_op (lim L) (rnd a) (q + w) in
  let? tp := fin_op (lim L) (rnd a) (rr * qp) in
  let? qm := fin_op (lim L) (rnd a) (q - w) in
  let? tm := fin_op (lim L) (rnd a) (rr * qm) in
  let? dt := fin_op (lim L) (rnd a) (f_tanh a tp - f_tanh a tm) in
  let? o := fin_op (lim L) (rnd a) (1 / 2) in
  let? g := fin_op (lim L) (rnd a) (o * dt) in
  Some (if Rlt_dec u g then true else false).

(** slm.py:313-320 in IEEE arithmetic: a quotient that is too large is an infinity. *)
Definition ie_div (L : limits) (a : fpu) (x y : xr) : xr :=
  match xdiv x y with
  | Fin r => if Rle_dec (Rabs (rnd a r)) (lim L) then Fin (rnd a r) else if Rlt_dec 0 r then PInf else MInf
  | z => z
  end.
Definition ie_ratio (L : limits) (a : fpu) (amp_out amp_in : R) : xr :=
  if Req_EM_T amp_out 0 then Fin 0 else ie_div L a (Fin amp_out) (Fin amp_in).
Definition ie_max (L : limits) (a : fpu) (ny nx : nat) (amp_out amp_in : nat -> nat -> R) : xr :=
  reduce_max (T2 ny nx (fun i j => ie_ratio L a (amp_out i j) (amp_in i j))).
Definition ie_amp_scaled (L : limits) (a : fpu) (ny nx : nat) (amp_out amp_in : nat -> nat -> R) (i j : nat) : xr :=
  ie_div L a (ie_ratio L a (amp_out i j) (amp_in i j)) (ie_max L a ny nx amp_out amp_in).
(** slm.py:363, 370-375, methods "ideal" and "simple"; a level that is not a number switches the mirror off (NaN > 0.5 is False). *)
Definition ck_holo_level (L : limits) (a : fpu) (q : polar) (neg : bool) (ny nx : nat) (ps p th : R) (S E : nat -> nat -> C) (i j : nat) : option xr :=
  let? (x, y) := ck_grid L a ny nx ps i j in
  let? rp := fin_op (lim L) (rnd a) p in
  let? rt := fin_op (lim L) (rnd a) th in
  match ie_amp_scaled L a ny nx (fun i j => f_abs q (S i j)) (fun i j => f_abs q (E i j)) i j with
  | Fin A => let? g := ck_ideal L a neg A (f_angle q (E i j)) (fl_phase_out q (S i j)) x y rp rt in Some (Fin g)
  | _ => Some NaN
  end.
Definition ck_holo_mirror (L : limits) (a : fpu) (q : polar) (neg : bool) (ny nx : nat) (ps p th : R) (S E : nat -> nat -> C) (i j : nat) : option bool :=
  let? g := ck_holo_level L a q neg ny nx ps p th S E i j in
  match g with
  | Fin g => let? o := fin_op (lim L) (rnd a) (1 / 2) in Some (if Rlt_dec o g then true else false)
  | _ => Some false
  end.
Definition ck_holo_eta (L : limits) (a : fpu) (ny nx : nat) (ps sf : R) (M : xr) : option R :=
  let? q := fin_op (dlim L) (dbl a) (ps ^ 2) in
  let? q1 := fin_op (dlim L) (dbl a) (q / sf) in
  let? q2 := fin_op (dlim L) (dbl a) (q1 * INR nx) in
  let? q3 := fin_op (dlim L) (dbl a) (q2 * INR ny) in
  match M with
  | Fin m => if Req_EM_T m 0 then None else fin_op (dlim L) (dbl a) (q3 / m)
  | PInf => Some 0
  | _ => None
  end.

(** profile.py:215-232 for n = m = 0. *)
Definition ck_gaussian (L : limits) (a : fpu) (f_exp : R -> R) (x0 y0 A w x y : R) : option R :=
  let? rx0 := fin_op (lim L) (rnd a) x0 in
  let? ry0 := fin_op (lim L) (rnd a) y0 in
  let? rw := fin_op (lim L) (rnd a) w in
  let? rA := fin_op (lim L) (rnd a) A in
  let? dx := fin_op (lim L) (rnd a) (x - rx0) in
  let? xn := fin_op (lim L) (rnd a) (dx / rw) in
  let? dy := fin_op (lim L) (rnd a) (y - ry0) in
  let? yn := fin_op (lim L) (rnd a) (dy / rw) in
  let? A1 := fin_op (lim L) (rnd a) (rA * 1) in
  let? A2 := fin_op (lim L) (rnd a) (A1 * 1) in
  let? qx := fin_op (lim L) (rnd a) (xn ^ 2) in
  let? qy := fin_op (lim L) (rnd a) (yn ^ 2) in
  let? q := fin_op (lim L) (rnd a) (qx + qy) in
  fin_op (lim L) (rnd a) (A2 * f_exp (- q)).
Definition ck_gaussian_beam (L : limits) (a : fpu) (f_exp : R -> R) (Ny Nx : nat) (ps x0 y0 A w : R) (i j : nat) : option R :=
  let? (x, y) := ck_grid L a Ny Nx ps i j in ck_gaussian L a f_exp x0 y0 A w x y.

(** window.py:9-18, 53-60. *)
Definition ck_rect_value (L : limits) (a : fpu) (x0 y0 wx wy x y : R) : option R :=
  let? rx0 := fin_op (lim L) (rnd a) x0 in
  let? ry0 := fin_op (lim L) (rnd a) y0 in
  let? rwx := fin_op (lim L) (rnd a) wx in
  let? rwy := fin_op (lim L) (rnd a) wy in
  let? dx := fin_op (lim L) (rnd a) (x - rx0) in
  let? hx := fin_op (lim L) (rnd a) (rwx / 2) in
  let? dy := fin_op (lim L) (rnd a) (y - ry0) in
  let? hy := fin_op (lim L) (rnd a) (rwy / 2) in
  fin_op (lim L) (rnd a) (ind (Rltb (Rabs dx) hx) * ind (Rltb (Rabs dy) hy)).
Definition ck_circ_value (L : limits) (a : fpu) (x0 y0 r x y : R) : option R :=
  let? rx0 := fin_op (lim L) (rnd a) x0 in
  let? ry0 := fin_op (lim L) (rnd a) y0 in
  let? rr := fin_op (lim L) (rnd a) r in
  let? dx := fin_op (lim L) (rnd a) (x - rx0) in
  let? dy := fin_op (lim L) (rnd a) (y - ry0) in
  let? qx := fin_op (lim L) (rnd a) (dx ^ 2) in
  let? qy := fin_op (lim L) (rnd a) (dy ^ 2) in
  let? q := fin_op (lim L) (rnd a) (qx + qy) in
  let? r2 := fin_op (lim L) (rnd a) (rr ^ 2) in
  Some (ind (Rleb q r2)).

(** slm.py:115-123, simulation.py:94-104; the operations on arrays are checked element by element. *)
Fixpoint ck_map (f : R -> option R) (l : list R) : option (list R) :=
  match l with nil => Some nil | cons x l => let? y := f x in let? r := ck_map f l in Some (cons y r) end.
Definition ck_fftfreq (L : limits) (a : fpu) (n : nat) (d : R) : option (list R) :=
  let N := ((Z.of_nat n - 1) / 2 + 1)%Z in
  let? rn := fin_op (dlim L) (dbl a) (INR n) in
  let? nd := fin_op (dlim L) (dbl a) (rn * d) in
  let? v := fin_op (dlim L) (dbl a) (1 / nd) in
  let? ks := ck_map (fin_op (dlim L) (dbl a)) (map IZR (arange 0 N ++ arange (- (Z.of_nat n / 2)) 0)) in
  ck_map (fun k => fin_op (dlim L) (dbl a) (k * v)) ks.
Definition ck_image_grid_of (L : limits) (a : fpu) (nx ny : nat) (ps sf : R) : option (tensor R * tensor R) :=
  let? fx := ck_fftfreq L a nx ps in
  let? kx := ck_map (fin_op (lim L) (rnd a)) fx in
  let? fy := ck_fftfreq L a ny ps in
  let? ky := ck_map (fin_op (lim L) (rnd a)) (map Ropp fy) in
  let? rs := fin_op (lim L) (rnd a) sf in
  let? X := ck_map (fun k => fin_op (lim L) (rnd a) (k * rs)) (fftshift1 kx) in
  let? Y := ck_map (fun k => fin_op (lim L) (rnd a) (k * rs)) (fftshift1 ky) in
  Some (mesh_xy X Y).
Definition ck_image_plane_grid (L : limits) (a : fpu) (s : slm) : option (tensor R * tensor R) :=
  let? sf := fin_op (dlim L) (dbl a) (wavelength s * focal_length s) in
  ck_image_grid_of L a (s_Nx s) (s_Ny s) (pixel_size s) sf.

(** simulation.py:137, 149-150, 195-225. *)
Definition ck_cmul (L : limits) (a : fpu) (z w : C) : option C :=
  let? p := fin_op (lim L) (rnd a) (fst z * fst w) in
  let? q := fin_op (lim L) (rnd a) (snd z * snd w) in
  let? x := fin_op (lim L) (rnd a) (p - q) in
  let? r := fin_op (lim L) (rnd a) (fst z * snd w) in
  let? s := fin_op (lim L) (rnd a) (snd z * fst w) in
  let? y := fin_op (lim L) (rnd a) (r + s) in
  Some (x, y).
Definition ck_intensity (L : limits) (a : fpu) (z : C) : option R :=
  let? p := fin_op (lim L) (rnd a) (fst z ^ 2) in
  let? q := fin_op (lim L) (rnd a) (snd z ^ 2) in
  fin_op (lim L) (rnd a) (p + q).
Fixpoint ck_sum (L : limits) (a : fpu) (f : nat -> nat -> option R) (t : summation) : option R :=
  match t with
  | Pixel i j => f i j
  | Added l r => let? x := ck_sum L a f l in let? y := ck_sum L a f r in fin_op (lim L) (rnd a) (x + y)
  end.
Definition ck_times (L : limits) (a : fpu) (w : promotion) (s area : R) : option R :=
  match w with
  | Weak => let? r := fin_op (lim L) (rnd a) area in fin_op (lim L) (rnd a) (s * r)
  | Wide => fin_op (dlim L) (dbl a) (s * area)
  end.
Definition ck_power (L : limits) (a : fpu) (w : promotion) (area : R) (field : nat -> nat -> C) (t : summation) : option R :=
  let? s := ck_sum L a (fun i j => ck_intensity L a (field i j)) t in ck_times L a w s area.
