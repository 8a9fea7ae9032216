(** Reflection of the whole set-up in the diagonal of the panel: rows and columns change places, the point (x, y) goes to (-y, -x). *)
From Coq Require Import Reals ZArith List.
From Coquelicot Require Import Complex.
From Verif Require Import Cx PyBase ProfileModel SlmModel LibModel DmdModel SimModel.
Open Scope R_scope.

(** Arrays with rows and columns exchanged. *)
Definition flip {A} (f : nat -> nat -> A) : nat -> nat -> A := fun i j => f j i.
Definition turned {A} (t : tensor A) : tensor A := match t with T0 a => T0 a | T2 ny nx f => T2 nx ny (flip f) end.
Definition turned_state (s : dstate) : dstate :=
  match s with DBool ny nx f => DBool nx ny (flip f) | DFloat ny nx f => DFloat nx ny (flip f) end.
Definition turned_lstate (s : lstate) : lstate :=
  match s with LComplex ny nx f => LComplex nx ny (flip f) | LReal ny nx f => LReal nx ny (flip f) end.
(** The reflected devices: a grating along theta becomes one along - pi/2 - theta. *)
Definition turned_slm (s : slm) : slm :=
  {| wavelength := wavelength s; focal_length := focal_length s; s_Nx := s_Ny s; s_Ny := s_Nx s; pixel_size := pixel_size s |}.
Definition turned_dmd (d : dmd) : dmd :=
  {| d_slm := turned_slm (d_slm d); d_p := d_p d; d_theta := - (PI / 2) - d_theta d; d_neg := d_neg d; d_state := turned_state (d_state d) |}.
Definition turned_lcos (l : lcos) : lcos := {| l_slm := turned_slm (l_slm l); l_state := turned_lstate (l_state l) |}.
Definition turned_dev (v : device) : device :=
  match v with DevBase s => DevBase (turned_slm s) | DevDmd d => DevDmd (turned_dmd d) | DevLcos l => DevLcos (turned_lcos l) end.
(** The grids of the reflected device, from those of the device: pairs of the x and the y coordinates. *)
Definition turned_grid (g : tensor R * tensor R) : tensor R * tensor R := (tmap Ropp (turned (snd g)), tmap Ropp (turned (fst g))).
(** A profile with a value everywhere, and its reflection. *)
Definition turned_prof (h h' : heap) (p p' : prof) : Prop :=
  scalar_valued p' = scalar_valued p /\ forall x y, exists v, func h p x y = Ok v /\ func h' p' (- y) (- x) = Ok v.
Inductive turned_arg (h h' : heap) : parg -> parg -> Prop :=
| taProf p p' : turned_prof h h' p p' -> turned_arg h h' (AProf p) (AProf p')
| taTensorR t : turned_arg h h' (ATensorR t) (ATensorR (turned t))
| taTensorC t : turned_arg h h' (ATensorC t) (ATensorC (turned t))
| taConstR t : turned_arg h h' (AConstR t) (AConstR (turned t))
| taConstC t : turned_arg h h' (AConstC t) (AConstC (turned t)).
Definition turned_opt (h h' : heap) (o o' : option parg) : Prop :=
  match o, o' with None, None => True | Some a, Some a' => turned_arg h h' a a' | _, _ => False end.
Definition turned_kw (h h' : heap) (k k' : kwargs) : Prop :=
  k_r k' = k_r k /\ k_N k' = k_N k /\ k_s k' = k_s k /\ turned_opt h h' (k_window k) (k_window k') /\ turned_opt h h' (k_input k) (k_input k').
Definition turned_lkw (h h' : heap) (k k' : lkwargs) : Prop :=
  lk_N k' = lk_N k /\ lk_mix k' = lk_mix k /\ turned_opt h h' (lk_window k) (lk_window k').
(** A simulation with the paddings exchanged and all fields reflected. *)
Definition turned_sim (m : sim) : sim :=
  {| pad_x := pad_y m; pad_y := pad_x m; f_input := option_map turned (f_input m); f_output := option_map turned (f_output m); f_image := option_map turned (f_image m) |}.
