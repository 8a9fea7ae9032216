(** Change of the units of length, or of the geometry, in the two planes: lengths at the SLM are multiplied by c, lengths at the image by b. *)
From Coq Require Import Reals ZArith List.
From Coquelicot Require Import Complex.
From Verif Require Import Cx PyBase ProfileModel SlmModel LibModel DmdModel SimModel.
Open Scope R_scope.

(** The product of wavelength and focal length takes a length at the SLM to a length at the image. *)
Definition similar (c b : R) (s s' : slm) : Prop :=
  s_Nx s' = s_Nx s /\ s_Ny s' = s_Ny s /\ pixel_size s' = c * pixel_size s /\ wavelength s' * focal_length s' = c * b * (wavelength s * focal_length s).
(** The same DMD, its grating period measured likewise; showing the same pattern. *)
Definition similar_dmd (c b : R) (d d' : dmd) : Prop :=
  similar c b (d_slm d) (d_slm d') /\ d_p d' = c * d_p d /\ d_theta d' = d_theta d /\ d_neg d' = d_neg d /\ d_state d' = d_state d.
Definition similar_lcos (c b : R) (l l' : lcos) : Prop := similar c b (l_slm l) (l_slm l') /\ l_state l' = l_state l.
Definition similar_dev (c b : R) (v v' : device) : Prop :=
  match v, v' with
  | DevBase s, DevBase s' => similar c b s s'
  | DevDmd d, DevDmd d' => similar_dmd c b d d'
  | DevLcos l, DevLcos l' => similar_lcos c b l l'
  | _, _ => False
  end.
(** The profile p' with its variables in h' is the profile p with its variables in h, every length c times as large; amplitudes, orders, angles,
    magnifications and exponents are the same. *)
Inductive enlarged (c : R) (h h' : heap) : prof -> prof -> Prop :=
| eBase : enlarged c h h' PBase PBase
| eConst l l' : h_val h' l' = h_val h l -> enlarged c h h' (PConst l) (PConst l')
| eHG x0 y0 a w x0' y0' a' w' n m : getR h' x0' = c * getR h x0 -> getR h' y0' = c * getR h y0 -> getR h' a' = getR h a -> getR h' w' = c * getR h w ->
    enlarged c h h' (PHG x0 y0 a w n m) (PHG x0' y0' a' w' n m)
| eLG x0 y0 a w x0' y0' a' w' l p : getR h' x0' = c * getR h x0 -> getR h' y0' = c * getR h y0 -> getR h' a' = getR h a -> getR h' w' = c * getR h w ->
    enlarged c h h' (PLG x0 y0 a w l p) (PLG x0' y0' a' w' l p)
| eSG x0 y0 a w p x0' y0' a' w' p' : getR h' x0' = c * getR h x0 -> getR h' y0' = c * getR h y0 -> getR h' a' = getR h a -> getR h' w' = c * getR h w ->
    getR h' p' = getR h p -> enlarged c h h' (PSG x0 y0 a w p) (PSG x0' y0' a' w' p')
| eZern a a' r r' n m norm extrap coef : getR h' a' = getR h a -> r' = c * r ->
    enlarged c h h' (PZern a r n m norm extrap coef) (PZern a' r' n m norm extrap coef)
| eRect x0 y0 wx wy x0' y0' wx' wy' : getR h' x0' = c * getR h x0 -> getR h' y0' = c * getR h y0 -> getR h' wx' = c * getR h wx -> getR h' wy' = c * getR h wy ->
    enlarged c h h' (PRect x0 y0 wx wy) (PRect x0' y0' wx' wy')
| eCirc x0 y0 r x0' y0' r' : getR h' x0' = c * getR h x0 -> getR h' y0' = c * getR h y0 -> getR h' r' = c * getR h r ->
    enlarged c h h' (PCirc x0 y0 r) (PCirc x0' y0' r')
| eBin o p q p' q' : enlarged c h h' p p' -> enlarged c h h' q q' -> enlarged c h h' (PBin o p q) (PBin o p' q')
| ePow p q p' q' : enlarged c h h' p p' -> enlarged c h h' q q' -> enlarged c h h' (PPow p q) (PPow p' q')
| ePowR p p' k : enlarged c h h' p p' -> enlarged c h h' (PPowR p k) (PPowR p' k)
| ePowC p p' k : enlarged c h h' p p' -> enlarged c h h' (PPowC p k) (PPowC p' k)
| eRot th p p' : enlarged c h h' p p' -> enlarged c h h' (PRot th p) (PRot th p')
| eShift dx dy dx' dy' p p' : dx' = c * dx -> dy' = c * dy -> enlarged c h h' p p' -> enlarged c h h' (PShift dx dy p) (PShift dx' dy' p')
| eScaleX m p p' : enlarged c h h' p p' -> enlarged c h h' (PScaleX m p) (PScaleX m p')
| eScaleY m p p' : enlarged c h h' p p' -> enlarged c h h' (PScaleY m p) (PScaleY m p')
| eAsC p p' : enlarged c h h' p p' -> enlarged c h h' (PAsC p) (PAsC p').
(** An argument: an enlarged profile, or the same array. *)
Inductive enlarged_arg (c : R) (h h' : heap) : parg -> parg -> Prop :=
| eaProf p p' : enlarged c h h' p p' -> enlarged_arg c h h' (AProf p) (AProf p')
| eaTensorR t : enlarged_arg c h h' (ATensorR t) (ATensorR t)
| eaTensorC t : enlarged_arg c h h' (ATensorC t) (ATensorC t)
| eaConstR t : enlarged_arg c h h' (AConstR t) (AConstR t)
| eaConstC t : enlarged_arg c h h' (AConstC t) (AConstC t).
Definition enlarged_opt (c : R) (h h' : heap) (o o' : option parg) : Prop :=
  match o, o' with None, None => True | Some a, Some a' => enlarged_arg c h h' a a' | _, _ => False end.
(** Options: the signal window lies in the image plane; the same numbers, and the same array for a raw input profile. *)
Definition enlarged_kw (b : R) (h h' : heap) (k k' : kwargs) : Prop :=
  k_r k' = k_r k /\ k_N k' = k_N k /\ k_s k' = k_s k /\ enlarged_opt b h h' (k_window k) (k_window k') /\ k_input k' = k_input k.
Definition enlarged_lkw (b : R) (h h' : heap) (k k' : lkwargs) : Prop :=
  lk_N k' = lk_N k /\ lk_mix k' = lk_mix k /\ enlarged_opt b h h' (lk_window k) (lk_window k').
(** Results multiplied by k; exceptions are the same. *)
Definition times (k : R) (r r' : res R) : Prop :=
  match r, r' with Ok a, Ok a' => a' = k * a | Err e, Err e' => e' = e | _, _ => False end.
Definition xtimes (k : R) (r r' : res xr) : Prop :=
  match r, r' with Ok (Fin a), Ok (Fin a') => a' = k * a | Ok a, Ok a' => a' = a | Err e, Err e' => e' = e | _, _ => False end.
(** A grid multiplied by c; a field multiplied by k. *)
Definition zoom (c : R) (g : tensor R * tensor R) : tensor R * tensor R := (tmap (fun v => c * v) (fst g), tmap (fun v => c * v) (snd g)).
Definition brighter (k : R) (o : option (tensor C)) : option (tensor C) := option_map (tmap (fun z => (z * RtoC k)%C)) o.
(** Two simulations with the same fields, except that the image field of the second is k times that of the first. *)
Definition similar_sim (k : R) (m m' : sim) : Prop :=
  pad_x m' = pad_x m /\ pad_y m' = pad_y m /\ f_input m' = f_input m /\ f_output m' = f_output m /\ f_image m' = brighter k (f_image m).
(** A length multiplied by b; infinite and undefined ones stay. *)
Definition xlonger (b : R) (a : xr) : xr := match a with Fin r => Fin (b * r) | _ => a end.
