(** Vocabulary for simulations of states that are not finite (C133). *)
From Coq Require Import Reals ZArith Arith.
From Coquelicot Require Import Complex.
From Verif Require Import Cx PyBase SlmModel LibModel DmdModel SimModel SimSpec NanModel.
Open Scope R_scope.

(** A result attribute holds an ny x nx array whose entries satisfy P; [None] is an entry that is not finite. *)
Definition holds (o : option (tensor (option C))) (ny nx : nat) (P : nat -> nat -> option C -> Prop) : Prop :=
  match o with Some (T2 a b f) => a = ny /\ b = nx /\ forall i j, (i < ny)%nat -> (j < nx)%nat -> P i j (f i j) | _ => False end.
(** Both simulations hold the same, finite, results. *)
Definition same_results (n : nsim) (m : sim) : Prop :=
  n_pad_x n = pad_x m /\ n_pad_y n = pad_y m /\ n_input n = option_map (tmap Some) (f_input m) /\
  n_output n = option_map (tmap Some) (f_output m) /\ n_image n = option_map (tmap Some) (f_image m).
(** Entry (i, j) of the padded array is mirror (i - py, j - px), if there is one. *)
Definition mirror_of (s : slm) (py px i j i' j' : nat) : Prop := i = (py + i')%nat /\ j = (px + j')%nat /\ (i' < s_Ny s)%nat /\ (j' < s_Nx s)%nat.
Definition entry (s : slm) (py px : nat) (f : nat -> nat -> option C) (i j : nat) (z : option C) : Prop :=
  (forall i' j', mirror_of s py px i j i' j' -> z = f i' j') /\ ((forall i' j', ~ mirror_of s py px i j i' j') -> z = Some (RtoC 0)).
(** A grey level that is infinite or NaN. *)
Definition not_finite (x : xr) : Prop := forall r, x <> Fin r.
(** The three fields and the powers of a simulation with the beam F and the grey levels g, not all finite: only the image is lost as a whole. *)
Definition spoilt (s : slm) (py px : nat) (F : nat -> nat -> C) (g : nat -> nat -> xr) (m : nsim) : Prop :=
  holds (n_input m) (py + s_Ny s + py) (px + s_Nx s + px) (entry s py px (fun i j => Some (F i j))) /\
  holds (n_output m) (py + s_Ny s + py) (px + s_Nx s + px) (entry s py px (fun i j => match g i j with Fin r => Some (F i j * RtoC r)%C | _ => None end)) /\
  holds (n_image m) (py + s_Ny s + py) (px + s_Nx s + px) (fun _ _ z => z = None) /\
  n_input_power s m = Ok (Some (power_of (pixel_size s ^ 2) (s_Ny s) (s_Nx s) F)) /\ n_output_power s m = Ok None /\ n_image_power s m = Ok None.
