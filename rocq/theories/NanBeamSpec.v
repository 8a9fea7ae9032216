(** Vocabulary for simulations with beams that are not finite. *)
From Coq Require Import Reals ZArith Arith.
From Coquelicot Require Import Complex.
From Verif Require Import Cx PyBase SlmModel LibModel DmdModel SimModel SimSpec NanModel NanSpec.
Open Scope R_scope.

(** What the device does to the light, as factors; None: not finite. *)
Definition acts (dev : device) (K : nat -> nat -> option C) : Prop :=
  match dev with
  | DevDmd d => match d_state d with
                | DBool ny nx f => ny = s_Ny (d_slm d) /\ nx = s_Nx (d_slm d) /\ forall i j, K i j = Some (RtoC (if f i j then 1 else 0))
                | DFloat ny nx g => ny = s_Ny (d_slm d) /\ nx = s_Nx (d_slm d) /\ forall i j, K i j = match g i j with Fin r => Some (RtoC r) | _ => None end
                end
  | DevLcos l => match l_state l with
                 | LReal ny nx f => ny = s_Ny (l_slm l) /\ nx = s_Nx (l_slm l) /\ forall i j, K i j = Some (cos (f i j), - sin (f i j))
                 | LComplex ny nx f => ny = s_Ny (l_slm l) /\ nx = s_Nx (l_slm l) /\
                     forall i j, K i j = Some (exp (snd (f i j)) * cos (fst (f i j)), - (exp (snd (f i j)) * sin (fst (f i j))))
                 end
  | DevBase _ => False
  end.
(** The fields and powers of a simulation whose beam F is not finite everywhere. *)
Definition lost (s : slm) (py px : nat) (F K : nat -> nat -> option C) (m : nsim) : Prop :=
  holds (n_input m) (py + s_Ny s + py) (px + s_Nx s + px) (entry s py px F) /\
  holds (n_output m) (py + s_Ny s + py) (px + s_Nx s + px)
    (entry s py px (fun i j => match F i j, K i j with Some a, Some b => Some (a * b)%C | _, _ => None end)) /\
  holds (n_image m) (py + s_Ny s + py) (px + s_Nx s + px) (fun _ _ z => z = None) /\
  n_input_power s m = Ok None /\ n_output_power s m = Ok None /\ n_image_power s m = Ok None.
