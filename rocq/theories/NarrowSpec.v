(** Vocabulary for narrow beams in single precision (C132). *)
From Coq Require Import Reals ZArith Arith.
From Coquelicot Require Import Complex.
From Verif Require Import Cx PyBase ProfileModel SlmModel LibModel DmdModel SimModel SimSpec DmdSpec FloatModel FloatSpec FlModeModel ModeSpec.
Open Scope R_scope.

(** The exponential of single precision, correctly rounded. *)
Definition exp32 (t : R) : R := binary32 (exp t).
(** The exponential gives 0 for arguments below - K. *)
Definition underflows (f_exp : R -> R) (K : Z) : Prop := forall t, t <= - IZR K -> f_exp t = 0.
(** The waist w is so small that the corner mirror lies at least (kx, ky) waists away from the axis. *)
Definition narrow (s : slm) (w : R) (kx ky : Z) : Prop :=
  (0 <= kx <= 1000)%Z /\ (0 <= ky <= 1000)%Z /\ / 2 ^ 90 <= w /\ IZR kx * w * (1 + / 2 ^ 20) <= INR (s_Nx s) / 2 * pixel_size s /\ IZR ky * w * (1 + / 2 ^ 20) <= INR (s_Ny s) / 2 * pixel_size s.
(** A beam centred on the device, sampled by the arithmetic [a], and the same beam sampled exactly. *)
Definition rounded_beam (a : fpu) (s : slm) (f_exp : R -> R) (A w : R) : parg :=
  AConstC (T2 (s_Ny s) (s_Nx s) (fun i j => RtoC (fl_gaussian_beam a f_exp (s_Ny s) (s_Nx s) (pixel_size s) 0 0 A w i j))).
Definition exact_beam (s : slm) (A w : R) : parg :=
  AConstC (T2 (s_Ny s) (s_Nx s) (fun i j => RtoC (hg_mode 0 0 A w 0 0 (mirror_x s j) (mirror_y s i)))).
(** The hologram is blank: efficiency 0, no mirror on. *)
Definition blank (d : dmd) (r : dmd * res xr) : Prop :=
  snd r = Ok (Fin 0) /\ state_shape (d_state (fst r)) = (s_Ny (d_slm d), s_Nx (d_slm d)) /\ forall i j, in_array d i j -> cell_at (d_state (fst r)) i j = CBool false.
