(** Vocabulary for the iterative hologram algorithms (LCOS Gerchberg-Saxton / MRAF, DMD IFTA). *)
From Coq Require Import Reals ZArith Arith List Bool Lia.
From Coquelicot Require Import Complex.
From Verif Require Import Cx Sums PyBase ProfileModel SlmModel LibModel DmdModel SimModel SimSpec DmdSpec.
Open Scope R_scope.

(** The target argument is a full-size real image-plane array. *)
Definition real_target (h : heap) (s : slm) (a : parg) (T : nat -> nat -> R) : Prop :=
  profile_to_tensor_r h s a false = Ok (T2 (s_Ny s) (s_Nx s) T).
(** (i, j) is a pixel of the device. *)
Definition in_slm (s : slm) (i j : nat) : Prop := (i < s_Ny s)%nat /\ (j < s_Nx s)%nat.
(** Field F after a phase-only element. *)
Definition modulated (F : nat -> nat -> C) (phi : nat -> nat -> R) (i j : nat) : C := (F i j * cis (phi i j))%C.
(** Sum of squared amplitude errors in the image plane when the element applies the phases phi. *)
Definition image_error (ny nx : nat) (F : nat -> nat -> C) (T phi : nat -> nat -> R) : R :=
  rsum2 ny nx (fun u v => (Cmod (image_of ny nx (modulated F phi) u v) - T u v) ^ 2).
(** A call returned normally and the device now stores the real phases phi. *)
Definition stores (s : slm) (r : lcos * res unit) (phi : nat -> nat -> R) : Prop :=
  snd r = Ok tt /\ fst r = {| l_slm := s; l_state := LReal (s_Ny s) (s_Nx s) phi |}.
Definition gs_kwargs (N : Z) : lkwargs := {| lk_N := Some N; lk_window := None; lk_mix := None |}.
Definition mraf_kwargs (N : Z) (w : parg) (m : R) : lkwargs := {| lk_N := Some N; lk_window := Some w; lk_mix := Some m |}.
(** Same device and same phases on every pixel. *)
Definition same_hologram (s : slm) (a b : lcos * res unit) : Prop :=
  exists p q, stores s a p /\ stores s b q /\ forall i j, in_slm s i j -> p i j = q i j.
(** Reflection of an image through the optical axis (cyclic). *)
Definition reflect (n k : nat) : nat := ((2 * (n / 2) + n - k) mod n)%nat.
(** The point-symmetric part of an image. *)
Definition symmetric_part (ny nx : nat) (V : nat -> nat -> C) (u v : nat) : C := ((V u v + cconj (V (reflect ny u) (reflect nx v))) / RtoC 2)%C.

(** Hard clipping with threshold t: below t becomes 0, above 1 - t becomes 1. *)
Definition clipped (t r c : R) : Prop := (r < t -> c = 0) /\ (t <= r -> 1 - t < r -> c = 1) /\ (t <= r <= 1 - t -> c = r).
Definition ifta_kwargs (N : Z) (s : R) (w : parg) : kwargs :=
  {| k_r := None; k_N := Some N; k_s := Some s; k_window := Some w; k_input := None |}.
(** One run of the IFTA: [q] the (finite) ideal pattern already multiplied by s, [F] the input field, [V] the signal
    window in image-plane coordinates, [N] the number of iterations, [f] the final mirror pattern. *)
Definition ifta_run (ny nx : nat) (F V : nat -> nat -> C) (q : nat -> nat -> R) (N : Z) (f : nat -> nat -> bool) : Prop :=
  exists G : nat -> nat -> nat -> R,
    (forall i j, (i < ny)%nat -> (j < nx)%nat -> G O i j = q i j) /\
    (forall k, (k < Z.to_nat N)%nat -> exists B : nat -> nat -> R,
       (forall i j, (i < ny)%nat -> (j < nx)%nat -> clipped (INR (k + 1) / (2 * IZR N)) (G k i j) (B i j)) /\
       let displayed := image_of ny nx (fun i j => (F i j * RtoC (B i j))%C) in
       let wanted := image_of ny nx (fun i j => (F i j * RtoC (q i j))%C) in
       let fixed := fun u v => (displayed u v + V u v * (wanted u v - displayed u v))%C in
       forall i j, (i < ny)%nat -> (j < nx)%nat ->
         (F i j = RtoC 0 -> G (S k) i j = 0) /\
         (F i j <> RtoC 0 -> G (S k) i j = fst (spectrum_of ny nx fixed i j / F i j)%C)) /\
    (forall i j, (i < ny)%nat -> (j < nx)%nat -> (f i j = true <-> 1 / 2 < G (Z.to_nat N) i j)).
(** One run of a phase-retrieval loop with N iterations starting from the random phases 2 pi u0: [I] is the image displayed
    by the current phases, [U] its phase factors (any unit number where the image is dark), [wanted I U] the field put in its
    place; the next phases are the angles of the spectrum of that field (0 where it vanishes). *)
Definition retrieval_run (ny nx : nat) (F : nat -> nat -> C) (wanted : C -> C -> nat -> nat -> C) (u0 : nat -> nat -> R) (N : Z)
  (phi : nat -> nat -> R) : Prop :=
  exists G : nat -> nat -> nat -> R,
    (forall i j, (i < ny)%nat -> (j < nx)%nat -> G O i j = 2 * PI * u0 i j) /\
    (forall k, (k < Z.to_nat N)%nat -> exists U : nat -> nat -> C,
       let I := image_of ny nx (modulated F (G k)) in
       (forall u v, (u < ny)%nat -> (v < nx)%nat -> Cmod (U u v) = 1 /\ I u v = (RtoC (Cmod (I u v)) * U u v)%C) /\
       let B := spectrum_of ny nx (fun u v => wanted (I u v) (U u v) u v) in
       forall i j, (i < ny)%nat -> (j < nx)%nat ->
         - PI < G (S k) i j <= PI /\ B i j = (RtoC (Cmod (B i j)) * cis (G (S k) i j))%C /\ (B i j = RtoC 0 -> G (S k) i j = 0)) /\
    (forall i j, (i < ny)%nat -> (j < nx)%nat -> phi i j = G (Z.to_nat N) i j).
(** A keyword argument with a default value. *)
Definition given {A} (o : option A) (default x : A) : Prop := o = Some x \/ (o = None /\ x = default).
(** A keyword argument that is a complex array or tensor. *)
Definition complex_array (o : option parg) (t : tensor C) : Prop := o = Some (ATensorC t) \/ o = Some (AConstC t).
