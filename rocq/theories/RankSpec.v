(** Vocabulary for arrays of any rank. *)
From Coq Require Import Reals ZArith Arith List Bool.
From Coquelicot Require Import Complex.
From Verif Require Import Cx Sums PyBase ProfileModel SlmModel LibModel DmdModel SimSpec DmdSpec RankModel.
Import ListNotations.
Open Scope R_scope.

Definition shp (s : shape) : list nat := match s with S0 => [] | S2 ny nx => [nx; ny] end.
(** A valid position of an array of this shape. *)
Definition at_shape (s : shape) (i j : nat) : Prop := match s with S0 => True | S2 ny nx => (i < ny)%nat /\ (j < nx)%nat end.
Definition idx (s : shape) (i j : nat) : list nat := match s with S0 => [] | S2 _ _ => [j; i] end.
(** The array [a] of any rank is the tensor [t]. *)
Definition same {A} (a : nd A) (t : tensor A) : Prop :=
  nsh a = shp (tshape t) /\ forall i j, at_shape (tshape t) i j -> nel a (idx (tshape t) i j) = tget t i j.
(** A call on arrays of any rank, and the call of DmdModel.v: the same value or exception, and the same new state. *)
Definition agrees (d : dmd) (a : option ndstate * res xr) (b : dmd * res xr) : Prop :=
  snd a = snd b /\
  match fst a with
  | None => fst b = d
  | Some (NBool t) => exists ny nx f, fst b = with_state d (DBool ny nx f) /\ nsh t = [nx; ny] /\ forall i j, (i < ny)%nat -> (j < nx)%nat -> nel t [j; i] = f i j
  | Some (NFloat t) => exists ny nx f, fst b = with_state d (DFloat ny nx f) /\ nsh t = [nx; ny] /\ forall i j, (i < ny)%nat -> (j < nx)%nat -> nel t [j; i] = f i j
  end.
(** ** Stacks of images. [B] holds the sizes of the leading axes, last one first. *)
(** A position in the stack. *)
Definition valid (B b : list nat) : Prop := Forall2 lt b B.
(** [stack_of d B a f]: the array is one image for the whole stack or a stack of images, and image b has the value f b i j at row i, column j. *)
Definition stack_of (d : dmd) (B : list nat) (a : nd C) (f : list nat -> nat -> nat -> C) : Prop :=
  (nsh a = [s_Nx (d_slm d); s_Ny (d_slm d)] /\ forall b i j, valid B b -> in_array d i j -> nel a [j; i] = f b i j) \/
  (nsh a = s_Nx (d_slm d) :: s_Ny (d_slm d) :: B /\ forall b i j, valid B b -> in_array d i j -> nel a (j :: i :: b) = f b i j).
Definition stack_window (d : dmd) (B : list nat) (w : option (nd C)) (f : list nat -> nat -> nat -> C) : Prop :=
  match w with None => forall b i j, f b i j = RtoC 1 | Some w => stack_of d B w f end.
(** At least one of the arguments has the leading axes. *)
Definition deep (d : dmd) (B : list nat) (a : nd C) : Prop := nsh a = s_Nx (d_slm d) :: s_Ny (d_slm d) :: B.
Definition deep_window (d : dmd) (B : list nat) (w : option (nd C)) : Prop := match w with None => False | Some w => deep d B w end.
(** The same call for image b of the stack alone. *)
Definition alone (h : heap) (d : dmd) (F T W : list nat -> nat -> nat -> C) (w : option (nd C)) (b : list nat) (m : method) (kw : kwargs) (u : nat -> nat -> R) : dmd * res xr :=
  let full := fun f => ATensorC (T2 (s_Ny (d_slm d)) (s_Nx (d_slm d)) f) in
  calculate_dmd_state h d (full (F b)) (full (T b)) m (match w with None => None | Some _ => Some (full (W b)) end) kw u.
