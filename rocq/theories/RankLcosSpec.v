(** Vocabulary for stacks of LCOS holograms. *)
From Coq Require Import Reals ZArith Arith List Bool.
From Coquelicot Require Import Complex.
From Verif Require Import Cx Sums PyBase ProfileModel SlmModel LibModel DmdModel SimSpec HoloSpec RankModel RankSpec.
Import ListNotations.
Open Scope R_scope.

(** An array of the first shape can be spread over the second (last axes first): no more axes, each of size 1 or of the same size. *)
Fixpoint fits (t s : list nat) : Prop :=
  match t, s with [], _ => True | a :: t', n :: s' => (a = 1%nat \/ a = n) /\ fits t' s' | _ :: _, [] => False end.
(** The position that is read when it is spread: 0 along axes of size 1, missing axes dropped. *)
Fixpoint place (t ix : list nat) : list nat :=
  match t, ix with a :: t', k :: r => (match a with 1%nat => 0%nat | _ => k end) :: place t' r | _, _ => [] end.
(** [a], spread over a stack of images for this device, has the value f b i j at row i, column j of image b. *)
Definition spread {A} (s : slm) (B : list nat) (a : nd A) (f : list nat -> nat -> nat -> A) : Prop :=
  fits (nsh a) (s_Nx s :: s_Ny s :: B) /\ forall b i j, valid B b -> in_slm s i j -> nel a (place (nsh a) (j :: i :: b)) = f b i j.
(** The image half a stack further on, along every leading axis, cyclically. *)
Fixpoint half_on (B b : list nat) : list nat :=
  match B, b with n :: B', k :: b' => ((k + n / 2) mod n)%nat :: half_on B' b' | _, _ => [] end.
(** The call for one image: the input of image b, the target and window of image c, the random numbers of image b. *)
Definition alone_lcos (h : heap) (l : lcos) (F : list nat -> nat -> nat -> C) (T : list nat -> nat -> nat -> R) (W : list nat -> nat -> nat -> C) (b c : list nat)
  (m : lmethod) (N : option Z) (mix : option R) (u : list nat -> R) : lcos * res unit :=
  let s := l_slm l in
  calculate_hologram h l (ATensorC (T2 (s_Ny s) (s_Nx s) (F b))) (ATensorR (T2 (s_Ny s) (s_Nx s) (T c))) m
    {| lk_N := N; lk_window := Some (ATensorC (T2 (s_Ny s) (s_Nx s) (W c))); lk_mix := mix |} (fun i j => u (j :: i :: b)).
(** A call on arrays of any rank, and the call of DmdModel.v: the same outcome and the same new state. *)
Definition agrees_lcos (l : lcos) (a : option (nd R) * res unit) (b : lcos * res unit) : Prop :=
  snd a = snd b /\
  match fst a with
  | None => fst b = l
  | Some t => exists ny nx f, fst b = {| l_slm := l_slm l; l_state := LReal ny nx f |} /\ nsh t = [nx; ny] /\ forall i j, (i < ny)%nat -> (j < nx)%nat -> nel t [j; i] = f i j
  end.
