(** Vocabulary for gratings and patches on stacks. *)
From Coq Require Import Reals ZArith Arith List Bool.
From Verif Require Import Cx PyBase SlmModel LibModel DmdModel RankModel RankSpec.
Import ListNotations.
Open Scope R_scope.

Definition state_shape (st : ndstate) : list nat := match st with NBool t => nsh t | NFloat t => nsh t end.
(** The array of any rank is the state of the other model files. *)
Definition same_state (n : ndstate) (s : dstate) : Prop :=
  match n, s with
  | NBool t, DBool ny nx f => nsh t = [nx; ny] /\ forall i j, (i < ny)%nat -> (j < nx)%nat -> nel t [j; i] = f i j
  | NFloat t, DFloat ny nx f => nsh t = [nx; ny] /\ forall i j, (i < ny)%nat -> (j < nx)%nat -> nel t [j; i] = f i j
  | _, _ => False
  end.
(** Image b of a stack. *)
Definition image_state (st : ndstate) (ny nx : nat) (b : list nat) : dstate :=
  match st with
  | NBool t => DBool ny nx (fun i j => nel t (j :: i :: b))
  | NFloat t => DFloat ny nx (fun i j => nel t (j :: i :: b))
  end.
(** The same two-dimensional pattern: size, kind and values. *)
Definition same_pattern (s s' : dstate) : Prop :=
  match s, s' with
  | DBool ny nx f, DBool ny' nx' f' => ny = ny' /\ nx = nx' /\ forall i j, (i < ny)%nat -> (j < nx)%nat -> f i j = f' i j
  | DFloat ny nx f, DFloat ny' nx' f' => ny = ny' /\ nx = nx' /\ forall i j, (i < ny)%nat -> (j < nx)%nat -> f i j = f' i j
  | _, _ => False
  end.
(** What an argument contributes to image b: axes it lacks, and axes of size 1, are repeated. *)
Definition image_arg (a : nd R) (ny nx : nat) (b : list nat) : parg := ATensorR (T2 ny nx (fun i j => nget a (j :: i :: b))).
(** An argument for a stack over B: a number, one image, one number for every image, or a stack of images. *)
Definition stack_arg (d : dmd) (B : list nat) (a : nd R) : Prop :=
  nsh a = [] \/ nsh a = [s_Nx (d_slm d); s_Ny (d_slm d)] \/ nsh a = 1%nat :: 1%nat :: B \/ nsh a = s_Nx (d_slm d) :: s_Ny (d_slm d) :: B.
Definition deep_arg (d : dmd) (B : list nat) (a : nd R) : Prop := nsh a = 1%nat :: 1%nat :: B \/ nsh a = s_Nx (d_slm d) :: s_Ny (d_slm d) :: B.
(** The first two axes of an array (in numpy's order). *)
Definition first_axes (s : list nat) (a b : nat) : Prop := exists t, s = t ++ [b; a].
(** The mirrors of a square panel inside the circle of a patch. *)
Definition mirrors_inside (n : nat) (ci cj diam : R) : list (nat * nat) :=
  filter (fun q => if Rlt_dec ((INR (snd q) - cj) ^ 2 + (INR (fst q) - ci) ^ 2) ((diam / 2) ^ 2) then true else false) (list_prod (seq 0 n) (seq 0 n)).
