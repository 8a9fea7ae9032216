(** Vocabulary for IFTA on stacks. *)
From Coq Require Import Reals ZArith Arith List Bool.
From Coquelicot Require Import Complex.
From Verif Require Import Cx Sums PyBase ProfileModel SlmModel LibModel DmdModel SimSpec DmdSpec HoloSpec RankModel RankSpec RankLcosSpec.
Import ListNotations.
Open Scope R_scope.

(** The IFTA call for image b alone with the signal window of image c and the given s. *)
Definition alone_ifta (h : heap) (d : dmd) (F T W V : list nat -> nat -> nat -> C) (w : option (nd C)) (b c : list nat) (N : option Z) (s : R) (u : nat -> nat -> R) : dmd * res xr :=
  alone h d F T W w b MIfta
    {| k_r := None; k_N := N; k_s := Some s; k_window := Some (ATensorC (T2 (s_Ny (d_slm d)) (s_Nx (d_slm d)) (V c))); k_input := None |} u.
