(** The panels of the built-in devices, as documented by their manufacturers. *)
From Coq Require Import Reals List Arith.
From Verif Require Import PyBase SlmModel DmdModel.
Import ListNotations.
Open Scope R_scope.

(** Pixels across and down; pixel pitch in nanometres. *)
Record panel := { across : nat; down : nat; pitch_nm : R }.
Definition pitch (p : panel) : R := pitch_nm p / 10 ^ 9.
Definition panels : list ((R -> R -> R -> R -> bool -> dmd) * panel) :=
  [ (DLP9500, {| across := 1920; down := 1080; pitch_nm := 10800 |});
    (DLP7000, {| across := 1024; down := 768; pitch_nm := 13680 |});
    (DLP9000, {| across := 2560; down := 1600; pitch_nm := 7560 |}) ].
Definition pluto : panel := {| across := 1920; down := 1080; pitch_nm := 8000 |}.
(** Position of pixel (i, j): origin in the middle of the panel, y upwards. *)
Definition panel_x (p : panel) (j : nat) : R := (INR j - INR (across p) / 2) * pitch p.
Definition panel_y (p : panel) (i : nat) : R := (INR (down p) / 2 - INR i) * pitch p.
