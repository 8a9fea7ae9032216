(** Vocabulary for C118: the reset and trigger lines of a Luxbeam board, read off the calls that returned. *)
From Coq Require Import Arith List Bool.
From Verif Require Import PyBase ControllerModel.
Import ListNotations.

Record lines := {
  g_reset : bool;      (* the sequencer is held in reset *)
  g_high : bool;       (* level of the software trigger line *)
  g_edges : nat;       (* rising edges so far: triggers seen by the sequencer *)
  g_bad : bool         (* program or register changed out of reset, or sequencer started in reset *)
}.
Definition lines0 : lines := {| g_reset := false; g_high := false; g_edges := 0; g_bad := false |}.
Definition lines_step (s : lines) (c : lux_call) : lines :=
  match c with
  | L_SeqState SEQ_CMD_RESET b => {| g_reset := b; g_high := g_high s; g_edges := g_edges s; g_bad := g_bad s |}
  | L_SeqState SEQ_CMD_RUN b => {| g_reset := g_reset s; g_high := g_high s; g_edges := g_edges s; g_bad := g_bad s || (b && g_reset s) |}
  | L_LoadSequence _ | L_SetReg _ _ => {| g_reset := g_reset s; g_high := g_high s; g_edges := g_edges s; g_bad := g_bad s || negb (g_reset s) |}
  | L_LoadImage _ _ => s
  | L_SoftSync v => let up := negb (v =? 0) in
      {| g_reset := g_reset s; g_high := up; g_edges := if (up && negb (g_high s))%bool then S (g_edges s) else g_edges s; g_bad := g_bad s |}
  end.
Definition lux_lines (log : list lux_call) : lines := fold_left lines_step log lines0.
(** How many fire_software_trigger calls returned normally. *)
Fixpoint fired (os : list lux_op) (rs : list (res out)) : nat :=
  match os, rs with
  | LFire :: os', Ok _ :: rs' => S (fired os' rs')
  | _ :: os', _ :: rs' => fired os' rs'
  | _, _ => 0
  end.
(** Operations after which the board is ready to run. *)
Definition prepares (o : lux_op) : bool := match o with LInitialize | LLoadSingle _ | LLoadMultiple _ => true | _ => false end.
