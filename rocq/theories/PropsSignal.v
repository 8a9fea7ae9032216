(** C118: the reset and trigger lines of a Luxbeam board. *)
From Coq Require Import ZArith Arith List Bool Lia.
From Verif Require Import PyBase ControllerModel ControllerSpec ControllerFacts ControllerFacts2 SignalSpec SignalFacts.
Import ListNotations.

(** Whatever is called and whatever fails: the program and the register are changed in reset only, and the sequencer is never started in reset. *)
Theorem C118_changed_in_reset_only : forall glyphs info inv faulty os c rs,
  run_ops (lux_exec glyphs info) (lux_ctrl inv faulty) os = (c, rs) -> g_bad (lux_lines (done_of c)) = false.
Proof. exact hist_good. Qed.
Print Assumptions C118_changed_in_reset_only.
(** Initialising and loading, when they succeed, leave the sequencer out of reset. *)
Theorem C118_released : forall glyphs info c o c' u, prepares o = true -> lux_exec glyphs info o c = (c', Ok u) -> g_reset (lux_lines (done_of c')) = false.
Proof. exact hist_ready. Qed.
Print Assumptions C118_released.
(** As long as lowering the trigger line never failed, it is low between calls and the sequencer saw one trigger for each successful fire_software_trigger. *)
Theorem C118_one_trigger_each : forall glyphs info inv faulty os c rs, run_ops (lux_exec glyphs info) (lux_ctrl inv faulty) os = (c, rs) ->
  ~ In (L_SoftSync 0, false) (log_of c) -> g_high (lux_lines (done_of c)) = false /\ g_edges (lux_lines (done_of c)) = fired os rs.
Proof. exact hist_edges. Qed.
Print Assumptions C118_one_trigger_each.
(** When the line was left high, the next successful fire_software_trigger is not seen, but restores the line. *)
Theorem C118_trigger_lost_after_failure : forall glyphs info c c' u, g_high (lux_lines (done_of c)) = true -> lux_exec glyphs info LFire c = (c', Ok u) ->
  g_edges (lux_lines (done_of c')) = g_edges (lux_lines (done_of c)) /\ g_high (lux_lines (done_of c')) = false.
Proof. exact lost_trigger. Qed.
Print Assumptions C118_trigger_lost_after_failure.

Definition is_ok {A} (r : res A) : bool := match r with Ok _ => true | Err _ => false end.
(** A board that fails the first time the trigger line is lowered. *)
Definition low_fails_once (log : list (lux_call * bool)) (x : lux_call) : bool :=
  match x with L_SoftSync 0 => negb (existsb (fun p => match fst p with L_SoftSync 0 => true | _ => false end) log) | _ => false end.
Definition pixel : image := {| im_h := 1; im_w := 1; im_pix := [true] |}.
(** Without failures two triggers are two edges; with the failing board three calls, two of them successful, are two edges: the first call failed yet triggered, the second succeeded and did not. *)
Example C118_case : let ops := [LInitialize; LLoadMultiple [pixel; pixel]; LFire; LFire; LFire] in
  let good := run_ops (lux_exec blank_glyphs {| li_cols := 1; li_rows := 1 |}) (lux_ctrl false no_fault) ops in
  let bad n := run_ops (lux_exec blank_glyphs {| li_cols := 1; li_rows := 1 |}) (lux_ctrl false low_fails_once) (firstn n ops) in
  g_edges (lux_lines (done_of (fst good))) = 3 /\ map is_ok (snd good) = [true; true; true; true; true] /\
  map is_ok (snd (bad 5)) = [true; true; false; true; true] /\
  g_edges (lux_lines (done_of (fst (bad 3)))) = 1 /\ g_high (lux_lines (done_of (fst (bad 3)))) = true /\
  g_edges (lux_lines (done_of (fst (bad 4)))) = 1 /\ g_edges (lux_lines (done_of (fst (bad 5)))) = 2.
Proof. repeat apply conj; reflexivity. Qed.
