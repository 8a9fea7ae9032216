(** C47 - C53, C68. *)
From Coq Require Import ZArith Arith List Bool Lia.
From Verif Require Import PyBase ControllerModel ControllerSpec ControllerFacts ControllerFacts2.
Import ListNotations.

(** C47: in any history in which no initialize() call has returned, a guarded operation raises and leaves the
    controller, including the log of hardware calls, exactly as it was. *)
Theorem C47_alp_guard : forall glyphs info invert faulty os c' rs o,
  run_ops (alp_exec glyphs info) (alp_ctrl invert faulty) os = (c', rs) ->
  (forall o' r, In (o', r) (combine os rs) -> o' = AInitialize -> r <> Ok OUnit) ->
  alp_guarded_op o = true -> alp_exec glyphs info o c' = (c', Err PlainException).
Proof. exact alp_guard_hist. Qed.
Print Assumptions C47_alp_guard.
Theorem C47_lux_guard : forall glyphs info invert faulty os c' rs o,
  run_ops (lux_exec glyphs info) (lux_ctrl invert faulty) os = (c', rs) ->
  (forall o' r, In (o', r) (combine os rs) -> o' = LInitialize -> r <> Ok OUnit) ->
  lux_guarded_op o = true -> lux_exec glyphs info o c' = (c', Err PlainException).
Proof. exact lux_guard_hist. Qed.
Print Assumptions C47_lux_guard.
(** A failed initialize() (second hardware call raises) followed by close() is such a history. *)
Example C47_case :
  let faulty := fun l (c : alp_call) => match c with A_ProjInversionEnable => true | _ => false end in
  let r := run_ops (alp_exec blank_glyphs {| ai_width := 2; ai_height := 1; ai_min_picture_time := 44 |})
             (alp_ctrl true faulty) [AInitialize; AClose; ALoadSingle (img 1 2 [true; false])] in
  snd r = [Err EHardware; Ok OUnit; Err PlainException] /\
  log_of (fst r) = [(A_Initialize, true); (A_ProjInversionEnable, false); (A_Halt, true); (A_Free, true)].
Proof. vm_compute. split; reflexivity. Qed.

(** C48: whatever was done before and wherever the hardware may fail, a load that returns leaves the board
    running one correctly prepared sequence showing exactly the given images, without protocol misuse. *)
Theorem C48_load_single : forall a c c',
  alp_load_single a c = (c', Ok tt) -> image_wf a ->
  let d := alp_dev (done_of c) in let d' := alp_dev (done_of c') in
  (exists q data, d_running d' = Some q /\ q_frames q = 1 /\ q_data q = Some data /\ q_timing q = Some None /\
                  frames_show data [a] (im_h a) (im_w a)) /\
  d_misuse d' = d_misuse d.
Proof. exact alp_load_single_dev. Qed.
Print Assumptions C48_load_single.
Theorem C48_load_multiple : forall info l h w c c',
  alp_load_multiple info l c = (c', Ok tt) ->
  Forall (fun a => image_wf a /\ im_h a = h /\ im_w a = w) l ->
  let d := alp_dev (done_of c) in let d' := alp_dev (done_of c') in
  (exists q data, d_running d' = Some q /\ q_frames q = length l /\ q_data q = Some data /\
                  q_timing q = Some (Some (ai_min_picture_time info)) /\
                  frames_show data l h w) /\
  d_mode d' = ALP_SLAVE /\ d_rising d' = true /\ d_misuse d' = d_misuse d.
Proof. exact alp_load_multiple_dev. Qed.
Print Assumptions C48_load_multiple.
(** ... and a load that raises leaves nothing on display (unless the board refused even to halt). *)
Theorem C48_load_single_failure : forall a c c' e,
  c_init c = true -> alp_load_single a c = (c', Err e) ->
  log_of c' = log_of c ++ [(A_Halt, false)] \/ d_running (alp_dev (done_of c')) = None.
Proof. exact alp_load_single_crash. Qed.
Print Assumptions C48_load_single_failure.
Theorem C48_load_multiple_failure : forall info l c c' e,
  c_init c = true -> alp_load_multiple info l c = (c', Err e) ->
  log_of c' = log_of c ++ [(A_Halt, false)] \/ d_running (alp_dev (done_of c')) = None.
Proof. exact alp_load_multiple_crash. Qed.
Print Assumptions C48_load_multiple_failure.
(** Bad arguments (no images, or images of different widths) are rejected, but only after the running display
    has been stopped. *)
Theorem C48_bad_images_stop_display : forall info l c,
  c_init c = true -> (l = [] \/ exists a b, In a l /\ In b l /\ im_w a <> im_w b) ->
  (forall log x, hw_faulty (c_hw c) log x = false) ->
  exists c', alp_load_multiple info l c = (c', Err ValueError) /\ d_running (alp_dev (done_of c')) = None.
Proof. exact alp_load_multiple_bad. Qed.
Print Assumptions C48_bad_images_stop_display.

Definition info0 : alp_info := {| ai_width := 2; ai_height := 1; ai_min_picture_time := 44 |}.
Definition a1 := img 1 2 [true; false].
Definition a2 := img 1 2 [false; true].
Example C48_case :
  let r := run_ops (alp_exec blank_glyphs info0) (alp_ctrl false no_fault)
             [AInitialize; ALoadMultiple [a1; a2]] in
  snd r = [Ok OUnit; Ok OUnit] /\
  d_running (alp_dev (done_of (fst r))) =
    Some {| q_id := 0; q_frames := 2; q_data := Some [255; 0; 0; 255]%Z; q_timing := Some (Some 44%Z) |} /\
  d_misuse (alp_dev (done_of (fst r))) = false.
Proof. vm_compute. repeat split; reflexivity. Qed.

(** C49 (violated): load_single after load_multiple succeeds but leaves the board in slave (triggered) mode. *)
Theorem C49_load_single_stays_slave_refuted : exists os c' rs,
  run_ops (alp_exec blank_glyphs info0) (alp_ctrl false no_fault) (os ++ [ALoadSingle a1]) = (c', rs) /\
  (forall r, In r rs -> r = Ok OUnit) /\
  d_mode (alp_dev (done_of c')) = ALP_SLAVE.
Proof.
  exists [AInitialize; ALoadMultiple [a2; a1]]. eexists. eexists. split; [vm_compute; reflexivity|].
  split; [|reflexivity]. intros r [<-|[<-|[<-|[]]]]; reflexivity.
Qed.
Print Assumptions C49_load_single_stays_slave_refuted.

(** Whatever the controller and the outcome, load_single never touches the trigger mode: the device is in the mode the
    earlier history left it in. *)
Theorem C49_load_single_keeps_mode : forall a c c' r,
  alp_load_single a c = (c', r) -> d_mode (alp_dev (done_of c')) = d_mode (alp_dev (done_of c)).
Proof. exact load_single_mode. Qed.
Print Assumptions C49_load_single_keeps_mode.

(** C50 (violated): every successful load adds one fresh sequence and releases none, so n loads pile up n sequences. *)
Theorem C50_each_load_adds_one : forall glyphs info o c c',
  match o with ALoadSingle _ | ALoadMultiple _ => True | _ => False end -> alp_exec glyphs info o c = (c', Ok OUnit) ->
  exists id, ~ In id (d_live (alp_dev (done_of c))) /\ d_live (alp_dev (done_of c')) = id :: d_live (alp_dev (done_of c)).
Proof. exact exec_load_live. Qed.
Print Assumptions C50_each_load_adds_one.
Theorem C50_loads_accumulate : forall glyphs info os c c' rs,
  (forall o, In o os -> match o with ALoadSingle _ | ALoadMultiple _ => True | _ => False end) ->
  run_ops (alp_exec glyphs info) c os = (c', rs) -> (forall r, In r rs -> r = Ok OUnit) ->
  exists ids, length ids = length os /\ d_live (alp_dev (done_of c')) = ids ++ d_live (alp_dev (done_of c)).
Proof. exact loads_accumulate. Qed.
Print Assumptions C50_loads_accumulate.
(** No bound on the number of allocated sequences holds. *)
Theorem C50_alp_memory_leak_refuted : forall n, exists c' rs,
  run_ops (alp_exec blank_glyphs info0) (alp_ctrl false no_fault) (AInitialize :: repeat (ALoadSingle a1) n) = (c', rs) /\
  (forall r, In r rs -> r = Ok OUnit) /\
  length (d_live (alp_dev (done_of c'))) = n.
Proof. exact (many_loads info0 a1). Qed.
Print Assumptions C50_alp_memory_leak_refuted.
(** close() asks the board to free at most one sequence before releasing the device. *)
Theorem C50_close_frees_at_most_one : forall c c',
  alp_close c = (c', Ok tt) ->
  (done_of c' = done_of c ++ [A_Halt; A_Free] \/ done_of c' = done_of c ++ [A_Halt; A_FreeSeq; A_Free]) /\
  length (d_live (alp_dev (done_of c))) <= S (length (d_live (alp_dev (done_of c')))).
Proof. exact (fun c c' H => conj (close_done c c' H) (close_frees_one c c' H)). Qed.
Print Assumptions C50_close_frees_at_most_one.
Example C50_two_loads_then_close :
  let r := run_ops (alp_exec blank_glyphs info0) (alp_ctrl false no_fault)
             [AInitialize; ALoadSingle a1; ALoadMultiple [a2; a1]; AClose] in
  snd r = [Ok OUnit; Ok OUnit; Ok OUnit; Ok OUnit] /\ d_live (alp_dev (done_of (fst r))) = [0].
Proof. vm_compute. split; reflexivity. Qed.

(** C51 (violated): close() does not clear the initialised flag; a later load passes the guard. *)
Theorem C51_closed_alp_controller_usable_refuted : exists c1 c2 c3,
  alp_initialize (alp_ctrl false no_fault) = (c1, Ok tt) /\ alp_close c1 = (c2, Ok tt) /\
  alp_load_single a1 c2 = (c3, Ok tt) /\ log_of c3 <> log_of c2.
Proof.
  eexists. eexists. eexists. split; [vm_compute; reflexivity|]. split; [vm_compute; reflexivity|].
  split; [vm_compute; reflexivity|]. vm_compute. discriminate.
Qed.
Print Assumptions C51_closed_alp_controller_usable_refuted.
(** Once set, the flag survives every history of calls, close() included, whatever the hardware does, so a guard that
    has once passed never refuses again. *)
Theorem C51_alp_flag_never_cleared : forall glyphs info os c c' rs,
  c_init c = true -> run_ops (alp_exec glyphs info) c os = (c', rs) -> c_init c' = true.
Proof. exact alp_flag_kept. Qed.
Print Assumptions C51_alp_flag_never_cleared.
Theorem C51_lux_flag_never_cleared : forall glyphs info os c c' rs,
  c_init c = true -> run_ops (lux_exec glyphs info) c os = (c', rs) -> c_init c' = true.
Proof. exact lux_flag_kept. Qed.
Print Assumptions C51_lux_flag_never_cleared.
Example C51_flag_after_close :
  c_init (fst (run_ops (alp_exec blank_glyphs info0) (alp_ctrl false no_fault) [AInitialize; AClose; AClose])) = true.
Proof. reflexivity. Qed.

(** C52 *)
Theorem C52_load_multiple : forall l c c',
  lux_load_multiple l c = (c', Ok tt) ->
  let d := lux_dev (done_of c) in let d' := lux_dev (done_of c') in
  l_running d' = true /\ l_reg0 d' = length l /\ l_program d' = l_program d /\ l_misuse d' = l_misuse d /\
  (forall k, k < length l -> l_images d' k = nth_error l k) /\
  (forall k, length l <= k -> l_images d' k = l_images d k).
Proof. exact lux_load_multiple_dev. Qed.
Print Assumptions C52_load_multiple.
Theorem C52_load_single : forall a c c',
  lux_load_single a c = (c', Ok tt) ->
  let d := lux_dev (done_of c) in let d' := lux_dev (done_of c') in
  l_running d' = true /\ l_reg0 d' = 1 /\ l_program d' = l_program d /\ l_misuse d' = l_misuse d /\
  l_images d' 0 = Some a /\ (forall k, 1 <= k -> l_images d' k = l_images d k).
Proof. exact lux_load_single_dev. Qed.
Print Assumptions C52_load_single.
Theorem C52_load_single_failure : forall a c c' e,
  c_init c = true -> lux_load_single a c = (c', Err e) ->
  log_of c' = log_of c ++ [(L_SeqState SEQ_CMD_RUN false, false)] \/ l_running (lux_dev (done_of c')) = false.
Proof. exact lux_load_single_crash. Qed.
Print Assumptions C52_load_single_failure.
Theorem C52_load_multiple_failure : forall l c c' e,
  c_init c = true -> lux_load_multiple l c = (c', Err e) ->
  log_of c' = log_of c ++ [(L_SeqState SEQ_CMD_RUN false, false)] \/ l_running (lux_dev (done_of c')) = false.
Proof. exact lux_load_multiple_crash. Qed.
Print Assumptions C52_load_multiple_failure.
Theorem C52_initialize : forall c c',
  lux_initialize c = (c', Ok tt) ->
  let d := lux_dev (done_of c) in let d' := lux_dev (done_of c') in
  c_init c' = true /\ l_running d' = false /\ l_reg0 d' = 1 /\ l_program d' = lux_program /\ l_misuse d' = l_misuse d /\
  (forall k, l_images d' k = l_images d k).
Proof. exact lux_initialize_dev. Qed.
Print Assumptions C52_initialize.
Example C52_case :
  let r := run_ops (lux_exec blank_glyphs {| li_cols := 2; li_rows := 1 |}) (lux_ctrl false no_fault)
             [LInitialize; LLoadMultiple [a1; a2; a1]; LLoadSingle a2] in
  snd r = [Ok OUnit; Ok OUnit; Ok OUnit] /\
  map (l_images (lux_dev (done_of (fst r)))) [0; 1; 2; 3] = [Some a2; Some a2; Some a1; None] /\
  l_reg0 (lux_dev (done_of (fst r))) = 1.
Proof. vm_compute. repeat split; reflexivity. Qed.

(** C53: after t triggers the sequencer waits in exactly one configuration, displaying image t mod N; at every
    moment (any interleaving of steps and triggers) whatever is displayed is one of the N images. *)
Theorem C53_display_cyclic : forall N t, 1 <= N ->
  exists k, after_triggers lux_program N t k /\ k_shown k = Some (t mod N) /\
            (forall k', after_triggers lux_program N t k' -> k' = k).
Proof. exact sequencer_display. Qed.
Print Assumptions C53_display_cyclic.
Theorem C53_never_shows_unloaded_slot : forall N k,
  seq_reach lux_program N k -> forall i, k_shown k = Some i -> i < N.
Proof. exact sequencer_safe. Qed.
Print Assumptions C53_never_shows_unloaded_slot.
(** Together with C52: after initialize and a successful load of a non-empty list, t triggers show image t mod N. *)
Theorem C53_shows_loaded_images : forall l c c0 c1 c2 t,
  lux_initialize c = (c0, Ok tt) -> done_of c1 = done_of c0 -> lux_load_multiple l c1 = (c2, Ok tt) -> l <> [] ->
  let d := lux_dev (done_of c2) in
  exists k i a, after_triggers (l_program d) (l_reg0 d) t k /\ k_shown k = Some i /\
    l_images d i = Some a /\ nth_error l (t mod length l) = Some a.
Proof. exact shows_loaded_images. Qed.
Print Assumptions C53_shows_loaded_images.
Example C53_case : exists k, after_triggers lux_program 3 5 k /\ k_shown k = Some 2.
Proof. destruct (sequencer_display 3 5 ltac:(lia)) as (k & A & S & _). exists k. split; [exact A|exact S]. Qed.

(** C68 (violated): an empty list of images.  The ALP controller raises ValueError with the display stopped ... *)
Theorem C68_alp_rejects_empty : forall info c,
  c_init c = true -> (forall log x, hw_faulty (c_hw c) log x = false) ->
  exists c', alp_load_multiple info [] c = (c', Err ValueError) /\ d_running (alp_dev (done_of c')) = None.
Proof. exact alp_empty_rejected. Qed.
Print Assumptions C68_alp_rejects_empty.
(** ... but the Luxbeam controller accepts it and starts the sequencer with a loop count of 0 ... *)
Theorem C68_lux_accepts_empty_refuted : forall c,
  c_init c = true -> (forall log x, hw_faulty (c_hw c) log x = false) ->
  exists c', lux_load_multiple [] c = (c', Ok tt) /\ l_running (lux_dev (done_of c')) = true /\ l_reg0 (lux_dev (done_of c')) = 0.
Proof. exact lux_empty_accepted. Qed.
Print Assumptions C68_lux_accepts_empty_refuted.
(** ... with which the program never sets the mirrors, never waits for a trigger and ignores every trigger sent. *)
Theorem C68_empty_sequence_livelock : forall k,
  seq_reach lux_program 0 k -> k_shown k = None /\ seq_waiting k = false /\ seq_trigger k = k.
Proof. exact empty_livelock. Qed.
Print Assumptions C68_empty_sequence_livelock.
(** An initialised, fault-free controller of either kind. *)
Example C68_case :
  (let c := fst (alp_initialize (alp_ctrl false no_fault)) in c_init c = true /\ forall log x, hw_faulty (c_hw c) log x = false) /\
  (let c := fst (lux_initialize (lux_ctrl false no_fault)) in c_init c = true /\ forall log x, hw_faulty (c_hw c) log x = false) /\
  seq_reach lux_program 0 (seq_step 0 (seq_step 0 (seq_start lux_program))).
Proof. repeat split. do 2 apply SR_step. apply SR_start. Qed.
