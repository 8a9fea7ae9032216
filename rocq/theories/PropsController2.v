(** C108-C110: queries and missing operations, the with statement, number_image. *)
From Coq Require Import ZArith Arith List Bool Lia.
From Verif Require Import PyBase ControllerModel ControllerSpec ControllerFacts ControllerFacts2 ControllerFacts3.
Import ListNotations.

(** C47, construction: a new controller is uninitialised, remembers the inversion flag and has sent nothing; without the vendor module there is none. *)
Theorem C47_new_alp : forall invert faulty,
  alp_new true invert {| hw_log := []; hw_faulty := faulty |} = Ok (alp_ctrl invert faulty) /\ (forall h, alp_new false invert h = Err ModuleNotFoundError).
Proof. exact new_controllers. Qed.
Print Assumptions C47_new_alp.
Theorem C47_new_lux : forall invert faulty,
  lux_new true invert {| hw_log := []; hw_faulty := faulty |} = Ok (lux_ctrl invert faulty) /\ (forall h, lux_new false invert h = Err ModuleNotFoundError).
Proof. exact new_lux. Qed.
Print Assumptions C47_new_lux.
(** C48, initialisation: the board is initialised and told to invert exactly if that was asked for; a failure leaves the controller uninitialised. *)
Theorem C48_initialize : forall c c' r, alp_initialize c = (c', r) -> c_invert c' = c_invert c /\
  (r = Ok tt -> c_init c' = true /\ done_of c' = done_of c ++ A_Initialize :: (if c_invert c then [A_ProjInversionEnable] else [])) /\ (r <> Ok tt -> c_init c' = c_init c).
Proof. exact alp_initialize_done. Qed.
Print Assumptions C48_initialize.
(** C50, closing: a sequence is freed exactly if one was allocated after the last that was freed. *)
Theorem C50_close_frees_pending : forall c c', alp_close c = (c', Ok tt) ->
  (pending (done_of c) /\ done_of c' = done_of c ++ [A_Halt; A_FreeSeq; A_Free]) \/ (~ pending (done_of c) /\ done_of c' = done_of c ++ [A_Halt; A_Free]).
Proof. exact alp_close_done. Qed.
Print Assumptions C50_close_frees_pending.

(** C108: an operation the class does not implement says so, in every state, and nothing else happens. *)
Theorem C108_alp_unimplemented : forall glyphs info c, alp_exec glyphs info AFire c = (c, Err NotImplementedError) /\
  alp_exec glyphs info ALoadSequence c = (c, Err (if c_init c then NotImplementedError else PlainException)).
Proof. exact alp_unimplemented. Qed.
Print Assumptions C108_alp_unimplemented.
Theorem C108_lux_unimplemented : forall glyphs info c, lux_exec glyphs info LLoadSequence c = (c, Err (if c_init c then NotImplementedError else PlainException)).
Proof. exact lux_unimplemented. Qed.
Print Assumptions C108_lux_unimplemented.
(** Neither these nor the queries disturb the board, whether or not the hardware fails on the way. *)
Theorem C108_alp_display_kept : forall glyphs info o c c' r, alp_quiet o = true -> alp_exec glyphs info o c = (c', r) ->
  alp_dev (done_of c') = alp_dev (done_of c) /\ c_init c' = c_init c.
Proof. exact alp_quiet_display. Qed.
Print Assumptions C108_alp_display_kept.
(** Histories: without them everything else goes the same way, and the board ends up in the same state. *)
Theorem C108_alp_histories : forall glyphs info invert os, let run os := run_ops (alp_exec glyphs info) (alp_ctrl invert no_fault) os in
  alp_dev (done_of (fst (run os))) = alp_dev (done_of (fst (run (without alp_quiet os)))) /\ answers alp_quiet os (snd (run os)) = snd (run (without alp_quiet os)).
Proof. exact alp_quiet_histories. Qed.
Print Assumptions C108_alp_histories.
Theorem C108_lux_histories : forall glyphs info os c, let run os := run_ops (lux_exec glyphs info) c os in
  fst (run os) = fst (run (without lux_quiet os)) /\ answers lux_quiet os (snd (run os)) = snd (run (without lux_quiet os)).
Proof. exact lux_quiet_histories. Qed.
Print Assumptions C108_lux_histories.
Example C108_case : let info := {| ai_width := 2; ai_height := 1; ai_min_picture_time := 44 |} in
  let os := [AInitialize; ANx; ALoadSingle (img 1 2 [true; false]); AFire; ANumberImage 7; ALoadSequence] in
  let r := run_ops (alp_exec blank_glyphs info) (alp_ctrl false no_fault) os in
  without alp_quiet os = [AInitialize; ALoadSingle (img 1 2 [true; false])] /\ length (log_of (fst r)) = 10 /\
  snd r = [Ok OUnit; Ok (ONat 2); Ok OUnit; Err NotImplementedError; Ok (OImage (img 1 2 [false; false])); Err NotImplementedError].
Proof. vm_compute. repeat split. Qed.

(** C109, refuted: leaving a with block does not close the ALP controller, because the block is never entered. *)
Theorem C109_with_closes_refuted : ~ forall py311 (body : meth alp_call unit) c c' r,
  c_init c = true -> (forall log x, hw_faulty (c_hw c) log x = false) -> (forall k, (forall log x, hw_faulty (c_hw k) log x = false) -> forall log x, hw_faulty (c_hw (fst (body k))) log x = false) ->
  alp_with py311 body c = (c', r) -> In A_Free (done_of c').
Proof. exact with_closes_refuted. Qed.
Print Assumptions C109_with_closes_refuted.
Theorem C109_with_never_runs : forall A py311 (body : meth alp_call A) c, alp_with py311 body c = (c, Err (if py311 then TypeError else AttributeError)).
Proof. exact @with_never_runs. Qed.
Print Assumptions C109_with_never_runs.
(** What is missing is [__enter__]: with one that does nothing, the block would close the board and pass on the result of its body. *)
Theorem C109_enter_would_do : forall A py311 (body : meth alp_call A) c c' r,
  (forall log x, hw_faulty (c_hw c) log x = false) -> (forall k, (forall log x, hw_faulty (c_hw k) log x = false) -> forall log x, hw_faulty (c_hw (fst (body k))) log x = false) ->
  with_stmt py311 (Some (ret tt)) (Some alp_exit) body c = (c', r) -> In A_Free (done_of c') /\ r = snd (body c).
Proof. exact @with_enter_would_close. Qed.
Print Assumptions C109_enter_would_do.
Example C109_case : let c := fst (alp_initialize (alp_ctrl false no_fault)) in
  snd (with_stmt true (Some (ret tt)) (Some alp_exit) (alp_load_single (img 1 2 [true; false])) c) = Ok tt /\
  snd (with_stmt true (Some (ret tt)) (Some alp_exit) (A := unit) (raise ValueError) c) = Err ValueError.
Proof. vm_compute. split; reflexivity. Qed.

(** C110, refuted: number_image fails under some of the NumPy versions the package allows ... *)
Theorem C110_number_image_refuted : ~ forall glyphs info i c, np_allowed (numpy glyphs) -> c_init c = true -> (forall log x, hw_faulty (c_hw c) log x = false) ->
  exists a, snd (alp_exec glyphs info (ANumberImage i) c) = Ok (OImage a).
Proof. exact number_image_refuted. Qed.
Print Assumptions C110_number_image_refuted.
(** ... namely exactly those without [np.bool]; under the others the image has the size of the display. *)
Theorem C110_number_image : forall glyphs ai li i ca cl, c_init ca = true -> (forall log x, hw_faulty (c_hw ca) log x = false) -> c_init cl = true ->
  (~ np_bool_gone (numpy glyphs) -> exists a b, snd (alp_exec glyphs ai (ANumberImage i) ca) = Ok (OImage a) /\ image_wf a /\ im_h a = ai_height ai /\ im_w a = ai_width ai /\
     snd (lux_exec glyphs li (LNumberImage i) cl) = Ok (OImage b) /\ image_wf b /\ im_h b = li_rows li /\ im_w b = li_cols li) /\
  (np_bool_gone (numpy glyphs) -> snd (alp_exec glyphs ai (ANumberImage i) ca) = Err AttributeError /\ snd (lux_exec glyphs li (LNumberImage i) cl) = Err AttributeError).
Proof. exact number_image_controllers. Qed.
Print Assumptions C110_number_image.
Theorem C110_sizes : forall glyphs ai li ca cl, c_init ca = true -> (forall log x, hw_faulty (c_hw ca) log x = false) -> c_init cl = true ->
  snd (alp_exec glyphs ai ANx ca) = Ok (ONat (ai_width ai)) /\ snd (alp_exec glyphs ai ANy ca) = Ok (ONat (ai_height ai)) /\
  snd (lux_exec glyphs li LNx cl) = Ok (ONat (li_cols li)) /\ snd (lux_exec glyphs li LNy cl) = Ok (ONat (li_rows li)).
Proof. exact sizes. Qed.
Print Assumptions C110_sizes.
Example C110_case : np_allowed (1, 20) /\ ~ np_bool_gone (1, 20) /\ np_allowed (1, 26) /\ np_bool_gone (1, 26) /\ np_allowed (2, 0) /\ ~ np_bool_gone (2, 0) /\
  c_init (fst (lux_initialize (lux_ctrl false no_fault))) = true /\ c_init (fst (alp_initialize (alp_ctrl false no_fault))) = true.
Proof. unfold np_allowed, np_bool_gone. cbn. repeat split; lia. Qed.
