(** C158: the mirrors of the board stand as computed. *)
From Coq Require Import Reals Lra ZArith Arith List Bool Lia.
From Coquelicot Require Import Complex.
From Verif Require Import Cx Sums DFT PyBase ProfileModel SlmModel LibModel DmdModel DmdSpec SimModel SimSpec SimExamples
  ControllerModel ControllerSpec ShowModel ShowSpec ShowFacts.
Import ListNotations.
Open Scope nat_scope.

(** After any history of calls on a device its pattern can be handed to a controller exactly if the last pattern was not a grey one. *)
Theorem C158_which_patterns : forall wl fl per th Nx Ny ps neg cs d' l, 1 < Nx -> 1 < Ny ->
  do_calls (dmd_new wl fl per th Nx Ny ps neg) cs = (d', l) ->
  (fold_left element_type l true = true -> exists f a, d_state d' = DBool Ny Nx f /\ state_image (d_state d') = Some a) /\
  (fold_left element_type l true = false -> state_image (d_state d') = None).
Proof. exact history_sendable. Qed.
Print Assumptions C158_which_patterns.
(** ALP: whatever was done with the controller before and wherever calls may have failed, if no initialize() has failed then after a load that
    returned every mirror stands as computed, or opposite if the controller was made with invert=True. *)
Theorem C158_alp_single : forall glyphs info invert faulty os c rs d ny nx f a c',
  run_ops (alp_exec glyphs info) (alp_ctrl invert faulty) os = (c, rs) -> (forall r, In (AInitialize, r) (combine os rs) -> r = Ok OUnit) ->
  d_state d = DBool ny nx f -> state_image (d_state d) = Some a -> alp_load_single a c = (c', Ok tt) ->
  forall i j, i < ny -> j < nx -> alp_mirror (done_of c') ny nx 0 i j (xorb (f i j) invert).
Proof. exact alp_shows_single. Qed.
Print Assumptions C158_alp_single.
Theorem C158_alp_multiple : forall glyphs info invert faulty os c rs l t c' ny nx,
  run_ops (alp_exec glyphs info) (alp_ctrl invert faulty) os = (c, rs) -> (forall r, In (AInitialize, r) (combine os rs) -> r = Ok OUnit) ->
  (forall st, In st l -> exists f, st = DBool ny nx f) -> state_images l = Some t -> alp_load_multiple info t c = (c', Ok tt) ->
  forall k f i j, nth_error l k = Some (DBool ny nx f) -> i < ny -> j < nx -> alp_mirror (done_of c') ny nx k i j (xorb (f i j) invert).
Proof. exact alp_shows_multiple. Qed.
Print Assumptions C158_alp_multiple.
(** Luxbeam: the same, after any history at all, also with failed initialisations; picture t mod N after t triggers. *)
Theorem C158_lux_single : forall glyphs info invert faulty os c rs d ny nx f a c',
  run_ops (lux_exec glyphs info) (lux_ctrl invert faulty) os = (c, rs) ->
  d_state d = DBool ny nx f -> state_image (d_state d) = Some a -> lux_load_single a c = (c', Ok tt) ->
  forall t i j, i < ny -> j < nx -> lux_mirror (c_invert c') (done_of c') ny nx t i j (xorb (f i j) invert).
Proof. exact lux_shows_single. Qed.
Print Assumptions C158_lux_single.
Theorem C158_lux_multiple : forall glyphs info invert faulty os c rs l im c' ny nx,
  run_ops (lux_exec glyphs info) (lux_ctrl invert faulty) os = (c, rs) ->
  state_images l = Some im -> lux_load_multiple im c = (c', Ok tt) ->
  forall t f i j, nth_error l (t mod length l) = Some (DBool ny nx f) -> i < ny -> j < nx -> lux_mirror (c_invert c') (done_of c') ny nx t i j (xorb (f i j) invert).
Proof. exact lux_shows_multiple. Qed.
Print Assumptions C158_lux_multiple.
(** The condition on initialize() is needed on the ALP: a second one which fails at the inversion leaves a controller that still loads, onto
    a board which does not invert. *)
Theorem C158_failed_reinitialise : exists faulty os c rs d a c',
  run_ops (alp_exec blank_glyphs {| ai_width := 2; ai_height := 1; ai_min_picture_time := 44 |}) (alp_ctrl true faulty) os = (c, rs) /\
  state_image d = Some a /\ alp_load_single a c = (c', Ok tt) /\ c_invert c' = true /\
  d = DBool 1 2 (fun _ j => Nat.even j) /\ alp_mirror (done_of c') 1 2 0 0 0 true /\ alp_mirror (done_of c') 1 2 0 0 1 false.
Proof. exact failed_reinitialise. Qed.
Print Assumptions C158_failed_reinitialise.
(** So the image made by the mirrors as they stand is the simulated image of the device; on an inverting board it is the image of the fully
    switched-on panel minus it. *)
Theorem C158_alp_image : forall h d on m a F glyphs info invert faulty os c rs im c' f M n nM n1 I IM I1, let s := d_slm d in
  run_ops (alp_exec glyphs info) (alp_ctrl invert faulty) os = (c, rs) -> (forall r, In (AInitialize, r) (combine os rs) -> r = Ok OUnit) ->
  d_state d = DBool (s_Ny s) (s_Nx s) f -> state_image (d_state d) = Some im -> alp_load_single im c = (c', Ok tt) ->
  (forall i j, i < s_Ny s -> j < s_Nx s -> alp_mirror (done_of c') (s_Ny s) (s_Nx s) 0 i j (M i j)) ->
  d_slm on = s -> d_state on = d_state (set_dmd_state_on on) ->
  full_input h s a F -> propagate_to_image h (DevDmd d) m a = (n, Ok tt) ->
  propagate_to_image h (DevDmd (with_state d (DBool (s_Ny s) (s_Nx s) M))) m a = (nM, Ok tt) -> propagate_to_image h (DevDmd on) m a = (n1, Ok tt) ->
  field_is (f_image n) (NY s m) (NX s m) I -> field_is (f_image nM) (NY s m) (NX s m) IM -> field_is (f_image n1) (NY s m) (NX s m) I1 ->
  forall u v, u < NY s m -> v < NX s m -> IM u v = (if invert then I1 u v - I u v else I u v)%C.
Proof. exact image_on_alp. Qed.
Print Assumptions C158_alp_image.
Theorem C158_lux_image : forall h d on m a F glyphs info invert faulty os c rs im c' f M t n nM n1 I IM I1, let s := d_slm d in
  run_ops (lux_exec glyphs info) (lux_ctrl invert faulty) os = (c, rs) ->
  d_state d = DBool (s_Ny s) (s_Nx s) f -> state_image (d_state d) = Some im -> lux_load_single im c = (c', Ok tt) ->
  (forall i j, i < s_Ny s -> j < s_Nx s -> lux_mirror (c_invert c') (done_of c') (s_Ny s) (s_Nx s) t i j (M i j)) ->
  d_slm on = s -> d_state on = d_state (set_dmd_state_on on) ->
  full_input h s a F -> propagate_to_image h (DevDmd d) m a = (n, Ok tt) ->
  propagate_to_image h (DevDmd (with_state d (DBool (s_Ny s) (s_Nx s) M))) m a = (nM, Ok tt) -> propagate_to_image h (DevDmd on) m a = (n1, Ok tt) ->
  field_is (f_image n) (NY s m) (NX s m) I -> field_is (f_image nM) (NY s m) (NX s m) IM -> field_is (f_image n1) (NY s m) (NX s m) I1 ->
  forall u v, u < NY s m -> v < NX s m -> IM u v = (if invert then I1 u v - I u v else I u v)%C.
Proof. exact image_on_lux. Qed.
Print Assumptions C158_lux_image.
(** A case: the checkerboard of the examples on an inverting ALP board. *)
Example C158_case : exists c rs im c' M n nM n1 I IM I1, let s := d_slm ex_dmd in
  run_ops (alp_exec blank_glyphs {| ai_width := 3; ai_height := 2; ai_min_picture_time := 44 |}) (alp_ctrl true no_fault) [AInitialize] = (c, rs) /\
  (forall r, In (AInitialize, r) (combine [AInitialize] rs) -> r = Ok OUnit) /\
  state_image (d_state ex_dmd) = Some im /\ alp_load_single im c = (c', Ok tt) /\
  (forall i j, i < 2 -> j < 3 -> alp_mirror (done_of c') 2 3 0 i j (M i j)) /\
  propagate_to_image ex_heap (DevDmd ex_dmd) ex_sim ex_input = (n, Ok tt) /\
  propagate_to_image ex_heap (DevDmd (with_state ex_dmd (DBool 2 3 M))) ex_sim ex_input = (nM, Ok tt) /\
  propagate_to_image ex_heap (DevDmd (set_dmd_state_on ex_dmd)) ex_sim ex_input = (n1, Ok tt) /\
  field_is (f_image n) 6 5 I /\ field_is (f_image nM) 6 5 IM /\ field_is (f_image n1) 6 5 I1.
Proof. exact ex_on_board. Qed.
(** Two patterns on a Luxbeam board: after three triggers the second one is shown. *)
Example C158_case_lux : let st k := DBool 1 2 (fun _ j => Nat.eqb j k) in
  exists c rs im c', run_ops (lux_exec blank_glyphs {| li_cols := 2; li_rows := 1 |}) (lux_ctrl false no_fault) [LInitialize] = (c, rs) /\
  state_images [st 0; st 1] = Some im /\ lux_load_multiple im c = (c', Ok tt) /\ nth_error [st 0; st 1] (3 mod 2) = Some (st 1).
Proof. cbv zeta. eexists. eexists. eexists. eexists. do 3 (split; [vm_compute; reflexivity|]). reflexivity. Qed.
