(** Model of pySLM2/util/controller.py (and the shape behaviour of util/sample.py:number_image).
    Vendor libraries (ALP4, Luxbeam) are modelled as an append-only log of calls together with an arbitrary
    fault oracle: any call may raise, at any moment.  What the calls do to the device is a separate, small
    interpretation of the log ([alp_dev], [lux_dev]), used only to state properties. *)
From Coq Require Import ZArith Arith List Bool Lia.
From Verif Require Import PyBase.
Import ListNotations.

(** A 2-D bool array: shape and row-major elements. *)
Record image := { im_h : nat; im_w : nat; im_pix : list bool }.
Definition image_wf (a : image) : Prop := length (im_pix a) = im_h a * im_w a.

(** ** A world in which hardware calls are recorded and may fail. *)
Section World.
Context {Call : Type}.
(** Log entries: the call and whether it returned ([false]: it raised). *)
Record hw := { hw_log : list (Call * bool); hw_faulty : list (Call * bool) -> Call -> bool }.
(** Issue one vendor call: it is recorded; if the oracle says so it raises. *)
Definition issue (c : Call) (h : hw) : hw * res unit :=
  if hw_faulty h (hw_log h) c
  then ({| hw_log := hw_log h ++ [(c, false)]; hw_faulty := hw_faulty h |}, Err EHardware)
  else ({| hw_log := hw_log h ++ [(c, true)]; hw_faulty := hw_faulty h |}, Ok tt).
(** The calls that returned normally. *)
Definition done (l : list (Call * bool)) : list Call := map fst (filter snd l).
End World.
Arguments hw : clear implicits.

(** The Python object and its hardware handle. *)
Record ctrl (Call : Type) := { c_init : bool; c_invert : bool; c_hw : hw Call }.
Arguments c_init {Call}. Arguments c_invert {Call}. Arguments c_hw {Call}.
Definition with_hw {Call} (c : ctrl Call) (h : hw Call) : ctrl Call :=
  {| c_init := c_init c; c_invert := c_invert c; c_hw := h |}.

(** State-and-exception monad over a controller. *)
Definition meth (Call A : Type) := ctrl Call -> ctrl Call * res A.
Definition ret {Call A} (a : A) : meth Call A := fun c => (c, Ok a).
Definition raise {Call A} (e : exn) : meth Call A := fun c => (c, Err e).
Definition bind {Call A B} (m : meth Call A) (k : A -> meth Call B) : meth Call B :=
  fun c => match m c with (c', Ok a) => k a c' | (c', Err e) => (c', Err e) end.
Definition call {Call} (x : Call) : meth Call unit :=
  fun c => let (h, r) := issue x (c_hw c) in (with_hw c h, r).
Definition seq {Call A B} (m : meth Call A) (k : meth Call B) : meth Call B := bind m (fun _ => k).
Notation "m ;; k" := (seq m k) (at level 100, right associativity).

(** controller.py:20-28 _check_initialization. *)
Definition guarded {Call A} (m : meth Call A) : meth Call A :=
  fun c => if c_init c then m c else (c, Err PlainException).
(** controller.py:38-39 DMDControllerBase.initialize. *)
Definition base_initialize {Call} : meth Call unit :=
  fun c => ({| c_init := true; c_invert := c_invert c; c_hw := c_hw c |}, Ok tt).
(** controller.py:44-45 DMDControllerBase.close. *)
Definition base_close {Call} : meth Call unit := ret tt.
(** controller.py:61-63 load_sequence (not overridden by either subclass). *)
Definition base_load_sequence {Call} : meth Call unit := guarded (raise NotImplementedError).
(** controller.py:75-76 fire_software_trigger of the base class (not guarded). *)
Definition base_fire_software_trigger {Call} : meth Call unit := raise NotImplementedError.

(** np.concatenate of 2-D arrays along axis 0 (numpy): at least one array, equal widths. *)
Fixpoint np_concat_from (acc : image) (l : list image) : res image :=
  match l with
  | [] => Ok acc
  | b :: r =>
      if Nat.eqb (im_w acc) (im_w b)
      then np_concat_from {| im_h := im_h acc + im_h b; im_w := im_w acc; im_pix := im_pix acc ++ im_pix b |} r
      else Err ValueError
  end.
Definition np_concatenate (l : list image) : res image :=
  match l with [] => Err ValueError | a :: r => np_concat_from a r end.
(** [dmd_state * self.MAX_UINT8] (controller.py:84, 149, 183) for a bool array. *)
Definition MAX_UINT8 : Z := 255.
Definition times_255 (a : image) : list Z := map (fun b : bool => if b then MAX_UINT8 else 0%Z) (im_pix a).
(** The libraries behind util/sample.py: PIL's rendering of a number as pixels (its contents are not modelled) and the
    installed NumPy, major and minor version.  The name [np.bool] does not exist from NumPy 1.24 up to, not including, 2.0. *)
Record imaging := { glyph : Z -> nat -> nat -> nat -> bool; numpy : nat * nat }.
Definition np_has_bool (v : nat * nat) : bool := negb ((fst v =? 1) && (24 <=? snd v)).
(** util/sample.py:27-31: an image of width Nx and height Ny is rasterised and returned as an (Ny, Nx) bool
    array by [np.array(img, dtype=np.bool)]. *)
Definition number_image (glyphs : imaging) (i : Z) (nx ny : nat) : res image :=
  if np_has_bool (numpy glyphs) then Ok {| im_h := ny; im_w := nx; im_pix := map (glyph glyphs i nx ny) (List.seq 0 (ny * nx)) |}
  else Err AttributeError.
(** A Python value or exception, as the result of a method body. *)
Definition yield {Call A} (r : res A) : meth Call A := match r with Ok a => ret a | Err e => raise e end.

(** ** ALPController (controller.py:83-192). *)
Inductive alp_mode := ALP_MASTER | ALP_SLAVE.
Inductive alp_call :=
| A_Initialize
| A_ProjInversionEnable                         (* ProjControl(ALP_PROJ_INVERSION, ALP_ENABLE) *)
| A_ProjMode (m : alp_mode)                     (* ProjControl(ALP_PROJ_MODE, m) *)
| A_TriggerRising                               (* DevControl(ALP_TRIGGER_EDGE, ALP_EDGE_RISING) *)
| A_Halt
| A_SeqAlloc (nb_img bit_depth : nat)
| A_BinUninterrupted                            (* SeqControl(ALP_BIN_MODE, ALP_BIN_UNINTERRUPTED) *)
| A_SeqPut (data : list Z)
| A_SeqInquireMinPictureTime
| A_SetTiming (picture_time : option Z)
| A_Run
| A_FreeSeq
| A_Free
| A_DevInquireWidth
| A_DevInquireHeight.

(** What the modelled code can learn from the board: display size, minimum picture time. *)
Record alp_info := { ai_width : nat; ai_height : nat; ai_min_picture_time : Z }.

(** ALP4lib's attribute [_lastDDRseq]: the last sequence allocated and not yet freed by FreeSeq, numbered by
    allocation order; read off the calls that returned. *)
Definition alp_last_step (last : option nat * nat) (c : alp_call) : option nat * nat :=
  match c with
  | A_SeqAlloc _ _ => (Some (snd last), S (snd last))
  | A_FreeSeq => (None, snd last)
  | _ => last
  end.
Definition alp_lastDDRseq (log : list alp_call) : option nat := fst (fold_left alp_last_step log (None, 0)).

(** controller.py:99-104; [present] = the ALP4 module could be imported. *)
Definition alp_new (present invert : bool) (h : hw alp_call) : res (ctrl alp_call) :=
  if present then Ok {| c_init := false; c_invert := invert; c_hw := h |} else Err ModuleNotFoundError.
(** controller.py:106-110. *)
Definition alp_initialize : meth alp_call unit :=
  call A_Initialize;;
  (fun c => if c_invert c then call A_ProjInversionEnable c else (c, Ok tt));;
  base_initialize.
(** controller.py:112-116. *)
Definition alp_close : meth alp_call unit :=
  call A_Halt;;
  (fun c => match alp_lastDDRseq (done (hw_log (c_hw c))) with Some _ => call A_FreeSeq c | None => (c, Ok tt) end);;
  call A_Free.
(** controller.py:118-128. *)
Definition alp_Nx (info : alp_info) : meth alp_call nat := guarded (call A_DevInquireWidth;; ret (ai_width info)).
Definition alp_Ny (info : alp_info) : meth alp_call nat := guarded (call A_DevInquireHeight;; ret (ai_height info)).
(** controller.py:130-153. *)
Definition alp_load_single (a : image) : meth alp_call unit :=
  guarded (
    call A_Halt;;
    call (A_SeqAlloc 1 1);;
    call A_BinUninterrupted;;
    call (A_SeqPut (times_255 a));;
    call (A_SetTiming None);;
    call A_Run).
(** controller.py:156-188. *)
Definition alp_load_multiple (info : alp_info) (l : list image) : meth alp_call unit :=
  guarded (
    call A_Halt;;
    call (A_ProjMode ALP_SLAVE);;
    call A_TriggerRising;;
    call (A_SeqAlloc (length l) 1);;
    call A_BinUninterrupted;;
    (match np_concatenate l with
     | Err e => raise e
     | Ok big =>
         call (A_SeqPut (times_255 big));;
         call A_SeqInquireMinPictureTime;;
         call (A_SetTiming (Some (ai_min_picture_time info)));;
         call A_Run
     end)).
(** controller.py:78-80 with the overriding Nx / Ny. *)
Definition alp_number_image (glyphs : imaging) (info : alp_info) (i : Z) : meth alp_call image :=
  guarded (bind (alp_Nx info) (fun nx => bind (alp_Ny info) (fun ny => yield (number_image glyphs i nx ny)))).
(** controller.py:191-192. *)
Definition alp_exit : meth alp_call unit := alp_close.
(** Python's with statement on an object of a class with the given special methods: both are looked up before anything runs
    ([__enter__] first; a missing one is an AttributeError before Python 3.11, a TypeError since); [__exit__] runs after the
    body whatever happened there, and here returns None, so that an exception of the body goes on unless [__exit__] raises its own. *)
Definition with_stmt {Call A} (py311 : bool) (enter exit : option (meth Call unit)) (body : meth Call A) : meth Call A :=
  let missing := if py311 then TypeError else AttributeError in
  match enter, exit with
  | None, _ | _, None => raise missing
  | Some en, Some ex =>
      en;; (fun c => let (c1, r) := body c in
            match ex c1 with (c2, Err e) => (c2, Err e) | (c2, Ok tt) => (c2, r) end)
  end.
(** ALPController defines [__exit__] (controller.py:191) and, like its base class, no [__enter__]; LuxbeamController neither. *)
Definition alp_with {A} (py311 : bool) (body : meth alp_call A) : meth alp_call A := with_stmt py311 None (Some alp_exit) body.

(** The whole public surface of an ALPController. *)
Inductive alp_op :=
| AInitialize | AClose | ALoadSingle (a : image) | ALoadMultiple (l : list image) | ALoadSequence
| ANx | ANy | ANumberImage (i : Z) | AFire.
Inductive out := OUnit | ONat (n : nat) | OImage (a : image).
Definition mmap {Call A B} (f : A -> B) (m : meth Call A) : meth Call B := bind m (fun a => ret (f a)).
Definition alp_exec (glyphs : imaging) (info : alp_info) (o : alp_op) : meth alp_call out :=
  match o with
  | AInitialize => mmap (fun _ => OUnit) alp_initialize
  | AClose => mmap (fun _ => OUnit) alp_close
  | ALoadSingle a => mmap (fun _ => OUnit) (alp_load_single a)
  | ALoadMultiple l => mmap (fun _ => OUnit) (alp_load_multiple info l)
  | ALoadSequence => mmap (fun _ => OUnit) base_load_sequence
  | ANx => mmap ONat (alp_Nx info)
  | ANy => mmap ONat (alp_Ny info)
  | ANumberImage i => mmap OImage (alp_number_image glyphs info i)
  | AFire => mmap (fun _ => OUnit) base_fire_software_trigger
  end.
Definition alp_guarded_op (o : alp_op) : bool :=
  match o with AInitialize | AClose | AFire => false | _ => true end.
Fixpoint run_ops {Call Op : Type} (exec : Op -> meth Call out) (c : ctrl Call) (os : list Op) : ctrl Call * list (res out) :=
  match os with
  | [] => (c, [])
  | o :: r => let (c1, x) := exec o c in let (c2, xs) := run_ops exec c1 r in (c2, x :: xs)
  end.

(** ** LuxbeamController (controller.py:195-301). *)
(** Sequencer program, as built with LuxbeamSequencer (controller.py:221-233): the operations used there. *)
Inductive iexpr := INum (n : nat) | IVarPlus (k : nat).     (* literal image number, loop variable + k *)
Inductive cmd :=
| CLoad (e : iexpr)              (* seq.load_global(e, ...) : image e -> DMD memory *)
| CReset                         (* seq.reset_global(...)   : DMD memory -> mirrors *)
| CTrig                          (* seq.trig(...)           : wait for a trigger *)
| CRange (lo : nat) (body : list cmd)   (* for inum in range_loop_iter(lo, reg0) *)
| CLoop (body : list cmd).       (* for _ in jump_loop_iter() : endless *)
(** controller.py:221-233. *)
Definition lux_program : list cmd :=
  [CLoop [CLoad (INum 0); CRange 0 [CReset; CLoad (IVarPlus 1); CTrig]]].

Inductive lux_cmd := SEQ_CMD_RUN | SEQ_CMD_RESET.
Inductive lux_call :=
| L_SeqState (c : lux_cmd) (enable : bool)
| L_LoadSequence (p : list cmd)
| L_SetReg (reg_no reg_val : nat)
| L_LoadImage (inum : nat) (a : image)
| L_SoftSync (level : nat).
Record lux_info := { li_cols : nat; li_rows : nat }.

(** controller.py:212-218; the Luxbeam.Luxbeam constructor (opening sockets) is not modelled. *)
Definition lux_new (present invert : bool) (h : hw lux_call) : res (ctrl lux_call) :=
  if present then Ok {| c_init := false; c_invert := invert; c_hw := h |} else Err ModuleNotFoundError.
(** controller.py:220-242. *)
Definition lux_initialize : meth lux_call unit :=
  call (L_SeqState SEQ_CMD_RUN false);;
  call (L_SeqState SEQ_CMD_RESET true);;
  call (L_LoadSequence lux_program);;
  call (L_SetReg 0 1);;
  call (L_SeqState SEQ_CMD_RESET false);;
  base_initialize.
(** controller.py:244-245. *)
Definition lux_close : meth lux_call unit := ret tt.
(** controller.py:247-263. *)
Definition lux_load_single (a : image) : meth lux_call unit :=
  guarded (
    call (L_SeqState SEQ_CMD_RUN false);;
    call (L_SeqState SEQ_CMD_RESET true);;
    call (L_SetReg 0 1);;
    call (L_SeqState SEQ_CMD_RESET false);;
    call (L_LoadImage 0 a);;
    call (L_SeqState SEQ_CMD_RUN true)).
(** controller.py:282-283 the enumerate loop. *)
Fixpoint lux_load_images (i : nat) (l : list image) : meth lux_call unit :=
  match l with [] => ret tt | a :: r => call (L_LoadImage i a);; lux_load_images (S i) r end.
(** controller.py:265-285. *)
Definition lux_load_multiple (l : list image) : meth lux_call unit :=
  guarded (
    call (L_SeqState SEQ_CMD_RUN false);;
    call (L_SeqState SEQ_CMD_RESET true);;
    call (L_SetReg 0 (length l));;
    call (L_SeqState SEQ_CMD_RESET false);;
    lux_load_images 0 l;;
    call (L_SeqState SEQ_CMD_RUN true)).
(** controller.py:288-296: attributes of the Luxbeam object, no hardware traffic. *)
Definition lux_Nx (info : lux_info) : meth lux_call nat := guarded (ret (li_cols info)).
Definition lux_Ny (info : lux_info) : meth lux_call nat := guarded (ret (li_rows info)).
(** controller.py:298-301. *)
Definition lux_fire_software_trigger : meth lux_call unit :=
  guarded (call (L_SoftSync 1);; call (L_SoftSync 0)).
(** controller.py:78-80. *)
Definition lux_number_image (glyphs : imaging) (info : lux_info) (i : Z) : meth lux_call image :=
  guarded (bind (lux_Nx info) (fun nx => bind (lux_Ny info) (fun ny => yield (number_image glyphs i nx ny)))).

Inductive lux_op :=
| LInitialize | LClose | LLoadSingle (a : image) | LLoadMultiple (l : list image) | LLoadSequence
| LNx | LNy | LNumberImage (i : Z) | LFire.
Definition lux_exec (glyphs : imaging) (info : lux_info) (o : lux_op) : meth lux_call out :=
  match o with
  | LInitialize => mmap (fun _ => OUnit) lux_initialize
  | LClose => mmap (fun _ => OUnit) lux_close
  | LLoadSingle a => mmap (fun _ => OUnit) (lux_load_single a)
  | LLoadMultiple l => mmap (fun _ => OUnit) (lux_load_multiple l)
  | LLoadSequence => mmap (fun _ => OUnit) base_load_sequence
  | LNx => mmap ONat (lux_Nx info)
  | LNy => mmap ONat (lux_Ny info)
  | LNumberImage i => mmap OImage (lux_number_image glyphs info i)
  | LFire => mmap (fun _ => OUnit) lux_fire_software_trigger
  end.
Definition lux_guarded_op (o : lux_op) : bool :=
  match o with LInitialize | LClose => false | _ => true end.

(** ** Execution of a sequencer program (the semantics of the Luxbeam sequencer commands used).
    A configuration: what remains to be done (a stack of frames), the image number last loaded to the DMD
    memory, the image number shown by the mirrors. *)
Inductive frame :=
| FCmds (v : nat) (cs : list cmd)           (* straight-line rest, loop variable v *)
| FRange (cur : nat) (body : list cmd)       (* next iteration of a range loop, variable = cur *)
| FLoop (body : list cmd).                   (* start of an endless-loop iteration *)
Record cfg := { k_stack : list frame; k_mem : option nat; k_shown : option nat }.
Definition ival (v : nat) (e : iexpr) : nat := match e with INum n => n | IVarPlus k => v + k end.
(** One sequencer step with [reg0] = the frame-count register; waiting at a trigger is a fixed point. *)
Definition seq_step (reg0 : nat) (k : cfg) : cfg :=
  let st s := {| k_stack := s; k_mem := k_mem k; k_shown := k_shown k |} in
  match k_stack k with
  | [] => k
  | FCmds v [] :: s => st s
  | FCmds v (CLoad e :: cs) :: s => {| k_stack := FCmds v cs :: s; k_mem := Some (ival v e); k_shown := k_shown k |}
  | FCmds v (CReset :: cs) :: s => {| k_stack := FCmds v cs :: s; k_mem := k_mem k; k_shown := k_mem k |}
  | FCmds v (CTrig :: cs) :: s => k
  | FCmds v (CRange lo body :: cs) :: s => st (FRange lo body :: FCmds v cs :: s)
  | FCmds v (CLoop body :: cs) :: s => st (FLoop body :: FCmds v cs :: s)
  | FRange cur body :: s => if Nat.ltb cur reg0 then st (FCmds cur body :: FRange (S cur) body :: s) else st s
  | FLoop body :: s => st (FCmds 0 body :: FLoop body :: s)
  end.
Definition seq_waiting (k : cfg) : bool :=
  match k_stack k with FCmds _ (CTrig :: _) :: _ => true | _ => false end.
(** A trigger event: ignored unless the sequencer waits for one. *)
Definition seq_trigger (k : cfg) : cfg :=
  match k_stack k with
  | FCmds v (CTrig :: cs) :: s => {| k_stack := FCmds v cs :: s; k_mem := k_mem k; k_shown := k_shown k |}
  | _ => k
  end.
Definition seq_start (p : list cmd) : cfg := {| k_stack := [FCmds 0 p]; k_mem := None; k_shown := None |}.
Fixpoint seq_steps (reg0 n : nat) (k : cfg) : cfg :=
  match n with 0 => k | S m => seq_steps reg0 m (seq_step reg0 k) end.
