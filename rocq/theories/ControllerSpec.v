(** What the vendor calls do to the boards, as far as needed to state the controller properties.
    Independent of the controller code: these are interpretations of a call log. *)
From Coq Require Import ZArith Arith List Bool Lia.
From Verif Require Import PyBase ControllerModel.
Import ListNotations.

(** A rendering without ink, under NumPy 1.20, for examples. *)
Definition blank_glyphs : imaging := {| glyph := fun _ _ _ _ => false; numpy := (1, 20) |}.

(** ** Vialux ALP board. *)
Record aseq := { q_id : nat; q_frames : nat; q_data : option (list Z); q_timing : option (option Z)  (* Some t: SetTiming was called with picture time t *) }.
Record adev := {
  d_running : option aseq;      (* the sequence being displayed *)
  d_mode : alp_mode;
  d_rising : bool;
  d_cur : option aseq;          (* the sequence addressed by SeqPut / SetTiming / Run *)
  d_live : list nat;            (* ids of sequences allocated and not released by FreeSeq; whether A_Free (AlpDevFree)
                                   or Initialize also releases them is the vendor's business and not modelled *)
  d_next : nat;
  d_misuse : bool               (* the protocol was violated at some point *)
}.
Definition adev0 : adev :=
  {| d_running := None; d_mode := ALP_MASTER; d_rising := false; d_cur := None; d_live := []; d_next := 0;
     d_misuse := false |}.
Definition is_some {A} (o : option A) : bool := match o with Some _ => true | None => false end.
Definition adev_step (d : adev) (c : alp_call) : adev :=
  match c with
  | A_Halt => {| d_running := None; d_mode := d_mode d; d_rising := d_rising d; d_cur := d_cur d;
                 d_live := d_live d; d_next := d_next d; d_misuse := d_misuse d |}
  | A_ProjMode m => {| d_running := d_running d; d_mode := m; d_rising := d_rising d; d_cur := d_cur d;
                 d_live := d_live d; d_next := d_next d; d_misuse := d_misuse d || is_some (d_running d) |}
  | A_TriggerRising => {| d_running := d_running d; d_mode := d_mode d; d_rising := true; d_cur := d_cur d;
                 d_live := d_live d; d_next := d_next d; d_misuse := d_misuse d || is_some (d_running d) |}
  | A_SeqAlloc n _ =>
      {| d_running := d_running d; d_mode := d_mode d; d_rising := d_rising d;
         d_cur := Some {| q_id := d_next d; q_frames := n; q_data := None; q_timing := None |};
         d_live := d_next d :: d_live d; d_next := S (d_next d); d_misuse := d_misuse d || is_some (d_running d) |}
  | A_SeqPut data =>
      {| d_running := d_running d; d_mode := d_mode d; d_rising := d_rising d;
         d_cur := match d_cur d with
                  | Some q => Some {| q_id := q_id q; q_frames := q_frames q; q_data := Some data; q_timing := q_timing q |}
                  | None => None end;
         d_live := d_live d; d_next := d_next d;
         d_misuse := d_misuse d || is_some (d_running d) || negb (is_some (d_cur d)) |}
  | A_SetTiming t =>
      {| d_running := d_running d; d_mode := d_mode d; d_rising := d_rising d;
         d_cur := match d_cur d with
                  | Some q => Some {| q_id := q_id q; q_frames := q_frames q; q_data := q_data q; q_timing := Some t |}
                  | None => None end;
         d_live := d_live d; d_next := d_next d;
         d_misuse := d_misuse d || is_some (d_running d) || negb (is_some (d_cur d)) |}
  | A_Run =>
      {| d_running := d_cur d; d_mode := d_mode d; d_rising := d_rising d; d_cur := d_cur d;
         d_live := d_live d; d_next := d_next d;
         d_misuse := d_misuse d || is_some (d_running d)
           || match d_cur d with Some q => negb (is_some (q_data q)) || negb (is_some (q_timing q)) | None => true end |}
  | A_FreeSeq =>
      {| d_running := d_running d; d_mode := d_mode d; d_rising := d_rising d; d_cur := None;
         d_live := match d_cur d with Some q => remove Nat.eq_dec (q_id q) (d_live d) | None => d_live d end;
         d_next := d_next d; d_misuse := d_misuse d || is_some (d_running d) |}
  | A_Initialize => {| d_running := None; d_mode := ALP_MASTER; d_rising := false; d_cur := None;
                 d_live := d_live d; d_next := d_next d; d_misuse := d_misuse d |}
  | A_ProjInversionEnable | A_BinUninterrupted | A_SeqInquireMinPictureTime | A_Free
  | A_DevInquireWidth | A_DevInquireHeight => d
  end.
Definition alp_dev (log : list alp_call) : adev := fold_left adev_step log adev0.

(** A frame buffer shows the images [l] in order: pixel p of image k (row-major) is byte k*(h*w)+p, 255 = on. *)
Definition frames_show (data : list Z) (l : list image) (h w : nat) : Prop :=
  length data = length l * (h * w) /\
  forall k p, k < length l -> p < h * w ->
    nth (k * (h * w) + p) data (-1)%Z =
    (if nth p (im_pix (nth k l {| im_h := 0; im_w := 0; im_pix := [] |})) false then 255%Z else 0%Z).

(** ** Visitech Luxbeam board. *)
Record ldev := {
  l_running : bool;
  l_reg0 : nat;
  l_images : nat -> option image;
  l_program : list cmd;
  l_misuse : bool                (* register, program or image memory written while the sequencer runs *)
}.
Definition ldev0 : ldev :=
  {| l_running := false; l_reg0 := 0; l_images := fun _ => None; l_program := []; l_misuse := false |}.
Definition ldev_step (d : ldev) (c : lux_call) : ldev :=
  match c with
  | L_SeqState SEQ_CMD_RUN b =>
      {| l_running := b; l_reg0 := l_reg0 d; l_images := l_images d; l_program := l_program d; l_misuse := l_misuse d |}
  | L_SeqState SEQ_CMD_RESET _ => d
  | L_LoadSequence p =>
      {| l_running := l_running d; l_reg0 := l_reg0 d; l_images := l_images d; l_program := p;
         l_misuse := l_misuse d || l_running d |}
  | L_SetReg n v =>
      {| l_running := l_running d; l_reg0 := if Nat.eqb n 0 then v else l_reg0 d; l_images := l_images d;
         l_program := l_program d; l_misuse := l_misuse d || l_running d |}
  | L_LoadImage i a =>
      {| l_running := l_running d; l_reg0 := l_reg0 d;
         l_images := fun k => if Nat.eqb k i then Some a else l_images d k; l_program := l_program d;
         l_misuse := l_misuse d || l_running d |}
  | L_SoftSync _ => d
  end.
Definition lux_dev (log : list lux_call) : ldev := fold_left ldev_step log ldev0.

(** ** Behaviour of a running sequencer, with frame-count register [reg0]. *)
(** [settles reg0 k k']: left alone, the sequencer started in [k] reaches the trigger wait [k']. *)
Definition settles (reg0 : nat) (k k' : cfg) : Prop :=
  (exists n, seq_steps reg0 n k = k') /\ seq_waiting k' = true.
(** The configuration in which the sequencer waits after [t] triggers. *)
Fixpoint after_triggers (p : list cmd) (reg0 t : nat) (k : cfg) : Prop :=
  match t with
  | 0 => settles reg0 (seq_start p) k
  | S t' => exists k0, after_triggers p reg0 t' k0 /\ settles reg0 (seq_trigger k0) k
  end.
(** Everything that can happen: steps and triggers in any order, from the start of the program. *)
Inductive seq_reach (p : list cmd) (reg0 : nat) : cfg -> Prop :=
| SR_start : seq_reach p reg0 (seq_start p)
| SR_step k : seq_reach p reg0 k -> seq_reach p reg0 (seq_step reg0 k)
| SR_trig k : seq_reach p reg0 k -> seq_reach p reg0 (seq_trigger k).

(** ** Vocabulary for statements. *)
Definition no_fault {Call} : list (Call * bool) -> Call -> bool := fun _ _ => false.
Definition alp_ctrl invert faulty : ctrl alp_call := {| c_init := false; c_invert := invert; c_hw := {| hw_log := []; hw_faulty := faulty |} |}.
Definition lux_ctrl invert faulty : ctrl lux_call := {| c_init := false; c_invert := invert; c_hw := {| hw_log := []; hw_faulty := faulty |} |}.
Definition img (h w : nat) (l : list bool) : image := {| im_h := h; im_w := w; im_pix := l |}.

(** Everything sent / everything that returned, for a controller. *)
Definition log_of {Call} (c : ctrl Call) : list (Call * bool) := hw_log (c_hw c).
Definition done_of {Call} (c : ctrl Call) : list Call := done (log_of c).

(** Operations that only ask, or that a controller does not offer. *)
Definition alp_quiet (o : alp_op) : bool := match o with ANx | ANy | ANumberImage _ | AFire | ALoadSequence => true | _ => false end.
Definition lux_quiet (o : lux_op) : bool := match o with LNx | LNy | LNumberImage _ | LClose | LLoadSequence => true | _ => false end.
(** A history without them, and the answers to the remaining operations. *)
Definition without {Op} (q : Op -> bool) (os : list Op) : list Op := filter (fun o => negb (q o)) os.
Definition answers {Op} (q : Op -> bool) (os : list Op) (rs : list (res out)) : list (res out) := map snd (filter (fun x => negb (q (fst x))) (combine os rs)).
(** NumPy versions without [np.bool], and the versions pyproject.toml allows ("numpy > 1"). *)
Definition np_bool_gone (v : nat * nat) : Prop := fst v = 1 /\ 24 <= snd v.
Definition np_allowed (v : nat * nat) : Prop := 1 < fst v \/ fst v = 1 /\ 0 < snd v.
(** A sequence was allocated and none freed since. *)
Definition pending (l : list alp_call) : Prop := exists l1 n b l2, l = l1 ++ A_SeqAlloc n b :: l2 /\ ~ In A_FreeSeq l2.
