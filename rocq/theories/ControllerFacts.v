From Coq Require Import ZArith Arith List Bool Lia.
From Verif Require Import PyBase ControllerModel ControllerSpec.
Import ListNotations.


Lemma done_app {Call} (a b : list (Call * bool)) : done (a ++ b) = done a ++ done b.
Proof. unfold done. rewrite filter_app, map_app. reflexivity. Qed.

(** Outcome of one call. *)
Lemma call_cases {Call} (x : Call) c :
  (exists c', call x c = (c', Ok tt) /\ done_of c' = done_of c ++ [x] /\ log_of c' = log_of c ++ [(x, true)] /\
              c_init c' = c_init c /\ c_invert c' = c_invert c) \/
  (exists c', call x c = (c', Err EHardware) /\ done_of c' = done_of c /\ log_of c' = log_of c ++ [(x, false)] /\
              c_init c' = c_init c /\ c_invert c' = c_invert c).
Proof.
  unfold call, issue, done_of, log_of.
  destruct (hw_faulty (c_hw c) (hw_log (c_hw c)) x).
  - right. eexists. split; [reflexivity|]. simpl. rewrite done_app. simpl. rewrite app_nil_r. auto.
  - left. eexists. split; [reflexivity|]. simpl. rewrite done_app. auto.
Qed.

Ltac step_call :=
  match goal with
  | H : context [seq (call ?x) ?k ?c] |- _ =>
      unfold seq at 1, bind at 1 in H;
      let c' := fresh "c" in let E := fresh "E" in let D := fresh "D" in let L := fresh "L" in
      let I := fresh "I" in let V := fresh "V" in
      destruct (call_cases x c) as [(c' & E & D & L & I & V)|(c' & E & D & L & I & V)]; rewrite E in H; clear E
  | H : call ?x ?c = _ |- _ =>
      let c' := fresh "c" in let E := fresh "E" in let D := fresh "D" in let L := fresh "L" in
      let I := fresh "I" in let V := fresh "V" in
      destruct (call_cases x c) as [(c' & E & D & L & I & V)|(c' & E & D & L & I & V)]; rewrite E in H; clear E
  end.

(** ** np.concatenate *)
Lemma np_concat_from_ok acc l big :
  np_concat_from acc l = Ok big ->
  im_pix big = im_pix acc ++ concat (map im_pix l) /\ im_w big = im_w acc /\ Forall (fun a => im_w a = im_w acc) l.
Proof.
  revert acc big. induction l as [|b r IH]; intros acc big H; simpl in H.
  - inversion H; subst. simpl. rewrite app_nil_r. auto.
  - destruct (Nat.eqb_spec (im_w acc) (im_w b)) as [e|]; [|discriminate].
    apply IH in H. destruct H as (H1 & H2 & H3). simpl in *. rewrite H1, <- app_assoc. simpl.
    split; [reflexivity|]. split; [congruence|]. constructor; auto.
Qed.
Lemma np_concatenate_ok l big :
  np_concatenate l = Ok big -> im_pix big = concat (map im_pix l) /\ l <> [].
Proof.
  destruct l as [|a r]; simpl; [discriminate|]. intros H. apply np_concat_from_ok in H.
  destruct H as (H & _ & _). split; [exact H|discriminate].
Qed.
Lemma nth_concat_uniform {A} (ls : list (list A)) s k p d :
  Forall (fun x => length x = s) ls -> k < length ls -> p < s ->
  nth (k * s + p) (concat ls) d = nth p (nth k ls []) d.
Proof.
  intros H. revert k. induction H as [|x r Hx Hr IH]; intros k Hk Hp; simpl in Hk; [lia|].
  destruct k; simpl.
  - rewrite app_nth1 by lia. reflexivity.
  - rewrite app_nth2 by lia. rewrite <- IH by lia. f_equal. lia.
Qed.
Lemma length_concat_uniform {A} (ls : list (list A)) s :
  Forall (fun x => length x = s) ls -> length (concat ls) = length ls * s.
Proof. induction 1; simpl; [reflexivity|]. rewrite app_length. lia. Qed.

Lemma times_255_nth a n : n < length (im_pix a) ->
  nth n (times_255 a) (-1)%Z = (if nth n (im_pix a) false then 255 else 0)%Z.
Proof.
  intros H. unfold times_255. set (g := fun b : bool => if b then MAX_UINT8 else 0%Z).
  rewrite (nth_indep _ (-1)%Z (g false)) by (rewrite map_length; exact H).
  rewrite map_nth. reflexivity.
Qed.
Lemma frames_show_concat big l h w :
  im_pix big = concat (map im_pix l) ->
  Forall (fun a => image_wf a /\ im_h a = h /\ im_w a = w) l ->
  frames_show (times_255 big) l h w.
Proof.
  intros E F.
  assert (Hu : Forall (fun x => length x = h * w) (map im_pix l)).
  { apply Forall_map. eapply Forall_impl; [|exact F]. intros a (W & <- & <-). exact W. }
  assert (Hl : length (im_pix big) = length l * (h * w)).
  { rewrite E, (length_concat_uniform _ _ Hu), map_length. reflexivity. }
  split.
  - unfold times_255. rewrite map_length. exact Hl.
  - intros k p Hk Hp. rewrite times_255_nth by (rewrite Hl; nia).
    rewrite E, (nth_concat_uniform _ _ _ _ _ Hu) by (try rewrite map_length; assumption).
    rewrite (nth_indep _ [] (im_pix {| im_h := 0; im_w := 0; im_pix := [] |})) by (rewrite map_length; exact Hk).
    rewrite map_nth. reflexivity.
Qed.

(** ** Guards *)
Definition not_init_result {Call A} (m : meth Call A) : Prop :=
  forall c, c_init c = false -> m c = (c, Err PlainException).
Lemma guarded_not_init {Call A} (m : meth Call A) : not_init_result (guarded m).
Proof. intros c H. unfold guarded. rewrite H. reflexivity. Qed.

Lemma alp_guard_refuses glyphs info o c :
  alp_guarded_op o = true -> c_init c = false -> alp_exec glyphs info o c = (c, Err PlainException).
Proof.
  intros G H; destruct o; try discriminate G; unfold alp_exec, mmap, bind;
    unfold alp_load_single, alp_load_multiple, base_load_sequence, alp_Nx, alp_Ny, alp_number_image;
    rewrite (guarded_not_init _ c H); reflexivity.
Qed.
Lemma lux_guard_refuses glyphs info o c :
  lux_guarded_op o = true -> c_init c = false -> lux_exec glyphs info o c = (c, Err PlainException).
Proof.
  intros G H; destruct o; try discriminate G; unfold lux_exec, mmap, bind;
    unfold lux_load_single, lux_load_multiple, base_load_sequence, lux_Nx, lux_Ny, lux_number_image, lux_fire_software_trigger;
    rewrite (guarded_not_init _ c H); reflexivity.
Qed.

(** Only a successful initialize() sets the flag. *)
Lemma alp_init_only glyphs info o c c' r :
  c_init c = false -> alp_exec glyphs info o c = (c', r) ->
  c_init c' = true -> o = AInitialize /\ r = Ok OUnit.
Proof.
  intros H E T. destruct (alp_guarded_op o) eqn:G.
  - rewrite (alp_guard_refuses _ _ _ _ G H) in E. inversion E; subst. congruence.
  - destruct o; try discriminate G; unfold alp_exec, mmap, bind at 1 in E.
    + split; [reflexivity|]. unfold alp_initialize in E.
      destruct (call_cases A_Initialize c) as [(c1 & E1 & _ & _ & I1 & _)|(c1 & E1 & _ & _ & I1 & _)];
        unfold seq, bind in E; rewrite E1 in E.
      * destruct (c_invert c1).
        -- destruct (call_cases A_ProjInversionEnable c1) as [(c2 & E2 & _ & _ & I2 & _)|(c2 & E2 & _ & _ & I2 & _)];
             rewrite E2 in E; simpl in E; inversion E; subst; [reflexivity|congruence].
        -- simpl in E. inversion E. reflexivity.
      * inversion E; subst. congruence.
    + exfalso. unfold alp_close in E. unfold seq, bind in E.
      destruct (call_cases A_Halt c) as [(c1 & E1 & _ & _ & I1 & _)|(c1 & E1 & _ & _ & I1 & _)]; rewrite E1 in E;
        [|inversion E; subst; congruence].
      destruct (alp_lastDDRseq _).
      * destruct (call_cases A_FreeSeq c1) as [(c2 & E2 & _ & _ & I2 & _)|(c2 & E2 & _ & _ & I2 & _)]; rewrite E2 in E;
          [|inversion E; subst; congruence].
        destruct (call_cases A_Free c2) as [(c3 & E3 & _ & _ & I3 & _)|(c3 & E3 & _ & _ & I3 & _)]; rewrite E3 in E;
          inversion E; subst; congruence.
      * destruct (call_cases A_Free c1) as [(c3 & E3 & _ & _ & I3 & _)|(c3 & E3 & _ & _ & I3 & _)]; rewrite E3 in E;
          inversion E; subst; congruence.
    + exfalso. simpl in E. unfold base_fire_software_trigger, raise in E. inversion E; subst. congruence.
Qed.
Lemma lux_init_only glyphs info o c c' r :
  c_init c = false -> lux_exec glyphs info o c = (c', r) ->
  c_init c' = true -> o = LInitialize /\ r = Ok OUnit.
Proof.
  intros H E T. destruct (lux_guarded_op o) eqn:G.
  - rewrite (lux_guard_refuses _ _ _ _ G H) in E. inversion E; subst. congruence.
  - destruct o; try discriminate G; unfold lux_exec, mmap in E.
    + split; [reflexivity|]. unfold bind in E.
      destruct (lux_initialize c) as [c1 [u|e]] eqn:E1; inversion E; subst; [reflexivity|].
      exfalso. clear E. unfold lux_initialize in E1.
      do 5 (step_call; [|inversion E1; subst; congruence]).
      unfold base_initialize in E1. inversion E1.
    + exfalso. unfold lux_close, bind, ret in E. inversion E; subst. congruence.
Qed.

(** Histories: until some initialize() has returned, guarded operations raise and the log is untouched by them. *)
Section Hist.
Context {Call Op : Type} (exec : Op -> meth Call out) (is_guarded : Op -> bool) (is_init : Op -> Prop).
Context (refuses : forall o c, is_guarded o = true -> c_init c = false -> exec o c = (c, Err PlainException)).
Context (init_only : forall o c c' r, c_init c = false -> exec o c = (c', r) -> c_init c' = true -> is_init o /\ r = Ok OUnit).
Lemma hist_not_init os c c' rs :
  c_init c = false -> run_ops exec c os = (c', rs) ->
  (forall o r, In (o, r) (combine os rs) -> is_init o -> r <> Ok OUnit) ->
  c_init c' = false.
Proof.
  revert c c' rs. induction os as [|o os IH]; intros c c' rs H E N; simpl in E.
  - inversion E; subst; assumption.
  - destruct (exec o c) as [c1 x] eqn:E1. destruct (run_ops exec c1 os) as [c2 xs] eqn:E2.
    inversion E; subst. eapply IH; [|exact E2|].
    + destruct (c_init c1) eqn:T; [|reflexivity].
      destruct (init_only _ _ _ _ H E1 T) as [Hi Hr]. exfalso.
      apply (N o x); [left; reflexivity|assumption|assumption].
    + intros o' r' I. apply N. right. exact I.
Qed.
End Hist.

(** ** ALP loads *)
Lemma alp_dev_app l x : alp_dev (l ++ x) = fold_left adev_step x (alp_dev l).
Proof. unfold alp_dev. apply fold_left_app. Qed.
Lemma lux_dev_app l x : lux_dev (l ++ x) = fold_left ldev_step x (lux_dev l).
Proof. unfold lux_dev. apply fold_left_app. Qed.

Ltac chain :=
  repeat match goal with D : done_of ?c = _ |- context [done_of ?c] => rewrite D end;
  repeat rewrite <- app_assoc; simpl app.

Lemma alp_load_single_done a c c' :
  alp_load_single a c = (c', Ok tt) ->
  done_of c' = done_of c ++ [A_Halt; A_SeqAlloc 1 1; A_BinUninterrupted; A_SeqPut (times_255 a); A_SetTiming None; A_Run].
Proof.
  unfold alp_load_single, guarded. destruct (c_init c); [|discriminate]. intros H.
  repeat (step_call; [|discriminate]). inversion H; subst. chain. reflexivity.
Qed.
Lemma alp_load_multiple_done info l c c' :
  alp_load_multiple info l c = (c', Ok tt) ->
  exists big, np_concatenate l = Ok big /\
  done_of c' = done_of c ++ [A_Halt; A_ProjMode ALP_SLAVE; A_TriggerRising; A_SeqAlloc (length l) 1; A_BinUninterrupted;
     A_SeqPut (times_255 big); A_SeqInquireMinPictureTime; A_SetTiming (Some (ai_min_picture_time info)); A_Run].
Proof.
  unfold alp_load_multiple, guarded. destruct (c_init c); [|discriminate]. intros H.
  destruct (np_concatenate l) as [big|e].
  - exists big. split; [reflexivity|].
    repeat (step_call; [|discriminate]). inversion H; subst. chain. reflexivity.
  - exfalso. repeat (step_call; [|discriminate]). unfold raise in H. discriminate.
Qed.

Lemma or_f b : b || false = b. Proof. apply orb_false_r. Qed.
Lemma alp_load_single_dev a c c' :
  alp_load_single a c = (c', Ok tt) -> image_wf a ->
  let d := alp_dev (done_of c) in let d' := alp_dev (done_of c') in
  (exists q data, d_running d' = Some q /\ q_frames q = 1 /\ q_data q = Some data /\ q_timing q = Some None /\
                  frames_show data [a] (im_h a) (im_w a)) /\
  d_misuse d' = d_misuse d.
Proof.
  intros H W d d'. subst d d'. rewrite (alp_load_single_done _ _ _ H), alp_dev_app. simpl.
  split.
  - eexists. eexists. split; [reflexivity|]. simpl. repeat split.
    + unfold times_255. rewrite map_length. rewrite W. simpl. lia.
    + intros k p Hk Hp. assert (k = 0) by (simpl in Hk; lia). subst k. simpl.
      rewrite times_255_nth by (rewrite W; exact Hp). reflexivity.
  - rewrite !or_f. reflexivity.
Qed.
Lemma alp_load_multiple_dev info l h w c c' :
  alp_load_multiple info l c = (c', Ok tt) ->
  Forall (fun a => image_wf a /\ im_h a = h /\ im_w a = w) l ->
  let d := alp_dev (done_of c) in let d' := alp_dev (done_of c') in
  (exists q data, d_running d' = Some q /\ q_frames q = length l /\ q_data q = Some data /\
                  q_timing q = Some (Some (ai_min_picture_time info)) /\
                  frames_show data l h w) /\
  d_mode d' = ALP_SLAVE /\ d_rising d' = true /\ d_misuse d' = d_misuse d.
Proof.
  intros H F d d'. subst d d'. destruct (alp_load_multiple_done _ _ _ _ H) as (big & Hb & ->).
  rewrite alp_dev_app. simpl. apply np_concatenate_ok in Hb. destruct Hb as [Hb _].
  split; [|repeat split; rewrite ?or_f; reflexivity].
  eexists. eexists. split; [reflexivity|]. simpl.
  split; [reflexivity|]. split; [reflexivity|]. split; [reflexivity|]. apply frames_show_concat; assumption.
Qed.

(** A load that raises never leaves the board displaying: either not even Halt was accepted, or it is halted. *)
Lemma alp_load_single_crash a c c' e :
  c_init c = true -> alp_load_single a c = (c', Err e) ->
  log_of c' = log_of c ++ [(A_Halt, false)] \/ d_running (alp_dev (done_of c')) = None.
Proof.
  intros I H. unfold alp_load_single, guarded in H. rewrite I in H.
  step_call; [|inversion H; subst; left; assumption]. right.
  repeat (step_call; [|inversion H; subst; chain; rewrite alp_dev_app; reflexivity]). inversion H.
Qed.
Lemma alp_load_multiple_crash info l c c' e :
  c_init c = true -> alp_load_multiple info l c = (c', Err e) ->
  log_of c' = log_of c ++ [(A_Halt, false)] \/ d_running (alp_dev (done_of c')) = None.
Proof.
  intros I H. unfold alp_load_multiple, guarded in H. rewrite I in H.
  step_call; [|inversion H; subst; left; assumption]. right.
  destruct (np_concatenate l).
  - repeat (step_call; [|inversion H; subst; chain; rewrite alp_dev_app; reflexivity]). inversion H.
  - repeat (step_call; [|inversion H; subst; chain; rewrite alp_dev_app; reflexivity]).
    unfold raise in H. inversion H; subst. chain. rewrite alp_dev_app. reflexivity.
Qed.
(** An empty list or images of different widths are rejected, after the board has been halted. *)
Lemma alp_load_multiple_bad info l c :
  c_init c = true -> (l = [] \/ exists a b, In a l /\ In b l /\ im_w a <> im_w b) ->
  (forall log x, hw_faulty (c_hw c) log x = false) ->
  exists c', alp_load_multiple info l c = (c', Err ValueError) /\ d_running (alp_dev (done_of c')) = None.
Proof.
  intros I B NF.
  assert (Hc : np_concatenate l = Err ValueError).
  { destruct B as [->|(a & b & Ha & Hb & Hw)]; [reflexivity|].
    destruct l as [|x r]; [reflexivity|]. unfold np_concatenate.
    destruct (np_concat_from x r) as [big|e] eqn:E.
    - apply np_concat_from_ok in E. destruct E as (_ & _ & F). exfalso. apply Hw.
      assert (G : forall y, In y (x :: r) -> im_w y = im_w x).
      { intros y [->|Hy]; [reflexivity|]. rewrite Forall_forall in F. apply F; assumption. }
      rewrite (G a Ha), (G b Hb). reflexivity.
    - clear -E. revert x E. induction r as [|y r IH]; intros x E; simpl in E; [discriminate|].
      destruct (Nat.eqb _ _); [apply (IH _ E)|congruence]. }
  unfold alp_load_multiple, guarded. rewrite I, Hc.
  unfold seq, bind, call, issue, raise, with_hw. rewrite !NF. simpl. rewrite !NF. simpl. rewrite !NF. simpl.
  rewrite !NF. simpl. rewrite !NF.
  eexists. split; [reflexivity|]. unfold done_of, log_of. simpl. rewrite <- !app_assoc. simpl.
  rewrite done_app, alp_dev_app. simpl. reflexivity.
Qed.

(** ** Luxbeam loads *)
Definition load_images_calls (i : nat) (l : list image) : list lux_call :=
  map (fun p => L_LoadImage (fst p) (snd p)) (combine (List.seq i (length l)) l).
Lemma lux_load_images_done i l c c' :
  lux_load_images i l c = (c', Ok tt) -> done_of c' = done_of c ++ load_images_calls i l.
Proof.
  revert i c. induction l as [|a r IH]; intros i c H.
  - simpl in H. unfold ret in H. inversion H; subst. unfold load_images_calls. simpl. rewrite app_nil_r. reflexivity.
  - simpl lux_load_images in H. step_call; [|discriminate]. apply IH in H. rewrite H, D, <- app_assoc. reflexivity.
Qed.
Lemma lux_load_images_err i l c c' e :
  lux_load_images i l c = (c', Err e) -> exists k, done_of c' = done_of c ++ firstn k (load_images_calls i l).
Proof.
  revert i c. induction l as [|a r IH]; intros i c H.
  - simpl in H. unfold ret in H. inversion H.
  - simpl lux_load_images in H. step_call.
    + apply IH in H. destruct H as [k H]. exists (S k). rewrite H, D, <- app_assoc. reflexivity.
    + inversion H; subst. exists 0. rewrite D. simpl. rewrite app_nil_r. reflexivity.
Qed.
Lemma ldev_images_fold i l d :
  let d' := fold_left ldev_step (load_images_calls i l) d in
  l_running d' = l_running d /\ l_reg0 d' = l_reg0 d /\ l_program d' = l_program d /\
  (l_running d = false -> l_misuse d' = l_misuse d) /\
  (forall k, k < length l -> l_images d' (i + k) = nth_error l k) /\
  (forall k, k < i \/ i + length l <= k -> l_images d' k = l_images d k).
Proof.
  revert i d. induction l as [|a r IH]; intros i d; simpl.
  - repeat split; intros; try reflexivity; lia.
  - specialize (IH (S i) {| l_running := l_running d; l_reg0 := l_reg0 d;
         l_images := fun k => if Nat.eqb k i then Some a else l_images d k; l_program := l_program d;
         l_misuse := l_misuse d || l_running d |}).
    simpl in IH. destruct IH as (H1 & H2 & H3 & H4 & H5 & H6).
    repeat split; try assumption.
    + intros Hr. etransitivity; [apply H4; exact Hr|]. rewrite Hr. apply or_f.
    + intros k Hk. destruct k as [|k].
      * rewrite Nat.add_0_r. simpl. etransitivity; [apply H6; lia|]. cbv beta. rewrite Nat.eqb_refl. reflexivity.
      * replace (i + S k) with (S i + k) by lia. simpl nth_error. apply H5. lia.
    + intros k Hk. etransitivity; [apply H6; lia|]. cbv beta.
      destruct (Nat.eqb_spec k i); [lia|reflexivity].
Qed.
Lemma firstn_load_images k i l : firstn k (load_images_calls i l) = load_images_calls i (firstn k l).
Proof.
  unfold load_images_calls. revert i k. induction l as [|a r IH]; intros i k; destruct k; try reflexivity.
  simpl. f_equal. apply IH.
Qed.
Lemma lux_load_multiple_done l c c' :
  lux_load_multiple l c = (c', Ok tt) ->
  done_of c' = done_of c ++ [L_SeqState SEQ_CMD_RUN false; L_SeqState SEQ_CMD_RESET true; L_SetReg 0 (length l);
    L_SeqState SEQ_CMD_RESET false] ++ load_images_calls 0 l ++ [L_SeqState SEQ_CMD_RUN true].
Proof.
  unfold lux_load_multiple, guarded. destruct (c_init c); [|discriminate]. intros H.
  do 4 (step_call; [|discriminate]).
  unfold seq at 1, bind at 1 in H. destruct (lux_load_images 0 l c3) as [c4 [[]|e]] eqn:E; [|discriminate].
  apply lux_load_images_done in E.
  step_call; [|discriminate]. inversion H; subst. chain. reflexivity.
Qed.
Lemma lux_load_single_done a c c' :
  lux_load_single a c = (c', Ok tt) ->
  done_of c' = done_of c ++ [L_SeqState SEQ_CMD_RUN false; L_SeqState SEQ_CMD_RESET true; L_SetReg 0 1;
    L_SeqState SEQ_CMD_RESET false; L_LoadImage 0 a; L_SeqState SEQ_CMD_RUN true].
Proof.
  unfold lux_load_single, guarded. destruct (c_init c); [|discriminate]. intros H.
  repeat (step_call; [|discriminate]). inversion H; subst. chain. reflexivity.
Qed.
Lemma lux_load_multiple_dev l c c' :
  lux_load_multiple l c = (c', Ok tt) ->
  let d := lux_dev (done_of c) in let d' := lux_dev (done_of c') in
  l_running d' = true /\ l_reg0 d' = length l /\ l_program d' = l_program d /\ l_misuse d' = l_misuse d /\
  (forall k, k < length l -> l_images d' k = nth_error l k) /\
  (forall k, length l <= k -> l_images d' k = l_images d k).
Proof.
  intros H d d'. subst d d'. rewrite (lux_load_multiple_done _ _ _ H), lux_dev_app.
  rewrite !fold_left_app. cbn [fold_left].
  set (d1 := ldev_step (ldev_step (ldev_step (ldev_step (lux_dev (done_of c)) _) _) _) _).
  assert (Hr : l_running d1 = false) by reflexivity.
  assert (Hm : l_misuse d1 = l_misuse (lux_dev (done_of c))) by (subst d1; simpl; apply or_f).
  destruct (ldev_images_fold 0 l d1) as (H1 & H2 & H3 & H4 & H5 & H6). simpl.
  repeat split.
  - rewrite H2. reflexivity.
  - rewrite H3. reflexivity.
  - rewrite H4 by exact Hr. exact Hm.
  - intros k Hk. apply (H5 k Hk).
  - intros k Hk. rewrite H6 by lia. reflexivity.
Qed.
Lemma lux_load_single_dev a c c' :
  lux_load_single a c = (c', Ok tt) ->
  let d := lux_dev (done_of c) in let d' := lux_dev (done_of c') in
  l_running d' = true /\ l_reg0 d' = 1 /\ l_program d' = l_program d /\ l_misuse d' = l_misuse d /\
  l_images d' 0 = Some a /\ (forall k, 1 <= k -> l_images d' k = l_images d k).
Proof.
  intros H d d'. subst d d'. rewrite (lux_load_single_done _ _ _ H), lux_dev_app. simpl.
  rewrite !or_f. repeat split. intros k Hk. destruct k; [lia|reflexivity].
Qed.
(** A load that raises leaves the sequencer stopped (or could not even stop it). *)
Lemma lux_load_single_crash a c c' e :
  c_init c = true -> lux_load_single a c = (c', Err e) ->
  log_of c' = log_of c ++ [(L_SeqState SEQ_CMD_RUN false, false)] \/ l_running (lux_dev (done_of c')) = false.
Proof.
  intros I H. unfold lux_load_single, guarded in H. rewrite I in H.
  step_call; [|inversion H; subst; left; assumption]. right.
  repeat (step_call; [|inversion H; subst; chain; rewrite lux_dev_app; reflexivity]). inversion H.
Qed.
Lemma lux_load_multiple_crash l c c' e :
  c_init c = true -> lux_load_multiple l c = (c', Err e) ->
  log_of c' = log_of c ++ [(L_SeqState SEQ_CMD_RUN false, false)] \/ l_running (lux_dev (done_of c')) = false.
Proof.
  intros I H. unfold lux_load_multiple, guarded in H. rewrite I in H.
  step_call; [|inversion H; subst; left; assumption]. right.
  do 3 (step_call; [|inversion H; subst; chain; rewrite lux_dev_app; reflexivity]).
  unfold seq at 1, bind at 1 in H. destruct (lux_load_images 0 l c3) as [c4 [[]|e']] eqn:E.
  - step_call; [inversion H|]. apply lux_load_images_done in E.
    inversion H; subst. chain. rewrite lux_dev_app. cbn [fold_left].
    destruct (ldev_images_fold 0 l (ldev_step (ldev_step (ldev_step (ldev_step (lux_dev (done_of c))
      (L_SeqState SEQ_CMD_RUN false)) (L_SeqState SEQ_CMD_RESET true)) (L_SetReg 0 (length l))) (L_SeqState SEQ_CMD_RESET false)))
      as (H1 & _). rewrite H1. reflexivity.
  - apply lux_load_images_err in E. destruct E as [k E]. inversion H; subst. chain.
    rewrite lux_dev_app, firstn_load_images. cbn [fold_left].
    destruct (ldev_images_fold 0 (firstn k l) (ldev_step (ldev_step (ldev_step (ldev_step (lux_dev (done_of c))
      (L_SeqState SEQ_CMD_RUN false)) (L_SeqState SEQ_CMD_RESET true)) (L_SetReg 0 (length l))) (L_SeqState SEQ_CMD_RESET false)))
      as (H1 & _). rewrite H1. reflexivity.
Qed.
Lemma lux_initialize_dev c c' :
  lux_initialize c = (c', Ok tt) ->
  let d := lux_dev (done_of c) in let d' := lux_dev (done_of c') in
  c_init c' = true /\ l_running d' = false /\ l_reg0 d' = 1 /\ l_program d' = lux_program /\ l_misuse d' = l_misuse d /\
  (forall k, l_images d' k = l_images d k).
Proof.
  intros H d d'. subst d d'. unfold lux_initialize in H. repeat (step_call; [|discriminate]).
  unfold base_initialize in H. inversion H; subst. unfold done_of at 1 2 3 4 5 6, log_of. simpl.
  fold (log_of c4). fold (done_of c4). chain. rewrite lux_dev_app. simpl. rewrite !or_f. repeat split.
Qed.

(** No Luxbeam operation other than initialize() writes the sequencer program. *)
Lemma lux_program_kept_log log x : (forall p, x <> L_LoadSequence p) ->
  l_program (ldev_step log x) = l_program log.
Proof. destruct x as [[]| | | |]; simpl; try reflexivity. intros H. exfalso. apply (H p). reflexivity. Qed.

(** ** The sequencer *)
Definition rbody : list cmd := [CReset; CLoad (IVarPlus 1); CTrig].
Definition lbody : list cmd := [CLoad (INum 0); CRange 0 rbody].
Definition base : list frame := [FLoop lbody; FCmds 0 []].
Definition mkk s m d : cfg := {| k_stack := s; k_mem := m; k_shown := d |}.
Definition Wait (i : nat) : cfg := mkk (FCmds i [CTrig] :: FRange (S i) rbody :: FCmds 0 [] :: base) (Some (S i)) (Some i).
Lemma start_settles N : 1 <= N -> seq_steps N 7 (seq_start lux_program) = Wait 0.
Proof.
  intros H. unfold lux_program, seq_start. cbn -[Nat.ltb].
  replace (Nat.ltb 0 N) with true by (symmetry; apply Nat.ltb_lt; lia). reflexivity.
Qed.
Lemma trigger_settles_next N i : S i < N -> seq_steps N 4 (seq_trigger (Wait i)) = Wait (S i).
Proof.
  intros H. unfold Wait, mkk, seq_trigger. cbn -[Nat.ltb].
  replace (Nat.ltb (S i) N) with true by (symmetry; apply Nat.ltb_lt; lia). cbn -[Nat.ltb].
  unfold mkk. rewrite !Nat.add_1_r. reflexivity.
Qed.
Lemma trigger_settles_wrap N i : 1 <= N -> S i = N -> seq_steps N 9 (seq_trigger (Wait i)) = Wait 0.
Proof.
  intros H E. unfold Wait, mkk, seq_trigger. cbn -[Nat.ltb].
  replace (Nat.ltb (S i) N) with false by (symmetry; apply Nat.ltb_ge; lia). cbn -[Nat.ltb].
  replace (Nat.ltb 0 N) with true by (symmetry; apply Nat.ltb_lt; lia). reflexivity.
Qed.
Lemma step_waiting N k : seq_waiting k = true -> seq_step N k = k.
Proof.
  destruct k as [st m d]; unfold seq_waiting, seq_step; simpl.
  destruct st as [|[v [|[] cs]| |] s]; try discriminate; reflexivity.
Qed.
Lemma steps_waiting N n k : seq_waiting k = true -> seq_steps N n k = k.
Proof. intros H. induction n; simpl; [reflexivity|]. rewrite step_waiting; assumption. Qed.
Lemma seq_steps_add N a b k : seq_steps N (a + b) k = seq_steps N b (seq_steps N a k).
Proof. revert k. induction a; intros k; simpl; [reflexivity|apply IHa]. Qed.
Lemma settles_unique N k a b : settles N k a -> settles N k b -> a = b.
Proof.
  intros [[n Hn] Wa] [[m Hm] Wb]. destruct (Nat.le_ge_cases n m) as [L|L].
  - replace m with (n + (m - n)) in Hm by lia. rewrite seq_steps_add, Hn in Hm.
    rewrite steps_waiting in Hm by exact Wa. exact Hm.
  - replace n with (m + (n - m)) in Hn by lia. rewrite seq_steps_add, Hm in Hn.
    rewrite steps_waiting in Hn by exact Wb. symmetry. exact Hn.
Qed.
Lemma sequencer_wait N t : 1 <= N -> after_triggers lux_program N t (Wait (t mod N)).
Proof.
  intros H. induction t as [|t IH]; simpl.
  - rewrite Nat.mod_0_l by lia. split; [|reflexivity]. exists 7. apply start_settles; exact H.
  - exists (Wait (t mod N)). split; [exact IH|].
    pose proof (Nat.mod_upper_bound t N ltac:(lia)) as B.
    assert (E : S t mod N = if Nat.eqb (S (t mod N)) N then 0 else S (t mod N)).
    { rewrite (Nat.div_mod_eq t N) at 1. destruct (Nat.eqb_spec (S (t mod N)) N) as [e|ne].
      - replace (S (N * (t / N) + t mod N)) with (0 + (t / N + 1) * N) by nia. rewrite Nat.mod_add by lia.
        apply Nat.mod_0_l. lia.
      - replace (S (N * (t / N) + t mod N)) with (S (t mod N) + (t / N) * N) by nia. rewrite Nat.mod_add by lia.
        apply Nat.mod_small. lia. }
    rewrite E. destruct (Nat.eqb_spec (S (t mod N)) N) as [e|ne].
    + split; [|reflexivity]. exists 9. apply trigger_settles_wrap; assumption.
    + split; [|reflexivity]. exists 4. apply trigger_settles_next. lia.
Qed.
Lemma after_triggers_unique p N t a b : after_triggers p N t a -> after_triggers p N t b -> a = b.
Proof.
  revert a b. induction t as [|t IH]; simpl; intros a b Ha Hb; [eapply settles_unique; eassumption|].
  destruct Ha as (a0 & Ha0 & Ha), Hb as (b0 & Hb0 & Hb). rewrite (IH _ _ Ha0 Hb0) in Ha.
  eapply settles_unique; eassumption.
Qed.
Lemma sequencer_display N t : 1 <= N ->
  exists k, after_triggers lux_program N t k /\ k_shown k = Some (t mod N) /\
            (forall k', after_triggers lux_program N t k' -> k' = k).
Proof.
  intros H. exists (Wait (t mod N)). split; [apply sequencer_wait; exact H|]. split; [reflexivity|].
  intros k' Hk'. eapply after_triggers_unique; [exact Hk'|]. apply sequencer_wait; exact H.
Qed.
(** Safety at every moment. *)
Definition shown_ok (N : nat) (d : option nat) : Prop := match d with None => True | Some i => i < N end.
Definition seq_inv (N : nat) (k : cfg) : Prop :=
  shown_ok N (k_shown k) /\
  ( k_stack k = [FCmds 0 lux_program]
  \/ k_stack k = base
  \/ k_stack k = FCmds 0 lbody :: base
  \/ (k_stack k = FCmds 0 [CRange 0 rbody] :: base /\ k_mem k = Some 0)
  \/ (exists i, k_stack k = FRange i rbody :: FCmds 0 [] :: base /\ k_mem k = Some i)
  \/ (exists i, i < N /\ k_stack k = FCmds i rbody :: FRange (S i) rbody :: FCmds 0 [] :: base /\ k_mem k = Some i)
  \/ (exists i, i < N /\ k_stack k = FCmds i [CLoad (IVarPlus 1); CTrig] :: FRange (S i) rbody :: FCmds 0 [] :: base)
  \/ (exists i, i < N /\ k_stack k = FCmds i [CTrig] :: FRange (S i) rbody :: FCmds 0 [] :: base /\ k_mem k = Some (S i))
  \/ (exists i, i < N /\ k_stack k = FCmds i [] :: FRange (S i) rbody :: FCmds 0 [] :: base /\ k_mem k = Some (S i))
  \/ k_stack k = FCmds 0 [] :: base ).
Lemma seq_inv_step N k : seq_inv N k -> seq_inv N (seq_step N k).
Proof.
  destruct k as [s m d]. unfold seq_inv. simpl k_stack. simpl k_mem. simpl k_shown.
  intros [Hd [H|[H|[H|[[H Hm]|[(i & H & Hm)|[(i & Hi & H & Hm)|[(i & Hi & H)|[(i & Hi & H & Hm)|[(i & Hi & H & Hm)|H]]]]]]]]]];
    rewrite H; unfold seq_step; cbn [k_stack base lbody lux_program rbody ival].
  - split; [exact Hd|]. right. left. reflexivity.
  - split; [exact Hd|]. right. right. left. reflexivity.
  - split; [exact Hd|]. right. right. right. left. split; reflexivity.
  - split; [exact Hd|]. do 4 right. left. exists 0. split; [reflexivity|exact Hm].
  - destruct (Nat.ltb_spec i N) as [Hi|Hi]; cbn [k_stack k_mem k_shown].
    + split; [exact Hd|]. do 5 right. left. exists i. split; [exact Hi|]. split; [reflexivity|exact Hm].
    + split; [exact Hd|]. do 9 right. reflexivity.
  - cbn [k_stack k_mem k_shown]. split; [rewrite Hm; exact Hi|]. do 6 right. left. exists i. split; [exact Hi|reflexivity].
  - cbn [k_stack k_mem k_shown]. split; [exact Hd|]. do 7 right. left. exists i. split; [exact Hi|]. split; [reflexivity|].
    rewrite Nat.add_1_r. reflexivity.
  - cbn [k_stack k_mem k_shown]. split; [exact Hd|]. do 7 right. left. exists i. split; [exact Hi|]. split; [reflexivity|exact Hm].
  - cbn [k_stack k_mem k_shown]. split; [exact Hd|]. do 4 right. left. exists (S i). split; [reflexivity|exact Hm].
  - cbn [k_stack k_mem k_shown]. split; [exact Hd|]. right. left. reflexivity.
Qed.
Lemma seq_inv_trigger N k : seq_inv N k -> seq_inv N (seq_trigger k).
Proof.
  destruct k as [s m d]. unfold seq_inv. simpl k_stack. simpl k_mem. simpl k_shown.
  intros [Hd H]. pose proof H as H0.
  destruct H as [H|[H|[H|[[H Hm]|[(i & H & Hm)|[(i & Hi & H & Hm)|[(i & Hi & H)|[(i & Hi & H & Hm)|[(i & Hi & H & Hm)|H]]]]]]]]];
    rewrite H in *; unfold seq_trigger; cbn [k_stack base lbody lux_program rbody k_mem k_shown]; try (split; [exact Hd|exact H0]).
  split; [exact Hd|]. do 8 right. left. exists i. split; [exact Hi|]. split; [reflexivity|exact Hm].
Qed.
Lemma sequencer_safe N k : seq_reach lux_program N k -> forall i, k_shown k = Some i -> i < N.
Proof.
  intros R. assert (I : seq_inv N k).
  { induction R; [|apply seq_inv_step; assumption|apply seq_inv_trigger; assumption].
    split; [exact I|]. left. reflexivity. }
  destruct I as [Hd _]. intros i E. rewrite E in Hd. exact Hd.
Qed.

Lemma alp_guard_hist : forall glyphs info invert faulty os c' rs o,
  run_ops (alp_exec glyphs info) (alp_ctrl invert faulty) os = (c', rs) ->
  (forall o' r, In (o', r) (combine os rs) -> o' = AInitialize -> r <> Ok OUnit) ->
  alp_guarded_op o = true -> alp_exec glyphs info o c' = (c', Err PlainException).
Proof.
  intros glyphs info invert faulty os c' rs o R N G. apply alp_guard_refuses; [exact G|].
  exact (hist_not_init (alp_exec glyphs info) (fun x => x = AInitialize)
           (alp_init_only glyphs info) os (alp_ctrl invert faulty) _ _ eq_refl R N).
Qed.

Lemma lux_guard_hist : forall glyphs info invert faulty os c' rs o,
  run_ops (lux_exec glyphs info) (lux_ctrl invert faulty) os = (c', rs) ->
  (forall o' r, In (o', r) (combine os rs) -> o' = LInitialize -> r <> Ok OUnit) ->
  lux_guarded_op o = true -> lux_exec glyphs info o c' = (c', Err PlainException).
Proof.
  intros glyphs info invert faulty os c' rs o R N G. apply lux_guard_refuses; [exact G|].
  exact (hist_not_init (lux_exec glyphs info) (fun x => x = LInitialize)
           (lux_init_only glyphs info) os (lux_ctrl invert faulty) _ _ eq_refl R N).
Qed.

Lemma shows_loaded_images : forall l c c0 c1 c2 t,
  lux_initialize c = (c0, Ok tt) -> done_of c1 = done_of c0 -> lux_load_multiple l c1 = (c2, Ok tt) -> l <> [] ->
  let d := lux_dev (done_of c2) in
  exists k i a, after_triggers (l_program d) (l_reg0 d) t k /\ k_shown k = Some i /\
    l_images d i = Some a /\ nth_error l (t mod length l) = Some a.
Proof.
  intros l c c0 c1 c2 t H0 E1 H2 Hl d.
  destruct (lux_initialize_dev _ _ H0) as (_ & _ & _ & P & _).
  destruct (lux_load_multiple_dev _ _ _ H2) as (_ & R & P2 & _ & I & _).
  assert (L : 1 <= length l) by (destruct l; [congruence|simpl; lia]).
  destruct (sequencer_display (length l) t L) as (k & A & S & _).
  assert (B : t mod length l < length l) by (apply Nat.mod_upper_bound; lia).
  destruct (nth_error l (t mod length l)) as [a|] eqn:E; [|apply nth_error_None in E; lia].
  exists k, (t mod length l), a. subst d. rewrite R, P2, E1, P. split; [exact A|]. split; [exact S|].
  split; [|reflexivity]. rewrite (I _ B). exact E.
Qed.
