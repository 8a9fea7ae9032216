(** More about the controllers: what accumulates, what is never cleared, empty image lists. *)
From Coq Require Import ZArith Arith List Bool Lia.
From Verif Require Import PyBase ControllerModel ControllerSpec ControllerFacts.
Import ListNotations.

(** ** Sequences allocated on the ALP board *)
Lemma adev_step_fresh d x : (forall i, In i (d_live d) -> i < d_next d) -> forall i, In i (d_live (adev_step d x)) -> i < d_next (adev_step d x).
Proof.
  intros H i. destruct x; cbn [adev_step d_live d_next]; try (apply H).
  - intros [<-|I]; [lia|]. specialize (H i I). lia.
  - destruct (d_cur d); [|apply H]. intros I. apply H. exact (proj1 (in_remove _ _ _ _ I)).
Qed.
Lemma alp_dev_fresh l i : In i (d_live (alp_dev l)) -> i < d_next (alp_dev l).
Proof.
  revert i. induction l as [|x l IH] using rev_ind; [intros i []|]. rewrite alp_dev_app. cbn [fold_left]. apply adev_step_fresh, IH.
Qed.
Lemma load_single_live a c c' : alp_load_single a c = (c', Ok tt) ->
  exists id, ~ In id (d_live (alp_dev (done_of c))) /\ d_live (alp_dev (done_of c')) = id :: d_live (alp_dev (done_of c)).
Proof.
  intros H. rewrite (alp_load_single_done _ _ _ H), alp_dev_app. exists (d_next (alp_dev (done_of c))). split; [|reflexivity].
  intros I. apply alp_dev_fresh in I. lia.
Qed.
Lemma load_multiple_live info l c c' : alp_load_multiple info l c = (c', Ok tt) ->
  exists id, ~ In id (d_live (alp_dev (done_of c))) /\ d_live (alp_dev (done_of c')) = id :: d_live (alp_dev (done_of c)).
Proof.
  intros H. destruct (alp_load_multiple_done _ _ _ _ H) as (big & _ & ->). rewrite alp_dev_app. exists (d_next (alp_dev (done_of c))). split; [|reflexivity].
  intros I. apply alp_dev_fresh in I. lia.
Qed.
Definition is_load (o : alp_op) : Prop := match o with ALoadSingle _ | ALoadMultiple _ => True | _ => False end.
Lemma exec_load_live glyphs info o c c' : is_load o -> alp_exec glyphs info o c = (c', Ok OUnit) ->
  exists id, ~ In id (d_live (alp_dev (done_of c))) /\ d_live (alp_dev (done_of c')) = id :: d_live (alp_dev (done_of c)).
Proof.
  intros L E. destruct o; try destruct L; unfold alp_exec, mmap, bind, ret in E.
  - destruct (alp_load_single a c) as [c1 [[]|e]] eqn:E1; inversion E; subst. eapply load_single_live, E1.
  - destruct (alp_load_multiple info l c) as [c1 [[]|e]] eqn:E1; inversion E; subst. eapply load_multiple_live, E1.
Qed.
Lemma loads_accumulate glyphs info os : forall c c' rs, (forall o, In o os -> is_load o) ->
  run_ops (alp_exec glyphs info) c os = (c', rs) -> (forall r, In r rs -> r = Ok OUnit) ->
  exists ids, length ids = length os /\ d_live (alp_dev (done_of c')) = ids ++ d_live (alp_dev (done_of c)).
Proof.
  induction os as [|o os IH]; intros c c' rs L E A; simpl in E.
  - inversion E; subst. exists []. split; reflexivity.
  - destruct (alp_exec glyphs info o c) as [c1 x] eqn:E1. destruct (run_ops (alp_exec glyphs info) c1 os) as [c2 xs] eqn:E2. inversion E; subst.
    rewrite (A x (or_introl eq_refl)) in E1. destruct (exec_load_live _ _ _ _ _ (L o (or_introl eq_refl)) E1) as (id & _ & H1).
    destruct (IH c1 c' xs) as (ids & Hn & H2); [intros; apply L; right; assumption|exact E2|intros; apply A; right; assumption|].
    exists (ids ++ [id]). split; [rewrite app_length; cbn; lia|]. rewrite H2, H1, <- app_assoc. reflexivity.
Qed.
(** Without faults n loads succeed. *)
Definition faultless (c : ctrl alp_call) : Prop := forall log x, hw_faulty (c_hw c) log x = false.
Lemma call_faultless x c : faultless c -> exists c', call x c = (c', Ok tt) /\ faultless c' /\ c_init c' = c_init c.
Proof. intros F. unfold call, issue. rewrite (F _ x). eexists. split; [reflexivity|]. split; [exact F|reflexivity]. Qed.
Lemma load_single_ok a c : c_init c = true -> faultless c -> exists c', alp_load_single a c = (c', Ok tt) /\ faultless c' /\ c_init c' = true.
Proof.
  intros I F. unfold alp_load_single, guarded. rewrite I. unfold seq, bind.
  destruct (call_faultless A_Halt c F) as (c1 & -> & F1 & I1).
  destruct (call_faultless (A_SeqAlloc 1 1) c1 F1) as (c2 & -> & F2 & I2).
  destruct (call_faultless A_BinUninterrupted c2 F2) as (c3 & -> & F3 & I3).
  destruct (call_faultless (A_SeqPut (times_255 a)) c3 F3) as (c4 & -> & F4 & I4).
  destruct (call_faultless (A_SetTiming None) c4 F4) as (c5 & -> & F5 & I5).
  destruct (call_faultless A_Run c5 F5) as (c6 & -> & F6 & I6).
  exists c6. repeat split; [exact F6|congruence].
Qed.
Lemma many_loads_from info a glyphs n : forall c, c_init c = true -> faultless c -> exists c' rs,
  run_ops (alp_exec glyphs info) c (repeat (ALoadSingle a) n) = (c', rs) /\ (forall r, In r rs -> r = Ok OUnit).
Proof.
  induction n as [|n IH]; intros c I F.
  - exists c, []. split; [reflexivity|intros r []].
  - destruct (load_single_ok a c I F) as (c1 & E1 & F1 & I1). destruct (IH c1 I1 F1) as (c2 & rs & E2 & A).
    exists c2, (Ok OUnit :: rs). split; [|intros r [<-|H]; [reflexivity|apply A, H]].
    cbn [repeat run_ops]. unfold alp_exec at 1, mmap, bind, ret. rewrite E1, E2. reflexivity.
Qed.
Lemma many_loads info a n : exists c' rs,
  run_ops (alp_exec blank_glyphs info) (alp_ctrl false no_fault) (AInitialize :: repeat (ALoadSingle a) n) = (c', rs) /\
  (forall r, In r rs -> r = Ok OUnit) /\ length (d_live (alp_dev (done_of c'))) = n.
Proof.
  set (c := fst (alp_exec blank_glyphs info AInitialize (alp_ctrl false no_fault))).
  destruct (many_loads_from info a blank_glyphs n c eq_refl (fun _ _ => eq_refl)) as (c' & rs & E & A).
  assert (Hl : forall o, In o (repeat (ALoadSingle a) n) -> is_load o) by (intros o H; apply repeat_spec in H; subst; exact Logic.I).
  destruct (loads_accumulate _ _ _ _ _ _ Hl E A) as (ids & L & D).
  exists c', (Ok OUnit :: rs). split; [|split].
  - change (run_ops (alp_exec blank_glyphs info) (alp_ctrl false no_fault) (AInitialize :: repeat (ALoadSingle a) n))
      with (let (c2, xs) := run_ops (alp_exec blank_glyphs info) c (repeat (ALoadSingle a) n) in (c2, @Ok out OUnit :: xs)).
    rewrite E. reflexivity.
  - intros r [<-|H]; [reflexivity|apply A, H].
  - rewrite D, app_length, L, repeat_length. cbn. lia.
Qed.
(** close() frees at most the last sequence. *)
Lemma close_done c c' : alp_close c = (c', Ok tt) ->
  done_of c' = done_of c ++ [A_Halt; A_Free] \/ done_of c' = done_of c ++ [A_Halt; A_FreeSeq; A_Free].
Proof.
  unfold alp_close. intros H. step_call; [|discriminate]. unfold seq at 1, bind at 1 in H. destruct (alp_lastDDRseq _).
  - destruct (call_cases A_FreeSeq c0) as [(c2 & E2 & D2 & _)|(c2 & E2 & D2 & _)]; rewrite E2 in H; [|discriminate]. clear E2.
    destruct (call_cases A_Free c2) as [(c3 & E3 & D3 & _)|(c3 & E3 & D3 & _)]; rewrite E3 in H; [|discriminate].
    inversion H; subst. right. rewrite D3, D2, D, <- !app_assoc. reflexivity.
  - step_call; [|discriminate]. inversion H; subst. left. chain. reflexivity.
Qed.
Lemma remove_length i l : NoDup l -> length l <= S (length (remove Nat.eq_dec i l)).
Proof.
  induction l as [|x l IH]; intros N; [cbn; lia|]. inversion N as [|? ? Nx Nl]; subst. cbn [remove length]. destruct (Nat.eq_dec i x) as [->|].
  - rewrite notin_remove by exact Nx. lia.
  - cbn [length]. specialize (IH Nl). lia.
Qed.
Lemma remove_nodup i l : NoDup l -> NoDup (remove Nat.eq_dec i l).
Proof.
  induction l as [|x l IH]; intros N; [constructor|]. inversion N as [|? ? Nx Nl]; subst. cbn [remove]. destruct (Nat.eq_dec i x); [apply IH, Nl|].
  constructor; [|apply IH, Nl]. intros I. apply Nx. exact (proj1 (in_remove _ _ _ _ I)).
Qed.
Lemma alp_dev_nodup l : NoDup (d_live (alp_dev l)).
Proof.
  induction l as [|x l IH] using rev_ind; [constructor|]. rewrite alp_dev_app. cbn [fold_left]. destruct x; cbn [adev_step d_live]; try exact IH.
  - constructor; [|exact IH]. intros I. apply alp_dev_fresh in I. lia.
  - destruct (d_cur (alp_dev l)); [apply remove_nodup, IH|exact IH].
Qed.
Lemma close_frees_one c c' : alp_close c = (c', Ok tt) -> length (d_live (alp_dev (done_of c))) <= S (length (d_live (alp_dev (done_of c')))).
Proof.
  intros H. destruct (close_done _ _ H) as [E|E]; rewrite E, alp_dev_app; cbn [fold_left adev_step d_live d_cur]; [lia|].
  destruct (d_cur (alp_dev (done_of c))); [apply remove_length, alp_dev_nodup|lia].
Qed.

(** ** The trigger mode *)
Lemma load_single_mode a c c' r : alp_load_single a c = (c', r) -> d_mode (alp_dev (done_of c')) = d_mode (alp_dev (done_of c)).
Proof.
  unfold alp_load_single, guarded. destruct (c_init c); [|intros H; inversion H; reflexivity]. intros H.
  repeat (step_call; [|inversion H; subst; chain; rewrite ?alp_dev_app; reflexivity]). inversion H; subst. chain. rewrite alp_dev_app. reflexivity.
Qed.

(** ** The initialised flag is never cleared *)
Definition sticky {Call A} (m : meth Call A) : Prop := forall c, c_init c = true -> c_init (fst (m c)) = true.
Lemma sticky_ret {Call A} (a : A) : @sticky Call A (ret a). Proof. intros c H. exact H. Qed.
Lemma sticky_raise {Call A} e : @sticky Call A (raise e). Proof. intros c H. exact H. Qed.
Lemma sticky_call {Call} (x : Call) : sticky (call x).
Proof. intros c H. destruct (call_cases x c) as [(c' & -> & _ & _ & I & _)|(c' & -> & _ & _ & I & _)]; cbn; congruence. Qed.
Lemma sticky_bind {Call A B} (m : meth Call A) (k : A -> meth Call B) : sticky m -> (forall a, sticky (k a)) -> sticky (bind m k).
Proof. intros Hm Hk c H. unfold bind. specialize (Hm c H). destruct (m c) as [c1 [a|e]]; cbn [fst] in *; [apply Hk, Hm|exact Hm]. Qed.
Lemma sticky_seq {Call A B} (m : meth Call A) (k : meth Call B) : sticky m -> sticky k -> sticky (seq m k).
Proof. intros Hm Hk. apply sticky_bind; auto. Qed.
Lemma sticky_guarded {Call A} (m : meth Call A) : sticky m -> sticky (guarded m).
Proof. intros Hm c H. unfold guarded. rewrite H. apply Hm, H. Qed.
Lemma sticky_mmap {Call A B} (f : A -> B) (m : meth Call A) : sticky m -> sticky (mmap f m).
Proof. intros H. apply sticky_bind; [exact H|intros; apply sticky_ret]. Qed.
Lemma sticky_if {Call A} (b : ctrl Call -> bool) (m k : meth Call A) : sticky m -> sticky k -> sticky (fun c => if b c then m c else k c).
Proof. intros Hm Hk c H. cbn beta. destruct (b c); [apply Hm, H|apply Hk, H]. Qed.
Lemma sticky_base_init {Call} : @sticky Call unit base_initialize. Proof. intros c H. reflexivity. Qed.
Ltac stick := repeat first [apply sticky_mmap | apply sticky_guarded | apply sticky_seq | apply sticky_call | apply sticky_ret | apply sticky_raise | apply sticky_base_init
  | (apply sticky_bind; [|intros]) ].
Lemma alp_sticky glyphs info o : sticky (alp_exec glyphs info o).
Proof.
  destruct o; unfold alp_exec; apply sticky_mmap.
  - unfold alp_initialize. stick. apply (sticky_if c_invert _ (ret tt)); stick.
  - unfold alp_close. stick. intros c H. destruct (alp_lastDDRseq _); [apply sticky_call, H|exact H].
  - unfold alp_load_single. stick.
  - unfold alp_load_multiple. apply sticky_guarded. do 5 (apply sticky_seq; [stick|]). destruct (np_concatenate l); stick.
  - unfold base_load_sequence. stick.
  - unfold alp_Nx. stick.
  - unfold alp_Ny. stick.
  - unfold alp_number_image, alp_Nx, alp_Ny. stick. destruct (number_image _ _ _ _); cbn [yield]; stick.
  - unfold base_fire_software_trigger. stick.
Qed.
Lemma lux_sticky glyphs info o : sticky (lux_exec glyphs info o).
Proof.
  destruct o; unfold lux_exec; apply sticky_mmap.
  - unfold lux_initialize. stick.
  - unfold lux_close. stick.
  - unfold lux_load_single. stick.
  - unfold lux_load_multiple. stick. generalize 0 as i. induction l as [|a l IH]; intros i; cbn [lux_load_images]; stick. apply IH.
  - unfold base_load_sequence. stick.
  - unfold lux_Nx. stick.
  - unfold lux_Ny. stick.
  - unfold lux_number_image, lux_Nx, lux_Ny. stick. destruct (number_image _ _ _ _); cbn [yield]; stick.
  - unfold lux_fire_software_trigger. stick.
Qed.
Lemma run_sticky {Call Op} (exec : Op -> meth Call out) : (forall o, sticky (exec o)) -> forall os c c' rs, c_init c = true -> run_ops exec c os = (c', rs) -> c_init c' = true.
Proof.
  intros S os. induction os as [|o os IH]; intros c c' rs H E; simpl in E; [inversion E; subst; exact H|].
  destruct (exec o c) as [c1 x] eqn:E1. destruct (run_ops exec c1 os) as [c2 xs] eqn:E2. inversion E; subst. eapply IH; [|exact E2].
  pose proof (S o c H) as T. rewrite E1 in T. exact T.
Qed.
Lemma alp_flag_kept glyphs info os c c' rs : c_init c = true -> run_ops (alp_exec glyphs info) c os = (c', rs) -> c_init c' = true.
Proof. apply run_sticky. intros o. apply alp_sticky. Qed.
Lemma lux_flag_kept glyphs info os c c' rs : c_init c = true -> run_ops (lux_exec glyphs info) c os = (c', rs) -> c_init c' = true.
Proof. apply run_sticky. intros o. apply lux_sticky. Qed.

(** ** An empty list of images *)
Lemma alp_empty_rejected info c : c_init c = true -> (forall log x, hw_faulty (c_hw c) log x = false) ->
  exists c', alp_load_multiple info [] c = (c', Err ValueError) /\ d_running (alp_dev (done_of c')) = None.
Proof. intros I F. apply (alp_load_multiple_bad info [] c I); [left; reflexivity|exact F]. Qed.
Lemma lux_empty_accepted c : c_init c = true -> (forall log x, hw_faulty (c_hw c) log x = false) ->
  exists c', lux_load_multiple [] c = (c', Ok tt) /\ l_running (lux_dev (done_of c')) = true /\ l_reg0 (lux_dev (done_of c')) = 0.
Proof.
  intros I F. destruct (lux_load_multiple [] c) as [c' [[]|e]] eqn:E.
  - exists c'. split; [reflexivity|]. destruct (lux_load_multiple_dev _ _ _ E) as (R & G & _). split; [exact R|exact G].
  - exfalso. unfold lux_load_multiple, guarded in E. rewrite I in E. unfold seq, bind, call, issue, with_hw in E. cbn -[app] in E. rewrite !F in E. cbn -[app] in E. rewrite !F in E.
    cbn -[app] in E. rewrite !F in E. cbn -[app] in E. rewrite !F in E. cbn -[app] in E. rewrite !F in E. discriminate E.
Qed.
(** With no images the sequencer never waits for a trigger and never sets the mirrors. *)
Definition body := [CLoad (INum 0); CRange 0 [CReset; CLoad (IVarPlus 1); CTrig]].
Definition idle (k : cfg) : Prop :=
  k_shown k = None /\ exists v, k_stack k = [FCmds v [CLoop body]] \/
  (exists pre, (pre = [] \/ pre = [FCmds 0 body] \/ pre = [FCmds 0 [CRange 0 [CReset; CLoad (IVarPlus 1); CTrig]]] \/
     pre = [FRange 0 [CReset; CLoad (IVarPlus 1); CTrig]; FCmds 0 []] \/ pre = [FCmds 0 []]) /\ k_stack k = pre ++ [FLoop body; FCmds v []]).
Lemma idle_start : idle (seq_start lux_program).
Proof. split; [reflexivity|]. exists 0. left. reflexivity. Qed.
Lemma idle_step k : idle k -> idle (seq_step 0 k).
Proof.
  intros (Hs & v & H). destruct k as [st mem sh]. cbn [k_shown k_stack] in *. subst sh.
  destruct H as [->|(pre & H & ->)].
  - split; [reflexivity|]. exists v. right. exists []. split; [left; reflexivity|reflexivity].
  - destruct H as [->|[->|[->|[->| ->]]]]; (split; [reflexivity|exists v; right]).
    + exists [FCmds 0 body]. split; [tauto|reflexivity].
    + exists [FCmds 0 [CRange 0 [CReset; CLoad (IVarPlus 1); CTrig]]]. split; [tauto|reflexivity].
    + exists [FRange 0 [CReset; CLoad (IVarPlus 1); CTrig]; FCmds 0 []]. split; [tauto|reflexivity].
    + exists [FCmds 0 []]. split; [tauto|reflexivity].
    + exists []. split; [tauto|reflexivity].
Qed.
Lemma idle_trigger k : idle k -> seq_trigger k = k /\ seq_waiting k = false.
Proof.
  intros (Hs & v & H). destruct k as [st mem sh]. cbn [k_shown k_stack] in *. unfold seq_trigger, seq_waiting. cbn [k_stack].
  destruct H as [->|(pre & H & ->)]; [split; reflexivity|]. destruct H as [->|[->|[->|[->| ->]]]]; split; reflexivity.
Qed.
Lemma empty_livelock k : seq_reach lux_program 0 k -> k_shown k = None /\ seq_waiting k = false /\ seq_trigger k = k.
Proof.
  intros H. assert (I : idle k). { induction H as [|k H IH|k H IH]; [apply idle_start|apply idle_step, IH|]. destruct (idle_trigger k IH) as [-> _]. exact IH. }
  destruct (idle_trigger k I) as [T W]. split; [apply I|]. split; assumption.
Qed.
