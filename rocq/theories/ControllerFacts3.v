(** Queries, unimplemented operations, the with statement, number_image (C108-C110). *)
From Coq Require Import ZArith Arith List Bool Lia.
From Verif Require Import PyBase ControllerModel ControllerSpec ControllerFacts ControllerFacts2.
Import ListNotations.

Lemma alp_unimplemented glyphs info c : alp_exec glyphs info AFire c = (c, Err NotImplementedError) /\
  alp_exec glyphs info ALoadSequence c = (c, Err (if c_init c then NotImplementedError else PlainException)).
Proof. split; [reflexivity|]. cbn. unfold mmap, bind, base_load_sequence, guarded, raise. destruct (c_init c); reflexivity. Qed.
Lemma lux_unimplemented glyphs info c : lux_exec glyphs info LLoadSequence c = (c, Err (if c_init c then NotImplementedError else PlainException)).
Proof. cbn. unfold mmap, bind, base_load_sequence, guarded, raise. destruct (c_init c); reflexivity. Qed.

(** ** Quiet operations *)
Definition asks (x : alp_call) : bool := match x with A_DevInquireWidth | A_DevInquireHeight => true | _ => false end.
Definition loud (l : list alp_call) : list alp_call := filter (fun x => negb (asks x)) l.
Lemma alp_dev_loud l : alp_dev (loud l) = alp_dev l.
Proof. unfold alp_dev. generalize adev0. induction l as [|x l IH]; intros d; [reflexivity|]. cbn [loud filter]. destruct x; cbn [asks negb fold_left]; rewrite <- IH; reflexivity. Qed.
Lemma last_loud l : alp_lastDDRseq (loud l) = alp_lastDDRseq l.
Proof. unfold alp_lastDDRseq. f_equal. generalize (@None nat, 0). induction l as [|x l IH]; intros d; [reflexivity|]. cbn [loud filter]. destruct x; cbn [asks negb fold_left]; rewrite <- IH; reflexivity. Qed.
Lemma loud_app a b : loud (a ++ b) = loud a ++ loud b.
Proof. apply filter_app. Qed.

Ltac calls := repeat match goal with
  | H : context [call ?x ?c] |- _ =>
      let c' := fresh "c" in let E := fresh "E" in let D := fresh "D" in let L := fresh "L" in let J := fresh "J" in let V := fresh "V" in
      destruct (call_cases x c) as [(c' & E & D & L & J & V)|(c' & E & D & L & J & V)]; rewrite E in H; clear E
  end.
(** Whatever the hardware does. *)
Lemma alp_quiet_loud glyphs info o c c' r : alp_quiet o = true -> alp_exec glyphs info o c = (c', r) ->
  loud (done_of c') = loud (done_of c) /\ c_init c' = c_init c /\ c_invert c' = c_invert c.
Proof.
  intros Q E. destruct o; try discriminate Q; cbn [alp_exec] in E.
  - unfold mmap, bind, base_load_sequence, guarded, raise in E. destruct (c_init c) eqn:Hi; inversion E; subst; auto.
  - unfold mmap, bind, alp_Nx, guarded, seq, bind, ret in E. destruct (c_init c) eqn:Hi; [|inversion E; subst; auto]. calls; inversion E; subst; rewrite D, ?loud_app, ?app_nil_r; cbn; rewrite ?app_nil_r; repeat split; congruence.
  - unfold mmap, bind, alp_Ny, guarded, seq, bind, ret in E. destruct (c_init c) eqn:Hi; [|inversion E; subst; auto]. calls; inversion E; subst; rewrite D, ?loud_app, ?app_nil_r; cbn; rewrite ?app_nil_r; repeat split; congruence.
  - unfold mmap, bind, alp_number_image, alp_Nx, alp_Ny, guarded, seq, bind, ret in E. destruct (c_init c) eqn:Hi; [|inversion E; subst; auto].
    calls; rewrite ?J, ?Hi in E.
    + assert (K : loud (done_of c1) = loud (done_of c)) by (rewrite D0, D, !loud_app; cbn; rewrite !app_nil_r; reflexivity).
      unfold yield in E. destruct (number_image glyphs i (ai_width info) (ai_height info)); cbn in E; inversion E; subst; repeat split; congruence.
    + inversion E; subst. rewrite D0, D, loud_app. cbn. rewrite app_nil_r. repeat split; congruence.
    + inversion E; subst. rewrite D. repeat split; congruence.
  - unfold mmap, bind, base_fire_software_trigger, raise in E. inversion E; subst; auto.
Qed.
Lemma alp_quiet_display glyphs info o c c' r : alp_quiet o = true -> alp_exec glyphs info o c = (c', r) ->
  alp_dev (done_of c') = alp_dev (done_of c) /\ c_init c' = c_init c.
Proof. intros Q E. destruct (alp_quiet_loud _ _ _ _ _ _ Q E) as (L & I & _). rewrite <- (alp_dev_loud (done_of c')), L, alp_dev_loud. auto. Qed.
Lemma lux_quiet_same glyphs info o c : lux_quiet o = true -> fst (lux_exec glyphs info o c) = c.
Proof.
  intros Q. destruct o; try discriminate Q; cbn [lux_exec]; unfold mmap, bind, base_load_sequence, lux_Nx, lux_Ny, lux_number_image, lux_close, guarded, raise, ret, bind; try reflexivity; destruct (c_init c) eqn:Hi; try reflexivity.
  unfold lux_Nx, lux_Ny, guarded, ret. rewrite ?Hi. cbv beta iota. rewrite ?Hi. unfold yield, raise, ret. destruct (number_image glyphs i (li_cols info) (li_rows info)); reflexivity.
Qed.

(** ** Histories on hardware that does not fail *)
Definition same (c k : ctrl alp_call) : Prop :=
  c_init c = c_init k /\ c_invert c = c_invert k /\ loud (done_of c) = loud (done_of k) /\ faultless c /\ faultless k.
Definition agree {A} (m : meth alp_call A) : Prop := forall c k, same c k -> snd (m c) = snd (m k) /\ same (fst (m c)) (fst (m k)).
Lemma agree_ret {A} (a : A) : agree (ret a). Proof. intros c k H. split; [reflexivity|exact H]. Qed.
Lemma agree_raise {A} e : @agree A (raise e). Proof. intros c k H. split; [reflexivity|exact H]. Qed.
Lemma agree_call x : agree (call x).
Proof.
  intros c k (I & V & L & F & F'). unfold call, issue. rewrite (F _ x), (F' _ x). cbn [fst snd]. split; [reflexivity|].
  unfold same, done_of, log_of. cbn [c_init c_invert c_hw with_hw hw_log]. repeat split; try assumption. rewrite !done_app, !loud_app. unfold done_of, log_of in L. rewrite L. reflexivity.
Qed.
Lemma agree_bind {A B} (m : meth alp_call A) (f : A -> meth alp_call B) : agree m -> (forall a, agree (f a)) -> agree (bind m f).
Proof.
  intros Hm Hf c k H. unfold bind. destruct (Hm c k H) as [S1 S2]. destruct (m c) as [c1 [a|e]], (m k) as [k1 [b|e']]; cbn [fst snd] in *; try discriminate S1.
  - injection S1 as ->. apply Hf. exact S2.
  - split; [injection S1 as ->; reflexivity|exact S2].
Qed.
Lemma agree_seq {A B} (m : meth alp_call A) (f : meth alp_call B) : agree m -> agree f -> agree (seq m f).
Proof. intros Hm Hf. apply agree_bind; [exact Hm|intros; exact Hf]. Qed.
Lemma agree_guarded {A} (m : meth alp_call A) : agree m -> agree (guarded m).
Proof. intros Hm c k H. unfold guarded. rewrite <- (proj1 H). destruct (c_init c); [apply Hm, H|split; [reflexivity|exact H]]. Qed.
Lemma agree_mmap {A B} (f : A -> B) (m : meth alp_call A) : agree m -> agree (mmap f m).
Proof. intros H. apply agree_bind; [exact H|intros; apply agree_ret]. Qed.
Lemma agree_exec glyphs info o : agree (alp_exec glyphs info o).
Proof.
  destruct o; cbn [alp_exec]; apply agree_mmap.
  - unfold alp_initialize. apply agree_seq; [apply agree_call|]. apply agree_seq.
    + intros c k H. rewrite <- (proj1 (proj2 H)). destruct (c_invert c); [apply agree_call, H|split; [reflexivity|exact H]].
    + intros c k (I & V & L & F & F'). split; [reflexivity|]. repeat split; assumption.
  - unfold alp_close. apply agree_seq; [apply agree_call|]. apply agree_seq; [|apply agree_call].
    intros c k H. assert (E : alp_lastDDRseq (done (hw_log (c_hw c))) = alp_lastDDRseq (done (hw_log (c_hw k)))).
    { destruct H as (_ & _ & L & _). unfold done_of, log_of in L. rewrite <- last_loud, L, last_loud. reflexivity. }
    rewrite <- E. destruct (alp_lastDDRseq _); [apply agree_call, H|split; [reflexivity|exact H]].
  - unfold alp_load_single. apply agree_guarded. repeat (apply agree_seq; [apply agree_call|]). apply agree_call.
  - unfold alp_load_multiple. apply agree_guarded. repeat (apply agree_seq; [apply agree_call|]). destruct (np_concatenate l); [repeat (apply agree_seq; [apply agree_call|]); apply agree_call|apply agree_raise].
  - apply agree_guarded, agree_raise.
  - apply agree_guarded, agree_seq; [apply agree_call|apply agree_ret].
  - apply agree_guarded, agree_seq; [apply agree_call|apply agree_ret].
  - apply agree_guarded. apply agree_bind; [apply agree_guarded, agree_seq; [apply agree_call|apply agree_ret]|]. intros nx.
    apply agree_bind; [apply agree_guarded, agree_seq; [apply agree_call|apply agree_ret]|]. intros ny. unfold yield. destruct (number_image glyphs i nx ny); [apply agree_ret|apply agree_raise].
  - apply agree_raise.
Qed.
Lemma quiet_same glyphs info o c k : alp_quiet o = true -> same c k -> same (fst (alp_exec glyphs info o c)) k.
Proof.
  intros Q H. destruct (agree_exec glyphs info o c k H) as [_ (I & V & L & F & F')].
  destruct (alp_exec glyphs info o k) as [k1 r] eqn:E. cbn [fst] in *. destruct (alp_quiet_loud _ _ _ _ _ _ Q E) as (L' & I' & V').
  destruct H as (_ & _ & _ & _ & Fk). repeat split; try congruence; assumption.
Qed.
Lemma quiet_histories glyphs info os : forall c k, same c k ->
  same (fst (run_ops (alp_exec glyphs info) c os)) (fst (run_ops (alp_exec glyphs info) k (without alp_quiet os))) /\
  answers alp_quiet os (snd (run_ops (alp_exec glyphs info) c os)) = snd (run_ops (alp_exec glyphs info) k (without alp_quiet os)).
Proof.
  induction os as [|o os IH]; intros c k H; [split; [exact H|reflexivity]|].
  cbn [run_ops without filter]. destruct (alp_quiet o) eqn:Q; cbn [negb].
  - assert (S1 := quiet_same glyphs info o c k Q H). destruct (alp_exec glyphs info o c) as [c1 x]. cbn [fst] in S1. specialize (IH c1 k S1).
    destruct (run_ops (alp_exec glyphs info) c1 os) as [c2 xs]. cbn [fst snd] in *. split; [apply IH|]. unfold answers. cbn [combine filter fst]. rewrite Q. cbn [negb]. apply IH.
  - destruct (agree_exec glyphs info o c k H) as [R S1]. cbn [run_ops]. destruct (alp_exec glyphs info o c) as [c1 x], (alp_exec glyphs info o k) as [k1 y]. cbn [fst snd] in *. subst y.
    specialize (IH c1 k1 S1). fold (without alp_quiet os). destruct (run_ops (alp_exec glyphs info) c1 os) as [c2 xs], (run_ops (alp_exec glyphs info) k1 (without alp_quiet os)) as [k2 ys]. cbn [fst snd] in *. split; [apply IH|].
    unfold answers. cbn [combine filter fst]. rewrite Q. cbn [negb map snd]. f_equal. apply IH.
Qed.
Lemma alp_quiet_histories glyphs info invert os : let run os := run_ops (alp_exec glyphs info) (alp_ctrl invert no_fault) os in
  alp_dev (done_of (fst (run os))) = alp_dev (done_of (fst (run (without alp_quiet os)))) /\ answers alp_quiet os (snd (run os)) = snd (run (without alp_quiet os)).
Proof.
  cbv zeta. destruct (quiet_histories glyphs info os (alp_ctrl invert no_fault) (alp_ctrl invert no_fault)) as [(_ & _ & L & _) A]; [repeat split; intros; reflexivity|].
  split; [|exact A]. rewrite <- alp_dev_loud, L, alp_dev_loud. reflexivity.
Qed.
(** The Luxbeam controller needs no assumption about the hardware. *)
Lemma lux_quiet_histories glyphs info os : forall c, let run os := run_ops (lux_exec glyphs info) c os in
  fst (run os) = fst (run (without lux_quiet os)) /\ answers lux_quiet os (snd (run os)) = snd (run (without lux_quiet os)).
Proof.
  cbv zeta. induction os as [|o os IH]; intros c; [split; reflexivity|]. cbn [run_ops without filter]. destruct (lux_quiet o) eqn:Q; cbn [negb].
  - assert (E := lux_quiet_same glyphs info o c Q). destruct (lux_exec glyphs info o c) as [c1 x]. cbn [fst] in E. subst c1. specialize (IH c).
    destruct (run_ops (lux_exec glyphs info) c os) as [c2 xs]. cbn [fst snd] in *. split; [apply IH|]. unfold answers. cbn [combine filter fst]. rewrite Q. cbn [negb]. apply IH.
  - cbn [run_ops]. destruct (lux_exec glyphs info o c) as [c1 x]. specialize (IH c1). fold (without lux_quiet os).
    destruct (run_ops (lux_exec glyphs info) c1 os) as [c2 xs], (run_ops (lux_exec glyphs info) c1 (without lux_quiet os)) as [k2 ys]. cbn [fst snd] in *. split; [apply IH|].
    unfold answers. cbn [combine filter fst]. rewrite Q. cbn [negb map snd]. f_equal. apply IH.
Qed.

(** ** The with statement *)
Lemma with_never_runs {A} py311 (body : meth alp_call A) c : alp_with py311 body c = (c, Err (if py311 then TypeError else AttributeError)).
Proof. reflexivity. Qed.
Lemma with_closes_refuted : ~ forall py311 (body : meth alp_call unit) c c' r, c_init c = true -> faultless c -> (forall k, faultless k -> faultless (fst (body k))) ->
  alp_with py311 body c = (c', r) -> In A_Free (done_of c').
Proof.
  intros H. specialize (H true (ret tt) (fst (alp_initialize (alp_ctrl false no_fault))) _ _ eq_refl (fun _ _ => eq_refl) (fun k F => F) eq_refl).
  vm_compute in H. destruct H as [H|[]]; discriminate H.
Qed.
Lemma close_frees c : faultless c -> exists c', alp_close c = (c', Ok tt) /\ In A_Free (done_of c').
Proof.
  intros F. unfold alp_close, seq, bind. destruct (call_faultless A_Halt c F) as (c1 & -> & F1 & _).
  assert (T : forall k, faultless k -> exists c', call A_Free k = (c', Ok tt) /\ In A_Free (done_of c')).
  { intros k Fk. unfold call, issue. rewrite (Fk _ A_Free). eexists. split; [reflexivity|]. unfold done_of, log_of. cbn [c_hw with_hw hw_log]. rewrite done_app. apply in_or_app. right. left. reflexivity. }
  destruct (alp_lastDDRseq _).
  - destruct (call_faultless A_FreeSeq c1 F1) as (c2 & -> & F2 & _). apply T, F2.
  - apply T, F1.
Qed.
Lemma with_enter_would_close {A} py311 (body : meth alp_call A) c c' r : faultless c -> (forall k, faultless k -> faultless (fst (body k))) ->
  with_stmt py311 (Some (ret tt)) (Some alp_exit) body c = (c', r) -> In A_Free (done_of c') /\ r = snd (body c).
Proof.
  intros F B E. unfold with_stmt, seq, bind, ret in E. specialize (B c F). destruct (body c) as [c1 x]. cbn [fst snd] in *.
  destruct (close_frees c1 B) as (c2 & E2 & I2). unfold alp_exit in E. rewrite E2 in E. inversion E; subst. auto.
Qed.

(** ** number_image *)
Lemma np_has_bool_spec v : np_has_bool v = true <-> ~ np_bool_gone v.
Proof.
  unfold np_has_bool, np_bool_gone. destruct v as [a b]. cbn [fst snd]. rewrite negb_true_iff, andb_false_iff. rewrite Nat.eqb_neq, Nat.leb_gt. lia.
Qed.
Lemma number_image_ok glyphs i nx ny : ~ np_bool_gone (numpy glyphs) -> exists a, number_image glyphs i nx ny = Ok a /\ image_wf a /\ im_h a = ny /\ im_w a = nx.
Proof.
  intros H. apply np_has_bool_spec in H. unfold number_image. rewrite H. eexists. split; [reflexivity|]. unfold image_wf. cbn. rewrite map_length, seq_length. auto.
Qed.
Lemma number_image_gone glyphs i nx ny : np_bool_gone (numpy glyphs) -> number_image glyphs i nx ny = Err AttributeError.
Proof. intros H. unfold number_image. destruct (np_has_bool (numpy glyphs)) eqn:E; [apply np_has_bool_spec in E; contradiction|reflexivity]. Qed.
Lemma alp_asks_number glyphs info i c : c_init c = true -> faultless c ->
  snd (alp_exec glyphs info (ANumberImage i) c) = rmap OImage (number_image glyphs i (ai_width info) (ai_height info)).
Proof.
  intros Hi F. cbn [alp_exec]. unfold mmap, alp_number_image, alp_Nx, alp_Ny, guarded, seq, bind. rewrite !Hi.
  destruct (call_faultless A_DevInquireWidth c F) as (c1 & -> & F1 & I1). cbn [ret]. unfold ret. rewrite I1, Hi.
  destruct (call_faultless A_DevInquireHeight c1 F1) as (c2 & -> & F2 & I2). unfold yield. destruct (number_image glyphs i (ai_width info) (ai_height info)); reflexivity.
Qed.
Lemma lux_asks_number glyphs info i c : c_init c = true ->
  snd (lux_exec glyphs info (LNumberImage i) c) = rmap OImage (number_image glyphs i (li_cols info) (li_rows info)).
Proof.
  intros Hi. cbn [lux_exec]. unfold mmap, lux_number_image, lux_Nx, lux_Ny, guarded, bind, ret. rewrite !Hi. unfold yield. destruct (number_image glyphs i (li_cols info) (li_rows info)); reflexivity.
Qed.
Lemma number_image_controllers glyphs ai li i ca cl : c_init ca = true -> (forall log x, hw_faulty (c_hw ca) log x = false) -> c_init cl = true ->
  (~ np_bool_gone (numpy glyphs) -> exists a b, snd (alp_exec glyphs ai (ANumberImage i) ca) = Ok (OImage a) /\ image_wf a /\ im_h a = ai_height ai /\ im_w a = ai_width ai /\
     snd (lux_exec glyphs li (LNumberImage i) cl) = Ok (OImage b) /\ image_wf b /\ im_h b = li_rows li /\ im_w b = li_cols li) /\
  (np_bool_gone (numpy glyphs) -> snd (alp_exec glyphs ai (ANumberImage i) ca) = Err AttributeError /\ snd (lux_exec glyphs li (LNumberImage i) cl) = Err AttributeError).
Proof.
  intros Ia F Il. rewrite alp_asks_number, lux_asks_number by assumption. split; intros H.
  - destruct (number_image_ok glyphs i (ai_width ai) (ai_height ai) H) as (a & -> & A). destruct (number_image_ok glyphs i (li_cols li) (li_rows li) H) as (b & -> & B). exists a, b. cbn. intuition.
  - rewrite !number_image_gone by exact H. split; reflexivity.
Qed.
Lemma number_image_refuted : ~ forall glyphs info i c, np_allowed (numpy glyphs) -> c_init c = true -> (forall log x, hw_faulty (c_hw c) log x = false) ->
  exists a, snd (alp_exec glyphs info (ANumberImage i) c) = Ok (OImage a).
Proof.
  intros H. destruct (H {| glyph := fun _ _ _ _ => false; numpy := (1, 26) |} {| ai_width := 2; ai_height := 1; ai_min_picture_time := 44 |} 1%Z (fst (alp_initialize (alp_ctrl false no_fault)))) as [a E].
  - right. cbn. lia.
  - reflexivity.
  - reflexivity.
  - discriminate E.
Qed.

(** ** Construction, initialisation, closing, sizes *)
Lemma new_controllers invert faulty :
  alp_new true invert {| hw_log := []; hw_faulty := faulty |} = Ok (alp_ctrl invert faulty) /\ (forall h, alp_new false invert h = Err ModuleNotFoundError).
Proof. split; reflexivity. Qed.
Lemma new_lux invert faulty :
  lux_new true invert {| hw_log := []; hw_faulty := faulty |} = Ok (lux_ctrl invert faulty) /\ (forall h, lux_new false invert h = Err ModuleNotFoundError).
Proof. split; reflexivity. Qed.
Lemma alp_initialize_done c c' r : alp_initialize c = (c', r) -> c_invert c' = c_invert c /\
  (r = Ok tt -> c_init c' = true /\ done_of c' = done_of c ++ A_Initialize :: (if c_invert c then [A_ProjInversionEnable] else [])) /\ (r <> Ok tt -> c_init c' = c_init c).
Proof.
  intros E. unfold alp_initialize in E. unfold seq, bind in E. destruct (call_cases A_Initialize c) as [(c1 & E1 & D1 & _ & I1 & V1)|(c1 & E1 & D1 & _ & I1 & V1)]; rewrite E1 in E.
  - destruct (c_invert c1) eqn:V; rewrite <- V1.
    + destruct (call_cases A_ProjInversionEnable c1) as [(c2 & E2 & D2 & _ & I2 & V2)|(c2 & E2 & D2 & _ & I2 & V2)]; rewrite E2 in E.
      * unfold base_initialize in E. inversion E; subst. cbn [c_invert c_init]. split; [congruence|]. split; [|congruence]. intros _. split; [reflexivity|].
        change (done_of c2 = done_of c ++ [A_Initialize; A_ProjInversionEnable]). rewrite D2, D1, <- app_assoc. reflexivity.
      * inversion E; subst. split; [congruence|]. split; [discriminate|]. congruence.
    + unfold base_initialize in E. inversion E; subst. cbn [c_invert c_init]. split; [congruence|]. split; [|congruence]. intros _. split; [reflexivity|]. exact D1.
  - inversion E; subst. split; [congruence|]. split; [discriminate|]. congruence.
Qed.
Lemma last_step_some l : forall o n, (exists k, fst (fold_left alp_last_step l (o, n)) = Some k) <-> (pending l \/ (~ In A_FreeSeq l /\ exists k, o = Some k)).
Proof.
  induction l as [|x l IH]; intros o n; cbn [fold_left].
  - split; [intros [k H]; right; cbn in *; eauto|]. intros [(l1 & a & b & l2 & E & _)|(_ & H)]; [destruct l1; discriminate E|exact H].
  - assert (P : pending (x :: l) <-> pending l \/ (~ In A_FreeSeq l /\ exists a b, x = A_SeqAlloc a b)).
    { split.
      - intros (l1 & a & b & l2 & E & N). destruct l1 as [|y l1]; cbn in E; injection E as -> ->; [right; eauto|left; exists l1, a, b, l2; auto].
      - intros [(l1 & a & b & l2 & -> & N)|(N & a & b & ->)]; [exists (x :: l1), a, b, l2; auto|exists [], a, b, l; auto]. }
    rewrite P. clear P. destruct x; cbn [alp_last_step fst snd]; rewrite IH; (split; [intros [H|(H & k & K)]|intros [[H|(H & a & b & K)]|(H & k & K)]]); try (left; assumption); try (left; left; assumption); try discriminate;
      try (right; split; [intros [X|X]; [discriminate X|exact (H X)]|eauto]; fail); try (right; split; [intros X; apply H; right; exact X|eauto]; fail).
    + left. right. split; [exact H|eauto].
    + right. split; [exact H|eauto].
    + exfalso. apply H. left. reflexivity.
Qed.
Lemma last_some l : (exists k, alp_lastDDRseq l = Some k) <-> pending l.
Proof. unfold alp_lastDDRseq. rewrite last_step_some. split; [intros [H|(_ & k & H)]; [exact H|discriminate H]|auto]. Qed.
Lemma alp_close_done c c' : alp_close c = (c', Ok tt) ->
  (pending (done_of c) /\ done_of c' = done_of c ++ [A_Halt; A_FreeSeq; A_Free]) \/ (~ pending (done_of c) /\ done_of c' = done_of c ++ [A_Halt; A_Free]).
Proof.
  intros E. unfold alp_close, seq, bind in E. destruct (call_cases A_Halt c) as [(c1 & E1 & D1 & _)|(c1 & E1 & D1 & _)]; rewrite E1 in E; [|discriminate E].
  assert (P : (exists k, alp_lastDDRseq (done (hw_log (c_hw c1))) = Some k) <-> pending (done_of c)).
  { rewrite last_some. change (done (hw_log (c_hw c1))) with (done_of c1). rewrite D1. rewrite <- !last_some. unfold alp_lastDDRseq. rewrite fold_left_app. reflexivity. }
  destruct (alp_lastDDRseq _) as [k|].
  - left. split; [apply P; eauto|]. destruct (call_cases A_FreeSeq c1) as [(c2 & E2 & D2 & _)|(c2 & E2 & D2 & _)]; rewrite E2 in E; [|discriminate E].
    destruct (call_cases A_Free c2) as [(c3 & E3 & D3 & _)|(c3 & E3 & D3 & _)]; rewrite E3 in E; inversion E; subst. rewrite D3, D2, D1, <- !app_assoc. reflexivity.
  - right. split; [intros H; apply P in H; destruct H; discriminate|]. destruct (call_cases A_Free c1) as [(c3 & E3 & D3 & _)|(c3 & E3 & D3 & _)]; rewrite E3 in E; inversion E; subst. rewrite D3, D1, <- !app_assoc. reflexivity.
Qed.
Lemma sizes glyphs ai li ca cl : c_init ca = true -> (forall log x, hw_faulty (c_hw ca) log x = false) -> c_init cl = true ->
  snd (alp_exec glyphs ai ANx ca) = Ok (ONat (ai_width ai)) /\ snd (alp_exec glyphs ai ANy ca) = Ok (ONat (ai_height ai)) /\
  snd (lux_exec glyphs li LNx cl) = Ok (ONat (li_cols li)) /\ snd (lux_exec glyphs li LNy cl) = Ok (ONat (li_rows li)).
Proof.
  intros Ia F Il. cbn [alp_exec lux_exec]. unfold mmap, alp_Nx, alp_Ny, lux_Nx, lux_Ny, guarded, seq, bind, ret. rewrite Ia, Il.
  destruct (call_faultless A_DevInquireWidth ca F) as (c1 & -> & _). destruct (call_faultless A_DevInquireHeight ca F) as (c2 & -> & _). auto.
Qed.
