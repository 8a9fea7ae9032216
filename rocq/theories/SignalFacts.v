(** Reset and trigger lines of a Luxbeam board (C118). *)
From Coq Require Import ZArith Arith List Bool Lia.
From Verif Require Import PyBase ControllerModel ControllerSpec ControllerFacts SignalSpec.
Import ListNotations.

Definition sg (c : ctrl lux_call) : lines := lux_lines (done_of c).
Definition no_low_fault (c : ctrl lux_call) : Prop := ~ In (L_SoftSync 0, false) (log_of c).
(** What every operation keeps; [k]: edges added. *)
Definition keepsig (c c' : ctrl lux_call) : Prop := (g_bad (sg c) = false -> g_bad (sg c') = false) /\ g_high (sg c') = g_high (sg c) /\ g_edges (sg c') = g_edges (sg c).
Lemma call_sg x c : (exists c', call x c = (c', Ok tt) /\ sg c' = lines_step (sg c) x /\ log_of c' = log_of c ++ [(x, true)]) \/
  (exists c' e, call x c = (c', Err e) /\ sg c' = sg c /\ log_of c' = log_of c ++ [(x, false)]).
Proof.
  unfold call, issue. destruct (hw_faulty (c_hw c) (hw_log (c_hw c)) x); [right; eexists; eexists|left; eexists]; (split; [reflexivity|]); unfold sg, done_of, log_of, done, with_hw; cbn [c_hw hw_log];
    rewrite filter_app, map_app; cbn [filter snd map fst app]; rewrite ?app_nil_r; (split; [|reflexivity]); [reflexivity|]. unfold lux_lines. rewrite fold_left_app. reflexivity.
Qed.
Ltac sc := match goal with
  | H : (_;; _) ?c = _ |- _ => unfold ControllerModel.seq at 1, bind at 1 in H; sc
  | H : context [match call ?x ?c with _ => _ end] |- _ =>
      let c' := fresh "c" in let e := fresh "e" in let E := fresh "E" in let G := fresh "G" in let L := fresh "L" in
      destruct (call_sg x c) as [(c' & E & G & L)|(c' & e & E & G & L)]; rewrite E in H; clear E
  | H : call ?x ?c = _ |- _ =>
      let c' := fresh "c" in let e := fresh "e" in let E := fresh "E" in let G := fresh "G" in let L := fresh "L" in
      destruct (call_sg x c) as [(c' & E & G & L)|(c' & e & E & G & L)]; rewrite E in H; clear E
  end.
Ltac fin := match goal with H : (_, _) = (_, _) |- _ => inversion H; subst; clear H end;
  unfold keepsig; repeat match goal with G : sg _ = _ |- _ => rewrite G; clear G end; cbn [lines_step g_reset g_high g_edges g_bad andb negb]; rewrite ?orb_false_r; (split; [auto|]); try discriminate; auto.
Lemma images_sig l : forall i c c' r, lux_load_images i l c = (c', r) -> sg c' = sg c /\ log_of c' = log_of c ++ skipn (length (log_of c)) (log_of c').
Proof.
  induction l as [|a l IH]; intros i c c' r H; cbn [lux_load_images] in H.
  - inversion H; subst. split; [reflexivity|]. rewrite skipn_all, app_nil_r. reflexivity.
  - sc.
    + destruct (IH _ _ _ _ H) as [S1 S2]. split; [rewrite S1, G; reflexivity|]. rewrite L in S2. rewrite S2. rewrite <- app_assoc, skipn_app, skipn_all, Nat.sub_diag. reflexivity.
    + inversion H; subst. split; [exact G|]. rewrite L, skipn_app, skipn_all, Nat.sub_diag. reflexivity.
Qed.
Lemma initialize_sig c c' r : lux_initialize c = (c', r) -> keepsig c c' /\ (forall u, r = Ok u -> g_reset (sg c') = false).
Proof. intros H. unfold lux_initialize in H. do 5 (sc; [|fin]). unfold base_initialize in H. inversion H; subst; clear H. unfold keepsig. change (sg {| c_init := true; c_invert := _; c_hw := _ |}) with (sg c4). rewrite G3, G2, G1, G0, G. cbn. rewrite !orb_false_r. auto. Qed.
Lemma single_sig a c c' r : lux_load_single a c = (c', r) -> keepsig c c' /\ (forall u, r = Ok u -> g_reset (sg c') = false).
Proof. intros H. unfold lux_load_single, guarded in H. destruct (c_init c); [|fin]. do 6 (sc; [|fin]). fin. Qed.
Lemma multiple_sig l c c' r : lux_load_multiple l c = (c', r) -> keepsig c c' /\ (forall u, r = Ok u -> g_reset (sg c') = false).
Proof.
  intros H. unfold lux_load_multiple, guarded in H. destruct (c_init c); [|fin]. do 4 (sc; [|fin]).
  unfold ControllerModel.seq, bind in H. destruct (lux_load_images 0 l c3) as [c4 [u|e]] eqn:E; destruct (images_sig _ _ _ _ _ E) as [S _].
  - sc; fin.
  - fin.
Qed.
Lemma fire_sig c c' r : lux_fire_software_trigger c = (c', r) ->
  (g_bad (sg c) = false -> g_bad (sg c') = false) /\
  match r with
  | Ok _ => g_high (sg c') = false /\ g_edges (sg c') = (if g_high (sg c) then g_edges (sg c) else S (g_edges (sg c)))
  | Err _ => (sg c' = sg c) \/ (In (L_SoftSync 0, false) (log_of c') /\ g_high (sg c') = true)
  end.
Proof.
  intros H. unfold lux_fire_software_trigger, guarded in H. destruct (c_init c); [|inversion H; subst; auto].
  sc; [sc|]; inversion H; subst; clear H.
  - rewrite G0, G. cbn. rewrite andb_false_r || idtac. split; [auto|]. split; [reflexivity|]. destruct (g_high (sg c)); reflexivity.
  - rewrite G0, G. cbn. split; [auto|]. right. rewrite L0. split; [apply in_or_app; right; left; reflexivity|reflexivity].
  - rewrite G. auto.
Qed.

(** ** The log only grows *)
Definition grows {A} (m : meth lux_call A) : Prop := forall c, exists l, log_of (fst (m c)) = log_of c ++ l.
Lemma grows_same {A} (m : meth lux_call A) : (forall c, log_of (fst (m c)) = log_of c) -> grows m.
Proof. intros H c. exists []. rewrite app_nil_r. apply H. Qed.
Lemma grows_call x : grows (call x).
Proof. intros c. destruct (call_sg x c) as [(c' & -> & _ & L)|(c' & e & -> & _ & L)]; cbn [fst]; eexists; exact L. Qed.
Lemma grows_bind {A B} (m : meth lux_call A) (k : A -> meth lux_call B) : grows m -> (forall a, grows (k a)) -> grows (bind m k).
Proof.
  intros Hm Hk c. unfold bind. destruct (Hm c) as [l L]. destruct (m c) as [c1 [a|e]]; cbn [fst] in *; [|exists l; exact L].
  destruct (Hk a c1) as [l' L']. exists (l ++ l'). rewrite L', L, app_assoc. reflexivity.
Qed.
Lemma grows_seq {A B} (m : meth lux_call A) (k : meth lux_call B) : grows m -> grows k -> grows (m;; k).
Proof. intros. apply grows_bind; auto. Qed.
Lemma grows_guarded {A} (m : meth lux_call A) : grows m -> grows (guarded m).
Proof. intros H c. unfold guarded. destruct (c_init c); [apply H|exists []; rewrite app_nil_r; reflexivity]. Qed.
Lemma grows_mmap {A B} (f : A -> B) (m : meth lux_call A) : grows m -> grows (mmap f m).
Proof. intros H. apply grows_bind; [exact H|intros; apply grows_same; reflexivity]. Qed.
Ltac gr := repeat first [apply grows_mmap | apply grows_guarded | apply grows_seq | apply grows_call | (apply grows_same; reflexivity) | (apply grows_bind; [|intros]) ].
Lemma lux_grows glyphs info o : grows (lux_exec glyphs info o).
Proof.
  destruct o; unfold lux_exec; apply grows_mmap.
  - unfold lux_initialize. gr.
  - unfold lux_close. gr.
  - unfold lux_load_single. gr.
  - unfold lux_load_multiple. gr. generalize 0 as i. induction l as [|a l IH]; intros i; cbn [lux_load_images]; gr. apply IH.
  - unfold base_load_sequence. gr.
  - unfold lux_Nx. gr.
  - unfold lux_Ny. gr.
  - unfold lux_number_image, lux_Nx, lux_Ny. gr. destruct (number_image _ _ _ _); cbn [yield]; gr.
  - unfold lux_fire_software_trigger. gr.
Qed.
Lemma run_grows glyphs info os : forall c c' rs, run_ops (lux_exec glyphs info) c os = (c', rs) -> exists l, log_of c' = log_of c ++ l.
Proof.
  induction os as [|o os IH]; intros c c' rs H; cbn [run_ops] in H; [inversion H; subst; exists []; rewrite app_nil_r; reflexivity|].
  destruct (lux_grows glyphs info o c) as [l L]. destruct (lux_exec glyphs info o c) as [c1 x] eqn:E1. destruct (run_ops _ c1 os) as [c2 xs] eqn:E2. inversion H; subst. cbn [fst] in L.
  destruct (IH _ _ _ E2) as [l' L']. exists (l ++ l'). rewrite L', L, app_assoc. reflexivity.
Qed.

(** ** Every operation *)
Lemma mmap_inv {A B} (f : A -> B) (m : meth lux_call A) c c' r : mmap f m c = (c', r) -> exists r0, m c = (c', r0) /\ r = match r0 with Ok a => Ok (f a) | Err e => Err e end.
Proof. unfold mmap, bind, ret. destruct (m c) as [c1 [a|e]]; intros H; inversion H; subst; eexists; split; reflexivity. Qed.
Lemma quiet_exec glyphs info o c c' r : prepares o = false -> o <> LFire -> lux_exec glyphs info o c = (c', r) -> c' = c.
Proof.
  intros P N H. destruct o; try discriminate P; try (exfalso; apply N; reflexivity); cbn [lux_exec] in H; apply mmap_inv in H; destruct H as (r0 & H & _).
  - inversion H; reflexivity.
  - unfold base_load_sequence, guarded in H. destruct (c_init c); inversion H; reflexivity.
  - unfold lux_Nx, guarded in H. destruct (c_init c); inversion H; reflexivity.
  - unfold lux_Ny, guarded in H. destruct (c_init c); inversion H; reflexivity.
  - unfold lux_number_image, lux_Nx, lux_Ny, guarded, bind, ret in H. destruct (c_init c) eqn:I; [|inversion H; reflexivity]. rewrite ?I in H.
    destruct (number_image _ _ _ _); inversion H; reflexivity.
Qed.
Lemma prep_sig glyphs info o c c' r : prepares o = true -> lux_exec glyphs info o c = (c', r) -> keepsig c c' /\ (forall u, r = Ok u -> g_reset (sg c') = false).
Proof.
  intros P H. destruct o; try discriminate P; cbn [lux_exec] in H; apply mmap_inv in H; destruct H as (r0 & H & R);
    [destruct (initialize_sig _ _ _ H) as [K S]|destruct (single_sig _ _ _ _ H) as [K S]|destruct (multiple_sig _ _ _ _ H) as [K S]];
    (split; [exact K|intros u Eu; destruct r0 as [v|e]; [exact (S v eq_refl)|congruence]]).
Qed.
Lemma exec_good glyphs info o c c' r : lux_exec glyphs info o c = (c', r) -> g_bad (sg c) = false -> g_bad (sg c') = false.
Proof.
  intros H. destruct (prepares o) eqn:P; [exact (proj1 (proj1 (prep_sig _ _ _ _ _ _ P H)))|].
  destruct o; try discriminate P; try (rewrite (quiet_exec _ _ _ _ _ _ P ltac:(discriminate) H); auto).
  cbn [lux_exec] in H. apply mmap_inv in H. destruct H as (r0 & H & _). exact (proj1 (fire_sig _ _ _ H)).
Qed.
Lemma run_good glyphs info os : forall c c' rs, run_ops (lux_exec glyphs info) c os = (c', rs) -> g_bad (sg c) = false -> g_bad (sg c') = false.
Proof.
  induction os as [|o os IH]; intros c c' rs H B; cbn [run_ops] in H; [inversion H; subst; exact B|].
  destruct (lux_exec glyphs info o c) as [c1 x] eqn:E1. destruct (run_ops _ c1 os) as [c2 xs] eqn:E2. inversion H; subst.
  exact (IH _ _ _ E2 (exec_good _ _ _ _ _ _ E1 B)).
Qed.
Lemma exec_edges glyphs info o c c' r : lux_exec glyphs info o c = (c', r) -> g_high (sg c) = false -> no_low_fault c' ->
  g_high (sg c') = false /\ g_edges (sg c') = g_edges (sg c) + fired [o] [r].
Proof.
  intros H L N. destruct (prepares o) eqn:P.
  - destruct (prep_sig _ _ _ _ _ _ P H) as [(_ & K1 & K2) _]. rewrite K1, K2. split; [exact L|]. destruct o; try discriminate P; destruct r; cbn [fired]; apply plus_n_O.
  - destruct o; try discriminate P; try (rewrite (quiet_exec _ _ _ _ _ _ P ltac:(discriminate) H); split; [exact L|]; destruct r; cbn [fired]; apply plus_n_O).
    cbn [lux_exec] in H. apply mmap_inv in H. destruct H as (r0 & H & R). destruct (fire_sig _ _ _ H) as [_ F]. destruct r0 as [u|e]; subst r; cbn [fired].
    + destruct F as [F1 F2]. rewrite L in F2. split; [exact F1|rewrite F2, Nat.add_1_r; reflexivity].
    + destruct F as [F|[F _]]; [rewrite F; split; [exact L|apply plus_n_O]|contradiction].
Qed.
Lemma fired_cons o r os rs : fired (o :: os) (r :: rs) = fired [o] [r] + fired os rs.
Proof. destruct o, r; reflexivity. Qed.
Lemma run_edges glyphs info os : forall c c' rs, run_ops (lux_exec glyphs info) c os = (c', rs) -> g_high (sg c) = false -> no_low_fault c' ->
  g_high (sg c') = false /\ g_edges (sg c') = g_edges (sg c) + fired os rs.
Proof.
  induction os as [|o os IH]; intros c c' rs H L N; cbn [run_ops] in H; [inversion H; subst; split; [exact L|apply plus_n_O]|].
  destruct (lux_exec glyphs info o c) as [c1 x] eqn:E1. destruct (run_ops _ c1 os) as [c2 xs] eqn:E2. inversion H; subst.
  assert (N1 : no_low_fault c1) by (intros I; apply N; destruct (run_grows _ _ _ _ _ _ E2) as [l ->]; apply in_or_app; left; exact I).
  destruct (exec_edges _ _ _ _ _ _ E1 L N1) as [L1 D1]. destruct (IH _ _ _ E2 L1 N) as [L2 D2]. split; [exact L2|].
  rewrite fired_cons, D2, D1. apply eq_sym, Nat.add_assoc.
Qed.

(** ** Histories of a new object *)
Lemma fresh_sg inv faulty : sg (lux_ctrl inv faulty) = lines0.
Proof. reflexivity. Qed.
Lemma hist_good glyphs info inv faulty os c rs : run_ops (lux_exec glyphs info) (lux_ctrl inv faulty) os = (c, rs) -> g_bad (lux_lines (done_of c)) = false.
Proof. intros H. exact (run_good _ _ _ _ _ _ H eq_refl). Qed.
Lemma hist_ready glyphs info c o c' u : prepares o = true -> lux_exec glyphs info o c = (c', Ok u) -> g_reset (lux_lines (done_of c')) = false.
Proof. intros P H. exact (proj2 (prep_sig _ _ _ _ _ _ P H) u eq_refl). Qed.
Lemma hist_edges glyphs info inv faulty os c rs : run_ops (lux_exec glyphs info) (lux_ctrl inv faulty) os = (c, rs) -> ~ In (L_SoftSync 0, false) (log_of c) ->
  g_high (lux_lines (done_of c)) = false /\ g_edges (lux_lines (done_of c)) = fired os rs.
Proof. intros H N. exact (run_edges _ _ _ _ _ _ H eq_refl N). Qed.
(** A trigger whose falling edge failed leaves the line high; the next successful one is lost. *)
Lemma lost_trigger glyphs info c c' u : g_high (lux_lines (done_of c)) = true -> lux_exec glyphs info LFire c = (c', Ok u) ->
  g_edges (lux_lines (done_of c')) = g_edges (lux_lines (done_of c)) /\ g_high (lux_lines (done_of c')) = false.
Proof.
  intros G H. cbn [lux_exec] in H. apply mmap_inv in H. destruct H as (r0 & H & R). destruct r0 as [v|e]; [|discriminate R].
  destruct (fire_sig _ _ _ H) as [_ [F1 F2]]. fold (sg c) in *. fold (sg c'). rewrite G in F2. auto.
Qed.
