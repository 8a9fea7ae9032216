From Coq Require Import Reals Lra ZArith Arith List Bool Lia.
From Coquelicot Require Import Complex.
From Verif Require Import Cx Sums DFT PyBase ProfileModel SlmModel LibModel DmdModel DmdSpec DmdFacts DmdFacts2 DmdFacts3 SimModel SimSpec SimFacts SimFacts2 SimFacts5 SimExamples
  ControllerModel ControllerSpec ControllerFacts ControllerFacts2 ControllerFacts3 ShowModel ShowSpec.
Import ListNotations.
Open Scope nat_scope.

Lemma state_image_wf ny nx f a : state_image (DBool ny nx f) = Some a -> image_wf a /\ im_h a = ny /\ im_w a = nx /\
  forall i j, i < ny -> j < nx -> nth_error (im_pix a) (i * nx + j) = Some (f i j).
Proof.
  intros H. inversion H; subst. unfold image_wf. cbn [im_h im_w im_pix]. rewrite flatten_length. repeat split. intros i j Hi Hj.
  rewrite (nth_error_nth' _ false) by (rewrite flatten_length; nia). rewrite nth_flatten by assumption. reflexivity.
Qed.
Lemma state_images_spec l : forall t, state_images l = Some t -> length t = length l /\
  forall k ny nx f, nth_error l k = Some (DBool ny nx f) -> exists a, nth_error t k = Some a /\ state_image (DBool ny nx f) = Some a.
Proof.
  induction l as [|st l IH]; intros t H; cbn [state_images] in H.
  - inversion H; subst. split; [reflexivity|]. intros [|k] ? ? ? K; discriminate K.
  - destruct (state_image st) as [a|] eqn:Ea; [|discriminate]. destruct (state_images l) as [t'|] eqn:Et; [|discriminate]. inversion H; subst.
    destruct (IH _ eq_refl) as (L & N). split; [cbn [length]; rewrite L; reflexivity|]. intros [|k] ny nx f K; cbn [nth_error] in K |- *.
    + inversion K; subst. exists a. split; [reflexivity|exact Ea].
    + apply N, K.
Qed.
Lemma state_images_wf ny nx l : forall t, state_images l = Some t -> (forall st, In st l -> exists f, st = DBool ny nx f) ->
  Forall (fun a => image_wf a /\ im_h a = ny /\ im_w a = nx) t.
Proof.
  induction l as [|st l IH]; intros t H W; cbn [state_images] in H.
  - inversion H. constructor.
  - destruct (state_image st) as [a|] eqn:Ea; [|discriminate]. destruct (state_images l) as [t'|] eqn:Et; [|discriminate]. inversion H; subst.
    destruct (W st (or_introl eq_refl)) as (f & ->). destruct (state_image_wf _ _ _ _ Ea) as (A & B & C & _). constructor; [auto|]. apply IH; [reflexivity|]. intros s Hs. apply W. right. exact Hs.
Qed.

(** ** Inversion *)
Lemma inv_app a b : board_inverted (a ++ b) = fold_left inv_step b (board_inverted a).
Proof. unfold board_inverted. apply fold_left_app. Qed.
Definition plain {A} (m : meth alp_call A) : Prop := forall c, let c' := fst (m c) in
  board_inverted (done_of c') = board_inverted (done_of c) /\ c_init c' = c_init c /\ c_invert c' = c_invert c.
Lemma plain_ret {A} (a : A) : plain (ret a). Proof. intros c. auto. Qed.
Lemma plain_raise {A} e : @plain A (raise e). Proof. intros c. auto. Qed.
Lemma plain_call x : (forall b, inv_step b x = b) -> plain (call x).
Proof.
  intros H c. destruct (call_cases x c) as [(c' & -> & D & _ & I & V)|(c' & -> & D & _ & I & V)]; cbn [fst]; rewrite D; split; auto. rewrite inv_app. cbn [fold_left]. apply H.
Qed.
Lemma plain_bind {A B} (m : meth alp_call A) (k : A -> meth alp_call B) : plain m -> (forall a, plain (k a)) -> plain (bind m k).
Proof.
  intros Hm Hk c. unfold bind. specialize (Hm c). destruct (m c) as [c1 [a|e]]; cbn [fst] in *; [|exact Hm]. destruct (Hk a c1) as (P & Q & S). destruct Hm as (P' & Q' & S').
  repeat split; congruence.
Qed.
Lemma plain_seq {A B} (m : meth alp_call A) (k : meth alp_call B) : plain m -> plain k -> plain (seq m k).
Proof. intros. apply plain_bind; auto. Qed.
Lemma plain_guarded {A} (m : meth alp_call A) : plain m -> plain (guarded m).
Proof. intros Hm c. unfold guarded. destruct (c_init c) eqn:E; [rewrite <- E; apply Hm|cbn [fst]; auto]. Qed.
Lemma plain_mmap {A B} (f : A -> B) (m : meth alp_call A) : plain m -> plain (mmap f m).
Proof. intros H. apply plain_bind; [exact H|intros; apply plain_ret]. Qed.
Ltac plains := repeat first [apply plain_mmap | apply plain_guarded | apply plain_seq | (apply plain_call; intros; reflexivity) | apply plain_ret | apply plain_raise
  | (apply plain_bind; [|intros]) ].
Lemma alp_plain glyphs info o : o <> AInitialize -> plain (alp_exec glyphs info o).
Proof.
  intros N. destruct o; unfold alp_exec; apply plain_mmap.
  - congruence.
  - unfold alp_close. plains. intros c. destruct (alp_lastDDRseq _); [apply plain_call; intros; reflexivity|cbn [fst]; auto].
  - unfold alp_load_single. plains.
  - unfold alp_load_multiple. apply plain_guarded. do 5 (apply plain_seq; [plains|]). destruct (np_concatenate l); plains.
  - unfold base_load_sequence. plains.
  - unfold alp_Nx. plains.
  - unfold alp_Ny. plains.
  - unfold alp_number_image, alp_Nx, alp_Ny. plains. destruct (number_image _ _ _ _); cbn [yield]; plains.
  - unfold base_fire_software_trigger. plains.
Qed.
Lemma exec_initialize glyphs info c c' r : alp_exec glyphs info AInitialize c = (c', r) -> c_invert c' = c_invert c /\
  (r = Ok OUnit -> c_init c' = true /\ board_inverted (done_of c') = c_invert c).
Proof.
  cbn [alp_exec]. unfold mmap, bind. destruct (alp_initialize c) as [c1 r1] eqn:E. destruct (alp_initialize_done _ _ _ E) as (V & K & _).
  destruct r1 as [[]|e]; intros H; inversion H; subst; split; auto; [|discriminate]. intros _. destruct (K eq_refl) as (I & D). split; [exact I|]. rewrite D.
  replace (A_Initialize :: (if c_invert c then [A_ProjInversionEnable] else [])) with ([A_Initialize] ++ (if c_invert c then [A_ProjInversionEnable] else [])) by reflexivity.
  rewrite !inv_app. destruct (c_invert c); reflexivity.
Qed.
Lemma hist_inverted glyphs info os : forall c c' rs, (c_init c = true -> board_inverted (done_of c) = c_invert c) ->
  run_ops (alp_exec glyphs info) c os = (c', rs) -> (forall r, In (AInitialize, r) (combine os rs) -> r = Ok OUnit) ->
  c_invert c' = c_invert c /\ (c_init c' = true -> board_inverted (done_of c') = c_invert c).
Proof.
  induction os as [|o os IH]; intros c c' rs H E N; cbn [run_ops] in E.
  - inversion E; subst. auto.
  - destruct (alp_exec glyphs info o c) as [c1 x] eqn:E1. destruct (run_ops (alp_exec glyphs info) c1 os) as [c2 xs] eqn:E2. inversion E; subst.
    assert (K : c_invert c1 = c_invert c /\ (c_init c1 = true -> board_inverted (done_of c1) = c_invert c)).
    { assert (D : o = AInitialize \/ o <> AInitialize) by (destruct o; auto; right; discriminate). destruct D as [->|D].
      - destruct (exec_initialize _ _ _ _ _ E1) as (V & K). split; [exact V|]. intros _. apply K, N. left. reflexivity.
      - pose proof (alp_plain glyphs info o D c) as P. rewrite E1 in P. cbn [fst] in P. destruct P as (P & Q & S). split; [exact S|]. rewrite P, Q. exact H. }
    destruct K as (V & K). destruct (IH c1 c' xs) as (A & B); [rewrite V; exact K|exact E2| |].
    + intros r Hr. apply N. right. exact Hr.
    + rewrite V in A, B. auto.
Qed.

(** ** ALP *)
Lemma frames_mirror data l h w k i j a : frames_show data l h w -> nth_error l k = Some a -> i < h -> j < w -> length (im_pix a) = h * w ->
  exists z b, nth_error data (k * (h * w) + (i * w + j)) = Some z /\ nth_error (im_pix a) (i * w + j) = Some b /\ z = (if b then 255%Z else 0%Z).
Proof.
  intros (L & F) Ha Hi Hj La. assert (Hk : k < length l) by (apply nth_error_Some; congruence). assert (P : i * w + j < h * w) by nia.
  specialize (F k (i * w + j) Hk P). rewrite (nth_error_nth _ _ _ Ha) in F.
  rewrite (nth_error_nth' data (-1)%Z) by (rewrite L; nia). rewrite (nth_error_nth' (im_pix a) false) by (rewrite La; exact P). eexists. eexists. repeat split. exact F.
Qed.
Lemma alp_shows_single glyphs info invert faulty os c rs d ny nx f a c' :
  run_ops (alp_exec glyphs info) (alp_ctrl invert faulty) os = (c, rs) -> (forall r, In (AInitialize, r) (combine os rs) -> r = Ok OUnit) ->
  d_state d = DBool ny nx f -> state_image (d_state d) = Some a -> alp_load_single a c = (c', Ok tt) ->
  forall i j, i < ny -> j < nx -> alp_mirror (done_of c') ny nx 0 i j (xorb (f i j) invert).
Proof.
  intros E N D A R i j Hi Hj. rewrite D in A. destruct (state_image_wf _ _ _ _ A) as (W & H1 & H2 & P).
  destruct (hist_inverted _ _ _ (alp_ctrl invert faulty) c rs ltac:(discriminate) E N) as (_ & V).
  assert (Hc : c_init c = true). { unfold alp_load_single, guarded in R. destruct (c_init c); [reflexivity|discriminate]. }
  destruct (alp_load_single_dev _ _ _ R W) as ((q & data & Rn & Fr & Dt & _ & S) & _). rewrite H1, H2 in S.
  destruct (frames_mirror data [a] ny nx 0 i j a S eq_refl Hi Hj) as (z & b & Z1 & Z2 & Z3); [unfold image_wf in W; congruence|].
  assert (T : b = f i j) by (specialize (P i j Hi Hj); congruence). subst b.
  exists q, data, z. repeat split; [exact Rn|rewrite Fr; lia|exact Dt|exact Z1|rewrite Z3; destruct (f i j); auto|].
  rewrite (alp_load_single_done _ _ _ R), inv_app. cbn [fold_left inv_step]. rewrite (V Hc), Z3. destruct (f i j); reflexivity.
Qed.
Lemma alp_shows_multiple glyphs info invert faulty os c rs l t c' ny nx :
  run_ops (alp_exec glyphs info) (alp_ctrl invert faulty) os = (c, rs) -> (forall r, In (AInitialize, r) (combine os rs) -> r = Ok OUnit) ->
  (forall st, In st l -> exists f, st = DBool ny nx f) -> state_images l = Some t -> alp_load_multiple info t c = (c', Ok tt) ->
  forall k f i j, nth_error l k = Some (DBool ny nx f) -> i < ny -> j < nx -> alp_mirror (done_of c') ny nx k i j (xorb (f i j) invert).
Proof.
  intros E N U A R k f i j Hk Hi Hj. assert (W := state_images_wf _ _ _ _ A U). destruct (state_images_spec _ _ A) as (L & Nn).
  destruct (Nn _ _ _ _ Hk) as (a & Ha & Sa). destruct (state_image_wf _ _ _ _ Sa) as (Wa & H1 & H2 & P).
  destruct (hist_inverted _ _ _ (alp_ctrl invert faulty) c rs ltac:(discriminate) E N) as (_ & V).
  assert (Hc : c_init c = true). { unfold alp_load_multiple, guarded in R. destruct (c_init c); [reflexivity|discriminate]. }
  destruct (alp_load_multiple_dev _ _ _ _ _ _ R W) as ((q & data & Rn & Fr & Dt & _ & S) & _).
  destruct (frames_mirror data t ny nx k i j a S Ha Hi Hj) as (z & b & Z1 & Z2 & Z3); [unfold image_wf in Wa; congruence|].
  assert (T : b = f i j) by (specialize (P i j Hi Hj); congruence). subst b.
  exists q, data, z. repeat split; [exact Rn|rewrite Fr; apply nth_error_Some; congruence|exact Dt|exact Z1|rewrite Z3; destruct (f i j); auto|].
  destruct (alp_load_multiple_done _ _ _ _ R) as (big & _ & ->). rewrite inv_app. cbn [fold_left inv_step]. rewrite (V Hc), Z3. destruct (f i j); reflexivity.
Qed.

(** ** Luxbeam *)
Definition prog_of (c : ctrl lux_call) : list cmd := l_program (lux_dev (done_of c)).
Definition keeps {A} (m : meth lux_call A) : Prop := forall c, prog_of c = lux_program -> prog_of (fst (m c)) = lux_program.
Definition same_inv {A} (m : meth lux_call A) : Prop := forall c, c_invert (fst (m c)) = c_invert c.
Definition both {A} (m : meth lux_call A) : Prop := keeps m /\ same_inv m.
Lemma both_ret {A} (a : A) : both (ret a). Proof. split; intros c; auto. Qed.
Lemma both_raise {A} e : @both A (raise e). Proof. split; intros c; auto. Qed.
Lemma both_call x : (forall p, x = L_LoadSequence p -> p = lux_program) -> both (call x).
Proof.
  intros H. split; intros c.
  - intros K. unfold prog_of in *. destruct (call_cases x c) as [(c' & -> & D & _)|(c' & -> & D & _)]; cbn [fst]; rewrite D; [|exact K].
    rewrite lux_dev_app. cbn [fold_left]. destruct x as [[]| | | |]; cbn [ldev_step l_program]; try exact K. apply H. reflexivity.
  - destruct (call_cases x c) as [(c' & -> & _ & _ & _ & V)|(c' & -> & _ & _ & _ & V)]; exact V.
Qed.
Lemma both_bind {A B} (m : meth lux_call A) (k : A -> meth lux_call B) : both m -> (forall a, both (k a)) -> both (bind m k).
Proof.
  intros (Hm & Im) Hk. split; intros c; unfold bind; specialize (Hm c); specialize (Im c); destruct (m c) as [c1 [a|e]]; cbn [fst] in *.
  - intros K. apply (proj1 (Hk a)), Hm, K.
  - exact Hm.
  - rewrite <- Im. apply (proj2 (Hk a)).
  - exact Im.
Qed.
Lemma both_seq {A B} (m : meth lux_call A) (k : meth lux_call B) : both m -> both k -> both (seq m k).
Proof. intros. apply both_bind; auto. Qed.
Lemma both_guarded {A} (m : meth lux_call A) : both m -> both (guarded m).
Proof. intros (Hm & Im). split; intros c; unfold guarded; destruct (c_init c); auto. Qed.
Lemma both_mmap {A B} (f : A -> B) (m : meth lux_call A) : both m -> both (mmap f m).
Proof. intros H. apply both_bind; [exact H|intros; apply both_ret]. Qed.
Lemma both_base_init : both base_initialize. Proof. split; intros c; [intros K; exact K|reflexivity]. Qed.
Ltac boths := repeat first [apply both_mmap | apply both_guarded | apply both_seq | (apply both_call; intros ? HH; first [discriminate HH | congruence]) | apply both_ret | apply both_raise
  | apply both_base_init | (apply both_bind; [|intros]) ].
Lemma lux_both glyphs info o : both (lux_exec glyphs info o).
Proof.
  destruct o; unfold lux_exec; apply both_mmap.
  - unfold lux_initialize. boths.
  - unfold lux_close. boths.
  - unfold lux_load_single. boths.
  - unfold lux_load_multiple. boths. generalize 0 as i. induction l as [|a l IH]; intros i; cbn [lux_load_images]; boths. apply IH.
  - unfold base_load_sequence. boths.
  - unfold lux_Nx. boths.
  - unfold lux_Ny. boths.
  - unfold lux_number_image, lux_Nx, lux_Ny. boths. destruct (number_image _ _ _ _); cbn [yield]; boths.
  - unfold lux_fire_software_trigger. boths.
Qed.
Lemma lux_hist glyphs info os : forall c c' rs, (c_init c = true -> prog_of c = lux_program) -> run_ops (lux_exec glyphs info) c os = (c', rs) ->
  c_invert c' = c_invert c /\ (c_init c' = true -> prog_of c' = lux_program).
Proof.
  induction os as [|o os IH]; intros c c' rs H E; cbn [run_ops] in E.
  - inversion E; subst. auto.
  - destruct (lux_exec glyphs info o c) as [c1 x] eqn:E1. destruct (run_ops (lux_exec glyphs info) c1 os) as [c2 xs] eqn:E2. inversion E; subst.
    destruct (lux_both glyphs info o) as (K & V). specialize (K c). specialize (V c). rewrite E1 in K, V. cbn [fst] in K, V.
    destruct (IH c1 c' xs) as (A & B); [|exact E2|split; [congruence|exact B]].
    intros I1. destruct (c_init c) eqn:I; [apply K, H; reflexivity|]. destruct (lux_init_only _ _ _ _ _ _ I E1 I1) as (-> & ->).
    cbn [lux_exec] in E1. unfold mmap, bind in E1. destruct (lux_initialize c) as [c3 [[]|e]] eqn:E3; inversion E1; subst.
    destruct (lux_initialize_dev _ _ E3) as (_ & _ & _ & P & _). exact P.
Qed.
Lemma lux_shows_multiple glyphs info invert faulty os c rs l t c' ny nx :
  run_ops (lux_exec glyphs info) (lux_ctrl invert faulty) os = (c, rs) ->
  state_images l = Some t -> lux_load_multiple t c = (c', Ok tt) ->
  forall n f i j, nth_error l (n mod length l) = Some (DBool ny nx f) -> i < ny -> j < nx -> lux_mirror (c_invert c') (done_of c') ny nx n i j (xorb (f i j) invert).
Proof.
  intros E A R n f i j Hk Hi Hj. destruct (state_images_spec _ _ A) as (L & Nn).
  destruct (Nn _ _ _ _ Hk) as (a & Ha & Sa). destruct (state_image_wf _ _ _ _ Sa) as (Wa & H1 & H2 & P).
  destruct (lux_hist _ _ _ (lux_ctrl invert faulty) c rs ltac:(discriminate) E) as (V & Pr).
  assert (Hc : c_init c = true). { unfold lux_load_multiple, guarded in R. destruct (c_init c); [reflexivity|discriminate]. }
  assert (V' : c_invert c' = invert). { pose proof (proj2 (lux_both glyphs info (LLoadMultiple t)) c) as Q. cbn [lux_exec] in Q. unfold mmap, bind in Q. rewrite R in Q. cbn in Q. cbn in V. congruence. }
  destruct (lux_load_multiple_dev _ _ _ R) as (Rn & Rg & Pg & _ & Im & _). specialize (Pr Hc). unfold prog_of in Pr.
  assert (Hl : 1 <= length t). { rewrite L. destruct l; [|cbn; lia]. destruct (n mod length (@nil dstate)); discriminate Hk. }
  destruct (sequencer_display (length t) n Hl) as (k & At & Sh & _). unfold lux_mirror. split; [exact Rn|].
  assert (Hlt : n mod length t < length t) by (apply Nat.mod_upper_bound; lia).
  exists k, (n mod length t), a, (f i j). rewrite Rg, Pg, Pr, V'. repeat split; [exact At|exact Sh| |exact H1|exact H2|apply P; assumption].
  rewrite (Im _ Hlt). rewrite L. exact Ha.
Qed.
Lemma lux_shows_single glyphs info invert faulty os c rs d ny nx f a c' :
  run_ops (lux_exec glyphs info) (lux_ctrl invert faulty) os = (c, rs) ->
  d_state d = DBool ny nx f -> state_image (d_state d) = Some a -> lux_load_single a c = (c', Ok tt) ->
  forall n i j, i < ny -> j < nx -> lux_mirror (c_invert c') (done_of c') ny nx n i j (xorb (f i j) invert).
Proof.
  intros E D A R n i j Hi Hj. rewrite D in A. destruct (state_image_wf _ _ _ _ A) as (Wa & H1 & H2 & P).
  destruct (lux_hist _ _ _ (lux_ctrl invert faulty) c rs ltac:(discriminate) E) as (V & Pr).
  assert (Hc : c_init c = true). { unfold lux_load_single, guarded in R. destruct (c_init c); [reflexivity|discriminate]. }
  assert (V' : c_invert c' = invert). { pose proof (proj2 (lux_both glyphs info (LLoadSingle a)) c) as Q. cbn [lux_exec] in Q. unfold mmap, bind in Q. rewrite R in Q. cbn in Q. cbn in V. congruence. }
  destruct (lux_load_single_dev _ _ _ R) as (Rn & Rg & Pg & _ & Im & _). specialize (Pr Hc). unfold prog_of in Pr.
  destruct (sequencer_display 1 n (le_n 1)) as (k & At & Sh & _). rewrite Nat.mod_1_r in Sh. unfold lux_mirror. split; [exact Rn|].
  exists k, 0, a, (f i j). rewrite Rg, Pg, Pr, V'. repeat split; [exact At|exact Sh|exact Im|exact H1|exact H2|apply P; assumption].
Qed.

(** ** A second initialisation that fails half way *)
Lemma failed_reinitialise : exists faulty os c rs d a c',
  run_ops (alp_exec blank_glyphs {| ai_width := 2; ai_height := 1; ai_min_picture_time := 44 |}) (alp_ctrl true faulty) os = (c, rs) /\
  state_image d = Some a /\ alp_load_single a c = (c', Ok tt) /\ c_invert c' = true /\
  d = DBool 1 2 (fun _ j => Nat.even j) /\ alp_mirror (done_of c') 1 2 0 0 0 true /\ alp_mirror (done_of c') 1 2 0 0 1 false.
Proof.
  exists (fun l x => match x with A_ProjInversionEnable => Nat.leb 3 (length l) | _ => false end).
  exists [AInitialize; AInitialize]. eexists. eexists. exists (DBool 1 2 (fun _ j => Nat.even j)). eexists. eexists.
  split; [vm_compute; reflexivity|]. split; [vm_compute; reflexivity|]. split; [vm_compute; reflexivity|]. split; [reflexivity|]. split; [reflexivity|].
  split; (eexists; eexists; eexists; split; [vm_compute; reflexivity|]; split; [vm_compute; lia|]; split; [vm_compute; reflexivity|]; split; [vm_compute; reflexivity|]; split; [auto|vm_compute; reflexivity]).
Qed.

(** ** The image of the mirrors as they stand *)
Open Scope R_scope.
Lemma image_of_mirrors h d on m a F (invert : bool) f M n nM n1 I IM I1 : let s := d_slm d in
  d_state d = DBool (s_Ny s) (s_Nx s) f -> d_slm on = s -> d_state on = d_state (set_dmd_state_on on) ->
  (forall i j, (i < s_Ny s)%nat -> (j < s_Nx s)%nat -> M i j = xorb (f i j) invert) ->
  full_input h s a F -> propagate_to_image h (DevDmd d) m a = (n, Ok tt) ->
  propagate_to_image h (DevDmd (with_state d (DBool (s_Ny s) (s_Nx s) M))) m a = (nM, Ok tt) -> propagate_to_image h (DevDmd on) m a = (n1, Ok tt) ->
  field_is (f_image n) (NY s m) (NX s m) I -> field_is (f_image nM) (NY s m) (NX s m) IM -> field_is (f_image n1) (NY s m) (NX s m) I1 ->
  forall u v, (u < NY s m)%nat -> (v < NX s m)%nat -> IM u v = (if invert then I1 u v - I u v else I u v)%C.
Proof.
  intros s D E1 D1 HM HF P PM P1 HI HIM HI1 u v Hu Hv.
  assert (HS := state_bool d f D). assert (HS1 := state_bool on (fun _ _ => true) D1).
  assert (HSM := state_bool (with_state d (DBool (s_Ny s) (s_Nx s) M)) M eq_refl).
  destruct invert.
  - assert (K : (IM u v = RtoC 1 * I1 u v + RtoC (-1) * I u v)%C).
    { apply (states_combine h h h (DevDmd on) (DevDmd d) (DevDmd (with_state d (DBool (s_Ny s) (s_Nx s) M))) m a a a F F F _ _ _ (RtoC 1) (RtoC (-1)) n1 n nM I1 I IM E1 eq_refl HF HF HF HS1 HS HSM); try assumption.
      intros i j Hi Hj. rewrite (HM i j Hi Hj). destruct (f i j); cbn [xorb]; replace (RtoC (-1)) with (- RtoC 1)%C by (apply injective_projections; cbn; ring); ring. }
    rewrite K. replace (RtoC (-1)) with (- RtoC 1)%C by (apply injective_projections; cbn; ring). ring.
  - assert (K : (IM u v = RtoC 0 * I1 u v + RtoC 1 * I u v)%C).
    { apply (states_combine h h h (DevDmd on) (DevDmd d) (DevDmd (with_state d (DBool (s_Ny s) (s_Nx s) M))) m a a a F F F _ _ _ (RtoC 0) (RtoC 1) n1 n nM I1 I IM E1 eq_refl HF HF HF HS1 HS HSM); try assumption.
      intros i j Hi Hj. rewrite (HM i j Hi Hj). destruct (f i j); cbn [xorb]; ring. }
    rewrite K. ring.
Qed.

Lemma alp_mirror_fun log h w k i j b b' : alp_mirror log h w k i j b -> alp_mirror log h w k i j b' -> b = b'.
Proof. intros (q & data & z & A & _ & B & C & _ & ->) (q' & data' & z' & A' & _ & B' & C' & _ & ->). congruence. Qed.
Lemma lux_mirror_fun inv log h w t i j b b' : lux_mirror inv log h w t i j b -> lux_mirror inv log h w t i j b' -> b = b'.
Proof.
  intros (_ & k & n & a & z & A & B & C & _ & _ & D & ->) (_ & k' & n' & a' & z' & A' & B' & C' & _ & _ & D' & ->).
  rewrite (after_triggers_unique _ _ _ _ _ A A') in B. congruence.
Qed.
Lemma history_sendable wl fl per th Nx Ny ps neg cs d' l : (1 < Nx)%nat -> (1 < Ny)%nat ->
  do_calls (dmd_new wl fl per th Nx Ny ps neg) cs = (d', l) ->
  (fold_left element_type l true = true -> exists f a, d_state d' = DBool Ny Nx f /\ state_image (d_state d') = Some a) /\
  (fold_left element_type l true = false -> state_image (d_state d') = None).
Proof.
  intros Hx Hy E. destruct (history_shape _ _ _ _ _ _ _ _ _ _ _ Hx Hy E) as (S & _). destruct (history_packable _ _ _ _ _ _ _ _ _ _ _ E) as (P & Q).
  unfold pack_dmd_state in P, Q. destruct (d_state d') as [a b f|a b f]; cbn [state_shape] in S; inversion S; subst.
  - split; [intros _; exists f; eexists; split; reflexivity|]. intros H. apply Q in H. discriminate H.
  - split; [|reflexivity]. intros H. apply P in H. destruct H as (? & H). discriminate H.
Qed.
Lemma image_on_alp h d on m a F glyphs info invert faulty os c rs im c' f M n nM n1 I IM I1 : let s := d_slm d in
  run_ops (alp_exec glyphs info) (alp_ctrl invert faulty) os = (c, rs) -> (forall r, In (AInitialize, r) (combine os rs) -> r = Ok OUnit) ->
  d_state d = DBool (s_Ny s) (s_Nx s) f -> state_image (d_state d) = Some im -> alp_load_single im c = (c', Ok tt) ->
  (forall i j, (i < s_Ny s)%nat -> (j < s_Nx s)%nat -> alp_mirror (done_of c') (s_Ny s) (s_Nx s) 0 i j (M i j)) ->
  d_slm on = s -> d_state on = d_state (set_dmd_state_on on) ->
  full_input h s a F -> propagate_to_image h (DevDmd d) m a = (n, Ok tt) ->
  propagate_to_image h (DevDmd (with_state d (DBool (s_Ny s) (s_Nx s) M))) m a = (nM, Ok tt) -> propagate_to_image h (DevDmd on) m a = (n1, Ok tt) ->
  field_is (f_image n) (NY s m) (NX s m) I -> field_is (f_image nM) (NY s m) (NX s m) IM -> field_is (f_image n1) (NY s m) (NX s m) I1 ->
  forall u v, (u < NY s m)%nat -> (v < NX s m)%nat -> IM u v = (if invert then I1 u v - I u v else I u v)%C.
Proof.
  intros s E N D A R HM E1 D1. apply (image_of_mirrors h d on m a F invert f M n nM n1 I IM I1 D E1 D1).
  intros i j Hi Hj. apply (alp_mirror_fun _ _ _ _ _ _ _ _ (HM i j Hi Hj)). exact (alp_shows_single _ _ _ _ _ _ _ _ _ _ _ _ _ E N D A R i j Hi Hj).
Qed.
Lemma image_on_lux h d on m a F glyphs info invert faulty os c rs im c' f M t n nM n1 I IM I1 : let s := d_slm d in
  run_ops (lux_exec glyphs info) (lux_ctrl invert faulty) os = (c, rs) ->
  d_state d = DBool (s_Ny s) (s_Nx s) f -> state_image (d_state d) = Some im -> lux_load_single im c = (c', Ok tt) ->
  (forall i j, (i < s_Ny s)%nat -> (j < s_Nx s)%nat -> lux_mirror (c_invert c') (done_of c') (s_Ny s) (s_Nx s) t i j (M i j)) ->
  d_slm on = s -> d_state on = d_state (set_dmd_state_on on) ->
  full_input h s a F -> propagate_to_image h (DevDmd d) m a = (n, Ok tt) ->
  propagate_to_image h (DevDmd (with_state d (DBool (s_Ny s) (s_Nx s) M))) m a = (nM, Ok tt) -> propagate_to_image h (DevDmd on) m a = (n1, Ok tt) ->
  field_is (f_image n) (NY s m) (NX s m) I -> field_is (f_image nM) (NY s m) (NX s m) IM -> field_is (f_image n1) (NY s m) (NX s m) I1 ->
  forall u v, (u < NY s m)%nat -> (v < NX s m)%nat -> IM u v = (if invert then I1 u v - I u v else I u v)%C.
Proof.
  intros s E D A R HM E1 D1. apply (image_of_mirrors h d on m a F invert f M n nM n1 I IM I1 D E1 D1).
  intros i j Hi Hj. apply (lux_mirror_fun _ _ _ _ _ _ _ _ _ (HM i j Hi Hj)). exact (lux_shows_single _ _ _ _ _ _ _ _ _ _ _ _ _ E D A R t i j Hi Hj).
Qed.
(** A case: the checkerboard of the examples on an inverting ALP board. *)
Lemma ex_on_board : exists c rs im c' M n nM n1 I IM I1, let s := d_slm ex_dmd in
  run_ops (alp_exec blank_glyphs {| ai_width := 3; ai_height := 2; ai_min_picture_time := 44 |}) (alp_ctrl true no_fault) [AInitialize] = (c, rs) /\
  (forall r, In (AInitialize, r) (combine [AInitialize] rs) -> r = Ok OUnit) /\
  state_image (d_state ex_dmd) = Some im /\ alp_load_single im c = (c', Ok tt) /\
  (forall i j, (i < 2)%nat -> (j < 3)%nat -> alp_mirror (done_of c') 2 3 0 i j (M i j)) /\
  propagate_to_image ex_heap (DevDmd ex_dmd) ex_sim ex_input = (n, Ok tt) /\
  propagate_to_image ex_heap (DevDmd (with_state ex_dmd (DBool 2 3 M))) ex_sim ex_input = (nM, Ok tt) /\
  propagate_to_image ex_heap (DevDmd (set_dmd_state_on ex_dmd)) ex_sim ex_input = (n1, Ok tt) /\
  field_is (f_image n) 6 5 I /\ field_is (f_image nM) 6 5 IM /\ field_is (f_image n1) 6 5 I1.
Proof.
  assert (X : forall b, exists n I, propagate_to_image ex_heap (DevDmd (with_state ex_dmd (DBool 2 3 b))) ex_sim ex_input = (n, Ok tt) /\ field_is (f_image n) 6 5 I).
  { intros b. assert (HS := state_bool (with_state ex_dmd (DBool 2 3 b)) b eq_refl).
    destruct (ex_runs (DevDmd (with_state ex_dmd (DBool 2 3 b))) _ HS eq_refl) as (H1 & (n & P) & _).
    destruct (propagate_inv ex_heap (DevDmd (with_state ex_dmd (DBool 2 3 b))) ex_sim ex_input _ _ n H1 HS P) as (_ & _ & _ & _ & _ & _ & _ & Hi).
    exists n. eexists. split; [exact P|exact Hi]. }
  set (M := fun i j => xorb (Nat.even (i + j)) true).
  destruct (X (fun i j => Nat.even (i + j))) as (n & I & P & H). destruct (X M) as (nM & IM & PM & HM). destruct (X (fun _ _ => true)) as (n1 & I1 & P1 & H1).
  destruct (run_ops (alp_exec blank_glyphs {| ai_width := 3; ai_height := 2; ai_min_picture_time := 44 |}) (alp_ctrl true no_fault) [AInitialize]) as [c rs] eqn:E.
  assert (Hr : rs = [Ok OUnit]) by (vm_compute in E; inversion E; reflexivity).
  assert (Hc : c_init c = true /\ faultless c) by (vm_compute in E; inversion E; split; [reflexivity|intros ? ?; reflexivity]). destruct Hc as (Hc & Hf).
  destruct (state_image (d_state ex_dmd)) as [im|] eqn:Ei; [|discriminate Ei]. destruct (load_single_ok im c Hc Hf) as (c' & R & _).
  assert (N : forall r, In (AInitialize, r) (combine [AInitialize] rs) -> r = Ok OUnit) by (rewrite Hr; intros r [Hi|[]]; congruence).
  exists c, rs, im, c', M, n, nM, n1, I, IM, I1. cbv zeta. repeat (split; [first [reflexivity | assumption]|]).
  split; [intros i j Hi Hj; exact (alp_shows_single _ _ _ _ _ _ _ ex_dmd 2 3 (fun i j => Nat.even (i + j)) im c' E N eq_refl Ei R i j Hi Hj)|].
  repeat (split; [first [reflexivity | assumption]|]). assumption.
Qed.
