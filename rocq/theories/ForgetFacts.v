(** Devices forget: proofs. *)
From Coq Require Import Reals Lra ZArith Arith List Bool Lia.
From Coquelicot Require Import Complex.
From Verif Require Import Cx Sums DFT PyBase ProfileModel ProfFacts SlmModel LibModel DmdModel SimModel SimSpec GridFacts SimFacts SimFacts2 SimFacts3 DmdSpec DmdFacts DmdFacts2 DmdFacts3 ForgetSpec.
Import ListNotations.
Open Scope R_scope.

(** *** LCOS *)
Lemma do_lcall_geom l c l' o : do_lcall l c = (l', o) -> l_slm l' = l_slm l.
Proof.
  destruct c; cbn [do_lcall].
  - intros H; injection H as <- <-. reflexivity.
  - unfold calculate_hologram. match goal with |- context [match ?X with Ok _ => _ | Err _ => _ end = _] => destruct X end; intros H; injection H as <- <-; reflexivity.
Qed.
(** The same call on two modulators of the same geometry: same outcome, and the same state when it succeeds. *)
Lemma do_lcall_same l1 l2 c l1' o1 l2' o2 : l_slm l1 = l_slm l2 -> do_lcall l1 c = (l1', o1) -> do_lcall l2 c = (l2', o2) ->
  o1 = o2 /\ (o2 = Ok tt -> l1' = l2').
Proof.
  intros E. destruct c; cbn [do_lcall].
  - unfold reset_slm_state. rewrite E. intros H1 H2; injection H1 as <- <-; injection H2 as <- <-. auto.
  - unfold calculate_hologram. rewrite E. match goal with |- context [match ?X with Ok _ => _ | Err _ => _ end = _] => destruct X end;
      intros H1 H2; injection H1 as <- <-; injection H2 as <- <-; split; auto; discriminate.
Qed.
Lemma do_lcall_failed l c l' e : do_lcall l c = (l', Err e) -> l' = l.
Proof.
  destruct c; cbn [do_lcall]; [discriminate|].
  unfold calculate_hologram. match goal with |- context [match ?X with Ok _ => _ | Err _ => _ end = _] => destruct X end;
    intros H; [discriminate|]. injection H as <- <-. reflexivity.
Qed.
Lemma do_lcalls_geom cs : forall l l' os, do_lcalls l cs = (l', os) -> l_slm l' = l_slm l /\ length os = length cs.
Proof.
  induction cs as [|c cs IH]; intros l l' os; cbn [do_lcalls]; [intros H; injection H as <- <-; auto|].
  destruct (do_lcall l c) as [l1 o] eqn:E. destruct (do_lcalls l1 cs) as [l2 r] eqn:E2. intros H; injection H as <- <-.
  destruct (IH _ _ _ E2) as [A B]. rewrite A, (do_lcall_geom _ _ _ _ E). cbn [length]. auto.
Qed.
Lemma lcos_outcomes cs : forall l1 l2, l_slm l1 = l_slm l2 -> snd (do_lcalls l1 cs) = snd (do_lcalls l2 cs).
Proof.
  induction cs as [|c cs IH]; intros l1 l2 E; cbn [do_lcalls]; [reflexivity|].
  destruct (do_lcall l1 c) as [a1 o1] eqn:E1. destruct (do_lcall l2 c) as [a2 o2] eqn:E2.
  destruct (do_lcall_same _ _ _ _ _ _ _ E E1 E2) as [-> _].
  assert (G : l_slm a1 = l_slm a2) by (rewrite (do_lcall_geom _ _ _ _ E1), (do_lcall_geom _ _ _ _ E2); exact E).
  specialize (IH a1 a2 G). destruct (do_lcalls a1 cs), (do_lcalls a2 cs). cbn [snd] in *. rewrite IH. reflexivity.
Qed.
Lemma do_lcalls_app pre : forall l post, do_lcalls l (pre ++ post) =
  (let (l1, o1) := do_lcalls l pre in let (l2, o2) := do_lcalls l1 post in (l2, o1 ++ o2)).
Proof.
  induction pre as [|c pre IH]; intros l post; cbn [do_lcalls app]; [destruct (do_lcalls l post); reflexivity|].
  destruct (do_lcall l c) as [l1 o]. rewrite IH. destruct (do_lcalls l1 pre) as [l2 o2]. destruct (do_lcalls l2 post). reflexivity.
Qed.
Lemma do_lcalls_all_failed cs : forall l l' os, do_lcalls l cs = (l', os) -> (forall co, In co os -> snd co <> Ok tt) -> l' = l.
Proof.
  induction cs as [|c cs IH]; intros l l' os; cbn [do_lcalls]; [intros H _; injection H as <- <-; reflexivity|].
  destruct (do_lcall l c) as [l1 o] eqn:E. destruct (do_lcalls l1 cs) as [l2 r] eqn:E2. intros H F; injection H as <- <-.
  destruct o as [[]|e]; [exfalso; apply (F (c, Ok tt)); [left; reflexivity|reflexivity]|].
  rewrite (IH _ _ _ E2) by (intros co Hi; apply F; right; exact Hi). exact (do_lcall_failed _ _ _ _ E).
Qed.
Lemma lcos_last l1 l2 pre c post l1' os1 l2' : l_slm l1 = l_slm l2 -> do_lcall l2 c = (l2', Ok tt) ->
  do_lcalls l1 (pre ++ c :: post) = (l1', os1) -> (forall co, In co (skipn (S (length pre)) os1) -> snd co <> Ok tt) -> l1' = l2'.
Proof.
  intros E E2. rewrite do_lcalls_app. destruct (do_lcalls l1 pre) as [a o1] eqn:Ea. cbn [do_lcalls].
  destruct (do_lcalls_geom _ _ _ _ Ea) as [G Ln]. destruct (do_lcall a c) as [b o] eqn:Eb. destruct (do_lcalls b post) as [z oz] eqn:Ez.
  intros H; injection H as <- <-. intros F.
  destruct (do_lcall_same a l2 c b o l2' (Ok tt)) as [-> K]; [congruence|exact Eb|exact E2|]. rewrite <- (K eq_refl).
  apply (do_lcalls_all_failed _ _ _ _ Ez). intros co Hi. apply F. rewrite <- Ln.
  replace (S (length o1)) with (length (o1 ++ [(c, Ok tt)])) by (rewrite app_length; cbn [length]; lia).
  change ((c, Ok tt) :: oz) with ([(c, Ok tt)] ++ oz). rewrite app_assoc, skipn_app, skipn_all, Nat.sub_diag. exact Hi.
Qed.
Lemma reset_state l : l_slm (reset_slm_state l) = l_slm l /\
  l_state (reset_slm_state l) = LComplex (s_Ny (l_slm l)) (s_Nx (l_slm l)) (fun _ _ => RtoC 0).
Proof. split; reflexivity. Qed.
Lemma reset_full l : full_state (DevLcos (reset_slm_state l)) (fun _ _ => cexp (- Ci * RtoC 0)%C).
Proof. reflexivity. Qed.
Lemma reset_transparent h l m a F m' :
  full_input h (l_slm l) a F -> propagate_to_image h (DevLcos (reset_slm_state l)) m a = (m', Ok tt) ->
  exists ny nx Ei Eo, field_is (f_input m') ny nx Ei /\ field_is (f_output m') ny nx Eo /\
    forall i j, (i < ny)%nat -> (j < nx)%nat -> Eo i j = Ei i j.
Proof.
  intros HF HP. destruct (propagate_inv h (DevLcos (reset_slm_state l)) m a F _ m' HF (reset_full l) HP) as (_ & _ & _ & _ & _ & H1 & H2 & _).
  do 4 eexists. split; [exact H1|]. split; [exact H2|]. intros i j _ _. unfold pad_of, pad_fun.
  destruct (_ && _)%bool; [|reflexivity]. rewrite cexp_mi. rewrite Ropp_0. unfold cis. rewrite cos_0, sin_0.
  change (1, 0) with (RtoC 1). apply Cmult_1_r.
Qed.

(** *** DMD *)
Lemma same_with d1 d2 : same_settings d1 d2 -> d1 = with_state d2 (d_state d1).
Proof. destruct d1, d2. unfold same_settings. cbn. intros (-> & -> & -> & ->). reflexivity. Qed.
Lemma do_call_same d st c d2' : writes_all c -> do_call d c = (d2', Ok tt) -> do_call (with_state d st) c = (d2', Ok tt).
Proof.
  destruct c; cbn [writes_all do_call]; try contradiction; intros _.
  - intros H; exact H.
  - intros H; exact H.
  - unfold set_dmd_grating_state. change (grating_of h (with_state d st) amp pin pout m kw u) with (grating_of h d amp pin pout m kw u).
    destruct (grating_of h d amp pin pout m kw u); intros H; [exact H|discriminate].
  - rewrite !calc_split. change (calc_new h (with_state d st) input target m window kw u) with (calc_new h d input target m window kw u).
    destruct (calc_new h d input target m window kw u) as [[st' one]|e]; [|discriminate]. intros H; exact H.
Qed.
Lemma do_calls_app pre : forall d post, do_calls d (pre ++ post) =
  (let (d1, o1) := do_calls d pre in let (d2, o2) := do_calls d1 post in (d2, o1 ++ o2)).
Proof.
  induction pre as [|c pre IH]; intros d post; cbn [do_calls app]; [destruct (do_calls d post); reflexivity|].
  destruct (do_call d c) as [d1 o]. rewrite IH. destruct (do_calls d1 pre) as [d2 o2]. destruct (do_calls d2 post). reflexivity.
Qed.
Lemma do_calls_length cs : forall d d' l, do_calls d cs = (d', l) -> length l = length cs.
Proof.
  induction cs as [|c cs IH]; intros d d' l; cbn [do_calls]; [intros H; injection H as <- <-; reflexivity|].
  destruct (do_call d c) as [d1 o]. destruct (do_calls d1 cs) as [d2 r] eqn:E. intros H; injection H as <- <-. cbn [length]. rewrite (IH _ _ _ E). reflexivity.
Qed.
Lemma same_keep d1 d2 pre a o : same_settings d1 d2 -> do_calls d1 pre = (a, o) -> a = with_state d2 (d_state a).
Proof. intros E H. destruct (do_calls_keep _ _ _ _ H) as [W _]. rewrite W, (same_with _ _ E). reflexivity. Qed.
Lemma dmd_forgets d1 d2 pre c post d1' l1 d2' l2 : same_settings d1 d2 -> writes_all c -> snd (do_call d2 c) = Ok tt ->
  do_calls d1 (pre ++ c :: post) = (d1', l1) -> do_calls d2 (c :: post) = (d2', l2) ->
  d1' = d2' /\ skipn (length pre) l1 = l2.
Proof.
  intros E W K. rewrite do_calls_app. destruct (do_calls d1 pre) as [a o1] eqn:Ea.
  destruct (do_call d2 c) as [b o] eqn:Eb. cbn [snd] in K. subst o.
  assert (Ec : do_calls a (c :: post) = do_calls d2 (c :: post)).
  { rewrite (same_keep _ _ _ _ _ E Ea). cbn [do_calls]. rewrite (do_call_same d2 _ c b W Eb), Eb. reflexivity. }
  rewrite Ec. destruct (do_calls d2 (c :: post)) as [z oz]. intros H1 H2; injection H1 as <- <-; injection H2 as <- <-.
  split; [reflexivity|]. rewrite <- (do_calls_length _ _ _ _ Ea), skipn_app, skipn_all, Nat.sub_diag. reflexivity.
Qed.
(** The outcome of every call except a patch and the packing is the same whatever is displayed. *)
Lemma dmd_outcome d1 d2 c : same_settings d1 d2 -> writes_all c -> snd (do_call d1 c) = snd (do_call d2 c).
Proof.
  intros E W. rewrite (same_with _ _ E). destruct c; cbn [writes_all do_call] in *; try contradiction; try reflexivity.
  - unfold set_dmd_grating_state. change (grating_of h (with_state d2 (d_state d1)) amp pin pout m kw u) with (grating_of h d2 amp pin pout m kw u).
    destruct (grating_of h d2 amp pin pout m kw u); reflexivity.
  - rewrite !calc_split. change (calc_new h (with_state d2 (d_state d1)) input target m window kw u) with (calc_new h d2 input target m window kw u).
    destruct (calc_new h d2 input target m window kw u) as [[st' one]|e]; [|reflexivity].
    change (d_slm (with_state d2 (d_state d1))) with (d_slm d2). destruct (Req_EM_T _ 0); reflexivity.
Qed.
