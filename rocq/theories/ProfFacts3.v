(** Histories of assignments, frames for later objects, and powers that are always defined. *)
From Coq Require Import Reals Lra Psatz ZArith Arith List Bool Lia FunctionalExtensionality.
From Coquelicot Require Import Complex.
From Verif Require Import Cx Sums PyBase ProfileModel ProfSpec ProfFacts ProfFacts2.
Import ListNotations.
Open Scope R_scope.

Lemma same_heap_eq h h' : same_heap h h' -> h = h'.
Proof. destruct h, h'. intros [A B]. cbn in *. subst. f_equal. apply functional_extensionality. exact B. Qed.
Lemma final_call_app c l l' : final_call c (l ++ l') = match final_call c l with Some c' => final_call c' l' | None => None end.
Proof. revert c. induction l as [|[o|f v] l IH]; intros c; cbn; [reflexivity|apply IH|]. destruct (with_field c f v); [apply IH|reflexivity]. Qed.
Lemma history_as_built c h h1 p env l c' : create h c = Ok (h1, p) -> final_call c l = Some c' ->
  exists h1', create h c' = Ok (h1', p) /\ run_hist p l (h1, env) = run_dops (builds l) (h1', env).
Proof.
  intros C. revert c'. induction l as [|o l IH] using rev_ind; intros c' F.
  - injection F as <-. exists h1. split; [exact C|reflexivity].
  - rewrite final_call_app in F. destruct (final_call c l) as [c1|] eqn:F1; [|discriminate]. destruct (IH c1 eq_refl) as [h2 [C1 R]].
    unfold run_hist, builds in *. rewrite fold_left_app, R. rewrite flat_map_app. cbn [fold_left flat_map]. destruct o as [o|f v]; cbn [final_call] in F.
    + injection F as <-. exists h2. split; [exact C1|]. cbn [run_hstep]. unfold run_dops. rewrite fold_left_app. reflexivity.
    + destruct (with_field c1 f v) as [c2|] eqn:W; [|discriminate]. injection F as <-.
      destruct (assign_as_built c1 f v c2 h h2 p env (flat_map (fun o => match o with HBuild o => [o] | HSet _ _ => [] end) l) C1 W) as [h3 [C2 [E [_ [S _]]]]].
      exists h3. split; [exact C2|]. cbn [run_hstep app]. rewrite !app_nil_r. apply same_heap_eq in S. rewrite S, E. destruct (run_dops _ (h3, env)). reflexivity.
Qed.
(** Objects built from others than p. *)
Definition apart (h : heap) (p q : prof) : Prop := forall l, In l (locs q) -> (l < h_next h)%nat /\ ~ In l (locs p).
Lemma apart_more h h' p q : (h_next h <= h_next h')%nat -> apart h p q -> apart h' p q.
Proof. intros N A l Hl. destruct (A l Hl). split; [lia|assumption]. Qed.
Lemma apart_binop o h p q a : lives h p -> apart h p q -> (forall b, a = OProf b -> apart h p b) -> forall h' r, p_binop o h q a = (h', r) ->
  (h_next h <= h_next h')%nat /\ forall s, r = Ok s -> apart h' p s.
Proof.
  intros Hp Hq Ha h' r E. assert (G : forall v, (let (h1, c) := new_const h v in (h1, Ok (PBin o q c))) = (h', r) -> (h_next h <= h_next h')%nat /\ forall s, r = Ok s -> apart h' p s).
  { intros v F. unfold new_const, h_alloc in F. injection F as <- <-. cbn. split; [lia|]. intros s Hs. injection Hs as <-. intros l Hl. cbn [locs] in Hl. apply in_app_or in Hl. destruct Hl as [Hl|[<-|[]]].
    - destruct (Hq l Hl). split; [cbn; lia|assumption].
    - split; [cbn; lia|]. intros K. specialize (Hp _ K). lia. }
  destruct a as [b|c|c|]; cbn [p_binop] in E; [|apply (G _ E)|apply (G _ E)|].
  - injection E as <- <-. split; [lia|]. intros s Hs. injection Hs as <-. intros l Hl. cbn [locs] in Hl. apply in_app_or in Hl. destruct Hl as [Hl|Hl]; [apply Hq, Hl|apply (Ha b eq_refl), Hl].
  - injection E as <- <-. split; [lia|discriminate].
Qed.
Lemma apart_dop h p env o : lives h p -> Forall (apart h p) env -> let s := run_dop (h, env) o in (h_next h <= h_next (fst s))%nat /\ Forall (apart (fst s) p) (snd s).
Proof.
  intros Hp He. assert (M : forall h', (h_next h <= h_next h')%nat -> Forall (apart h' p) env) by (intros h' N; eapply Forall_impl; [|exact He]; intros q; apply apart_more, N).
  assert (NE : forall i q, nth_error env i = Some q -> apart h p q) by (intros i q E; apply (proj1 (Forall_forall _ _) He), (nth_error_In _ _ E)).
  assert (P : forall (hr : heap * res prof), (h_next h <= h_next (fst hr))%nat -> (forall s, snd hr = Ok s -> apart (fst hr) p s) ->
    (h_next h <= h_next (fst (push env hr)))%nat /\ Forall (apart (fst (push env hr)) p) (snd (push env hr))).
  { intros [h' [s|e]] N A; cbn in *; (split; [exact N|]); [|apply M, N]. apply Forall_app. split; [apply M, N|]. constructor; [apply A; reflexivity|constructor]. }
  assert (B : forall b q a, apart h p q -> (forall b', a = OProf b' -> apart h p b') -> (h_next h <= h_next (fst (p_binop b h q a)))%nat /\ forall s, snd (p_binop b h q a) = Ok s -> apart (fst (p_binop b h q a)) p s).
  { intros b q a Hq Ha. destruct (p_binop b h q a) as [h' r] eqn:E. apply (apart_binop b h p q a Hp Hq Ha h' r E). }
  assert (OA : forall q b', operand_of env q = OProf b' -> apart h p b').
  { intros q b' E. destruct q as [j|?|?|]; cbn in E; try discriminate. destruct (nth_error env j) eqn:N; [|discriminate]. injection E as <-. eapply NE, N. }
  assert (S : Forall (apart h p) env /\ (h_next h <= h_next h)%nat) by (split; [exact He|lia]).
  destruct o as [v|b i q|i|i q|i t|i dx dy|i m|i m|i]; cbn [run_dop].
  - apply P; cbn; [lia|]. intros s E. injection E as <-. intros l [<-|[]]. split; [cbn; lia|]. intros K. specialize (Hp _ K). lia.
  - destruct (nth_error env i) as [q0|] eqn:N; [|cbn; split; [lia|exact He]]. destruct (B b q0 (operand_of env q) (NE _ _ N) (OA q)) as [B1 B2]. apply P; assumption.
  - destruct (nth_error env i) as [q0|] eqn:N; [|cbn; split; [lia|exact He]]. destruct (B Omul q0 (OReal (-1)) (NE _ _ N)) as [B1 B2]; [discriminate|]. apply P; assumption.
  - destruct (nth_error env i) as [q0|] eqn:N; [|cbn; split; [lia|exact He]]. apply P; cbn; [lia|]. intros s E. specialize (NE _ _ N). specialize (OA q). destruct (operand_of env q) as [q1|?|?|]; cbn in E; try discriminate; injection E as <-; try exact NE.
    intros l Hl. cbn [locs] in Hl. apply in_app_or in Hl. destruct Hl as [Hl|Hl]; [apply NE, Hl|apply (OA q1 eq_refl), Hl].
  - destruct (nth_error env i) as [q0|] eqn:N; [|cbn; split; [lia|exact He]]. apply P; cbn; [lia|]. intros s E. injection E as <-. apply (NE _ _ N).
  - destruct (nth_error env i) as [q0|] eqn:N; [|cbn; split; [lia|exact He]]. apply P; cbn; [lia|]. intros s E. injection E as <-. apply (NE _ _ N).
  - destruct (nth_error env i) as [q0|] eqn:N; [|cbn; split; [lia|exact He]]. apply P; cbn; [lia|]. intros s E. injection E as <-. apply (NE _ _ N).
  - destruct (nth_error env i) as [q0|] eqn:N; [|cbn; split; [lia|exact He]]. apply P; cbn; [lia|]. intros s E. injection E as <-. apply (NE _ _ N).
  - destruct (nth_error env i) as [q0|] eqn:N; [|cbn; split; [lia|exact He]]. apply P; cbn; [lia|]. intros s E. injection E as <-. apply (NE _ _ N).
Qed.
Lemma apart_dops ops : forall h p env, lives h p -> Forall (apart h p) env -> let s := run_dops ops (h, env) in Forall (apart (fst s) p) (snd s).
Proof.
  unfold run_dops. induction ops as [|o ops IH]; intros h p env Hp He; [exact He|]. cbn [fold_left]. destruct (apart_dop h p env o Hp He) as [N F]. destruct (run_dop (h, env) o) as [h1 e1]. cbn [fst snd] in *.
  apply IH; [intros l Hl; specialize (Hp l Hl); lia|exact F].
Qed.
Lemma others_unaffected h c h1 p env c2 h2 q ops f v : create h c = Ok (h1, p) -> create h1 c2 = Ok (h2, q) -> Forall (lives h) env ->
  let s := run_dops ops (h2, env ++ [q]) in forall r, In r (snd s) -> same_value (fst s) r (fst (set_attr (fst s) p f v)) r.
Proof.
  intros C1 C2 He s r Hr. destruct (create_keeps _ _ _ _ C1) as [_ L1]. destruct (create_keeps _ _ _ _ C2) as [K2 L2]. destruct (K2 p L1) as [L1' _].
  assert (F : Forall (apart h2 p) (env ++ [q])).
  { apply Forall_app. split.
    - eapply Forall_impl; [|exact He]. intros a Ha l Hl. specialize (Ha l Hl). split; [|intros K; pose proof (create_fresh _ _ _ _ C1 l K); lia].
      destruct (K2 (PConst l)) as [G _]; [|apply (G l); cbn; auto]. intros l' [<-|[]]. destruct (create_keeps _ _ _ _ C1) as [K1 _]. destruct (K1 (PConst l)) as [G _]; [intros l' [<-|[]]; exact Ha|]. apply (G l). cbn; auto.
    - constructor; [|constructor]. intros l Hl. split; [apply L2, Hl|]. intros K. pose proof (create_fresh _ _ _ _ C2 l Hl). specialize (L1 l K). lia. }
  pose proof (apart_dops ops h2 p (env ++ [q]) L1' F) as A. cbv zeta in A. fold s in A. rewrite Forall_forall in A. specialize (A r Hr).
  apply set_frame. intros l Hl K. apply (proj2 (A l K) Hl).
Qed.
(** Powers that always exist. *)
Lemma pow_positive h p q x y a b : 0 < a -> gives h p x y (RtoC a) false -> gives h q x y (RtoC b) false ->
  exists r, p_pow p (OProf q) = Ok r /\ gives h r x y (RtoC (Rpower a b)) false.
Proof.
  intros Ha [v [E1 [V1 K1]]] [w [E2 [V2 K2]]]. exists (PPow p q). split; [reflexivity|]. destruct v as [v|]; [|discriminate]. destruct w as [w|]; [|discriminate].
  cbn [to_c] in *. apply RtoC_inj in V1, V2. subst v w. exists (VR (Rpower a b)). split; [cbn [func]; rewrite E1, E2; cbn [rbind pow_val]; unfold rpow|].
  - destruct (Req_EM_T b 0) as [->|Hb]; [replace 1 with (Rpower a 0) by (apply Rpower_O, Ha); reflexivity|]. destruct (Rlt_dec 0 a); [reflexivity|contradiction].
  - split; reflexivity.
Qed.
Lemma pow_complex h p q x y a b k : a <> RtoC 0 -> gives h p x y a true -> gives h q x y b k ->
  exists r, p_pow p (OProf q) = Ok r /\ gives h r x y (cexp (b * clog a)%C) true.
Proof.
  intros Ha [v [E1 [V1 K1]]] [w [E2 [V2 K2]]]. exists (PPow p q). split; [reflexivity|]. destruct v as [|v]; [discriminate|]. cbn [to_c] in *. subst v.
  exists (VC (cexp (b * clog a)%C)). split; [|split; reflexivity]. cbn [func]; rewrite E1, E2; cbn [rbind].
  destruct w as [w|w]; cbn [to_c pow_val] in *; subst b; unfold cpow; (destruct (C_dec0 a); [contradiction|]); reflexivity.
Qed.
