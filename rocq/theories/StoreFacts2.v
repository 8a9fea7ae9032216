(** Writing into an array that was read from a device (C102). *)
From Coq Require Import Reals ZArith Arith List Bool Lia.
From Verif Require Import PyBase ProfileModel SlmModel LibModel DmdModel DmdSpec StoreModel StoreSpec StoreFacts.
Import ListNotations.
Open Scope R_scope.

Lemma acts_separate l : forall st, separate st -> Forall (fun a => tampers a = false) l -> separate (acts st l).
Proof.
  induction l as [|a r IH]; intros st H F; [exact H|]. apply Forall_cons_iff in F. destruct F as [F1 F2].
  cbn [acts fold_left]. apply IH; [|exact F2]. exact (proj1 (act_device st a 0 H F1)).
Qed.
Lemma empty_separate : separate empty_store.
Proof. split; [apply empty_valid|]. cbn. discriminate. Qed.
Lemma in_range_spec a i j : in_range a i j = true <-> (i < fst (state_shape a))%nat /\ (j < snd (state_shape a))%nat.
Proof. destruct a; cbn [in_range state_shape fst snd]; rewrite andb_true_iff, !Nat.ltb_lt; reflexivity. Qed.
Lemma poke_spec a i j b : state_shape (poke a i j b) = state_shape a /\ is_bool_state (poke a i j b) = is_bool_state a /\
  cell_at (poke a i j b) i j = cell_as (is_bool_state a) (CBool b) /\ forall p q, (p, q) <> (i, j) -> cell_at (poke a i j b) p q = cell_at a p q.
Proof.
  assert (X : forall p q, (p, q) <> (i, j) -> (Nat.eqb p i && Nat.eqb q j)%bool = false).
  { intros p q H. destruct (Nat.eqb_spec p i), (Nat.eqb_spec q j); cbn; congruence. }
  destruct a; cbn [poke state_shape is_bool_state cell_at]; rewrite !Nat.eqb_refl; cbn [andb]; repeat split.
  - intros p q H. now rewrite X.
  - intros p q H. now rewrite X.
Qed.
Lemma shown_ref st k a : shown st k = Some a -> exists p d, panels st k = Some p /\ seen st p = Some d /\ d_state d = a /\ nth_error (arrays st) (n_ref p) = Some a.
Proof.
  unfold shown, device_of. destruct (panels st k) as [p|]; [|discriminate]. destruct (seen st p) as [d|] eqn:E; [|discriminate].
  cbn [option_map]. intros H; injection H as H. exists p, d. repeat split; auto. revert E. unfold seen.
  destruct (nth_error (arrays st) (n_ref p)) as [x|]; [|discriminate]. intros Q; injection Q as <-. cbn [d_state] in H. now rewrite H.
Qed.
Lemma poked l k v i j b a : Forall (fun a => tampers a = false) l -> shown (acts empty_store l) k = Some a ->
  (i < fst (state_shape a))%nat -> (j < snd (state_shape a))%nat ->
  exists a', shown (acts empty_store (l ++ [AGet v k; APoke v i j b])) k = Some a' /\
    state_shape a' = state_shape a /\ is_bool_state a' = is_bool_state a /\ cell_at a' i j = cell_as (is_bool_state a) (CBool b) /\
    (forall p q, (p, q) <> (i, j) -> cell_at a' p q = cell_at a p q) /\
    (forall k', k' <> k -> device_of (acts empty_store (l ++ [AGet v k; APoke v i j b])) k' = device_of (acts empty_store l) k').
Proof.
  intros F Hs Hi Hj. unfold acts at 1 2. rewrite fold_left_app. fold (acts empty_store l).
  assert (S0 : separate (acts empty_store l)) by (apply acts_separate; [apply empty_separate|exact F]).
  set (st := acts empty_store l) in *. clearbody st. destruct (shown_ref _ _ _ Hs) as (p & d & P & D & Ha & N).
  set (st1 := {| arrays := arrays st; panels := panels st; vars := set_nat (vars st) v (n_ref p) |}).
  assert (E : fold_left act [AGet v k; APoke v i j b] st = overwrite st1 (n_ref p) (poke a i j b)).
  { cbn [fold_left act]. rewrite P. fold st1. change (vars st1) with (set_nat (vars st) v (n_ref p)). rewrite set_same. change (arrays st1) with (arrays st). rewrite N.
    assert (R := proj2 (in_range_spec a i j) (conj Hi Hj)). rewrite R. reflexivity. }
  rewrite E. destruct S0 as [V0 S0].
  assert (S1 : separate st1).
  { split; [|exact S0]. destruct V0 as [VP VV]. split; [exact VP|]. intros w n. cbn [vars st1 arrays]. unfold set_nat. destruct (Nat.eqb_spec w v); [|apply VV].
    intros Q; injection Q as <-. exact (VP _ _ P). }
  exists (poke a i j b). destruct (poke_spec a i j b) as (A1 & A2 & A3 & A4). 
  assert (O : forall l, device_of (overwrite st1 (n_ref p) (poke a i j b)) l = if Nat.eqb l k then Some (with_state d (poke a i j b)) else device_of st l).
  { intros x. rewrite (overwrite_device st1 k p _ x S1 P). destruct (Nat.eqb_spec x k) as [->|]; [|reflexivity]. f_equal. apply (seen_with st). exact D. }
  split; [unfold shown; rewrite O, Nat.eqb_refl; reflexivity|]. repeat (split; [assumption|]).
  intros k' Hk. rewrite O. destruct (Nat.eqb_spec k' k); [congruence|reflexivity].
Qed.
Lemma poked_outside l k v i j b a k' : shown (acts empty_store l) k = Some a -> (fst (state_shape a) <= i \/ snd (state_shape a) <= j)%nat ->
  device_of (acts empty_store (l ++ [AGet v k; APoke v i j b])) k' = device_of (acts empty_store l) k'.
Proof.
  intros Hs H. unfold acts at 1. rewrite fold_left_app. fold (acts empty_store l).
  set (st := acts empty_store l) in *. clearbody st. destruct (shown_ref _ _ _ Hs) as (p & d & P & D & Ha & N).
  cbn [fold_left act]. rewrite P. cbn [vars]. rewrite set_same. cbn [arrays]. rewrite N.
  destruct (in_range a i j) eqn:R; [apply in_range_spec in R; lia|]. reflexivity.
Qed.
