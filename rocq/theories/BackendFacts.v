From Coq Require Import ZArith Arith List Bool Lia.
From Verif Require Import PyBase BackendModel.
Import ListNotations.

(** ** Specification vocabulary (C31), independent of the state machine. *)
Definition is_read (o : bop) : bool :=
  match o with GetDtype | GetDtypeComplex | GetDtypeInt => true | _ => false end.
(** The operations before the first read. *)
Fixpoint unlocked_part (ops : list bop) : list bop :=
  match ops with [] => [] | o :: r => if is_read o then [] else o :: unlocked_part r end.
(** Last float32/float64 assigned in a list of operations, float32 if none. *)
Fixpoint last_assigned (d : fdtype) (ops : list bop) : fdtype :=
  match ops with [] => d | SetDtype (Dval v) :: r => last_assigned v r | _ :: r => last_assigned d r end.
Definition precision_after (ops : list bop) : fdtype := last_assigned F32 (unlocked_part ops).
Definition bits_f (d : fdtype) : Z := match d with F32 => 32 | F64 => 64 end.
(** Bits per real component / bits of an integer, as reported by an output. *)
Definition out_bits (o : bout) : option Z :=
  match o with
  | OutF F32 => Some 32 | OutF F64 => Some 64 | OutC C64 => Some 32 | OutC C128 => Some 64
  | OutI I32 => Some 32 | OutI I64 => Some 64 | _ => None
  end%Z.
Definition default_fft (gpu : bool) : Z := if gpu then 0%Z else 1%Z.
Fixpoint last_fft (d : Z) (ops : list bop) : Z :=
  match ops with [] => d | SetFft z :: r => last_fft z r | _ :: r => last_fft d r end.

Lemma last_assigned_app d a b : last_assigned d (a ++ b) = last_assigned (last_assigned d a) b.
Proof. revert d. induction a as [|o a IH]; intros d; simpl; [reflexivity|]. destruct o as [| | |[]| |]; simpl; auto. Qed.
Lemma last_fft_app d a b : last_fft d (a ++ b) = last_fft (last_fft d a) b.
Proof. revert d. induction a as [|o a IH]; intros d; simpl; [reflexivity|]. destruct o as [| | |[]| |]; simpl; auto. Qed.
Lemma unlocked_app a o : unlocked_part (a ++ [o]) =
  if existsb is_read a then unlocked_part a else a ++ (if is_read o then [] else [o]).
Proof.
  induction a as [|x a IH]; simpl; [reflexivity|]. destruct (is_read x) eqn:R; simpl; [reflexivity|].
  rewrite IH. destruct (existsb is_read a); reflexivity.
Qed.
Lemma unlocked_no_read a : existsb is_read a = false -> unlocked_part a = a.
Proof. induction a as [|x a IH]; simpl; [reflexivity|]. destruct (is_read x); simpl; [discriminate|]. intros H. rewrite IH; auto. Qed.

Definition run_from b ops := fst (backend_run b ops).
Lemma backend_run_app b a o : backend_run b (a ++ [o]) =
  let (b1, rs) := backend_run b a in let (b2, r) := backend_step b1 o in (b2, rs ++ [r]).
Proof.
  revert b. induction a as [|x a IH]; intros b; simpl.
  - destruct (backend_step b o); reflexivity.
  - destruct (backend_step b x) as [b1 r1]. rewrite IH. destruct (backend_run b1 a) as [b2 rs].
    destruct (backend_step b2 o). reflexivity.
Qed.
Lemma backend_state gpu ops :
  let b := fst (backend_run (backend_init gpu) ops) in
  be_init b = existsb is_read ops /\ be_dtype b = precision_after ops /\ be_fft b = last_fft (default_fft gpu) ops.
Proof.
  induction ops as [|o a IH] using rev_ind; [destruct gpu; repeat split|].
  simpl. rewrite backend_run_app. destruct (backend_run (backend_init gpu) a) as [b1 rs]. simpl in IH.
  destruct IH as (I & D & F).
  destruct (backend_step b1 o) as [b2 r] eqn:E. simpl.
  rewrite existsb_app. simpl. rewrite orb_false_r.
  unfold precision_after in *. rewrite unlocked_app, last_fft_app.
  assert (U : be_init b1 = false -> unlocked_part a = a) by (rewrite I; apply unlocked_no_read).
  rewrite <- I in *.
  destruct o as [| | |v| |z]; simpl in E.
  1,2,3: inversion E; subst; simpl; rewrite orb_true_r; split; [reflexivity|]; split; [|exact F];
    rewrite D; destruct (be_init b1); [reflexivity|]; rewrite app_nil_r, U; reflexivity.
  - simpl is_read. rewrite orb_false_r. destruct (be_init b1) eqn:B.
    + inversion E; subst. simpl. rewrite B. split; [reflexivity|]. split; [exact D|]. rewrite F. destruct v; reflexivity.
    + rewrite U in D by reflexivity. rewrite last_assigned_app. destruct v; inversion E; subst; simpl;
        (split; [first [assumption|reflexivity]|]; split; [auto|exact F]).
  - inversion E; subst. simpl is_read. rewrite orb_false_r. simpl. split; [reflexivity|]. split; [|exact F].
    destruct (be_init b2) eqn:B; [exact D|]. rewrite U in D by reflexivity. rewrite last_assigned_app. exact D.
  - inversion E; subst. simpl is_read. rewrite orb_false_r. simpl. split; [reflexivity|]. split; [|reflexivity].
    destruct (be_init b1) eqn:B; [exact D|]. rewrite U in D by reflexivity. rewrite last_assigned_app. exact D.
Qed.
Lemma backend_run_nth gpu ops n o :
  nth_error ops n = Some o ->
  nth_error (snd (backend_run (backend_init gpu) ops)) n =
  Some (snd (backend_step (fst (backend_run (backend_init gpu) (firstn n ops))) o)).
Proof.
  generalize (backend_init gpu) as b. revert n. induction ops as [|x r IH]; intros n b H; [destruct n; discriminate|].
  destruct n; simpl in *.
  - inversion H; subst. destruct (backend_step b o) as [b1 r1]. destruct (backend_run b1 r). reflexivity.
  - destruct (backend_step b x) as [b1 r1]. specialize (IH n b1 H).
    destruct (backend_run b1 r) as [b2 rs]. simpl in *. rewrite IH.
    destruct (backend_run b1 (firstn n r)). reflexivity.
Qed.

(** The behaviour of every operation in every history. *)
Definition expected (gpu : bool) (before : list bop) (o : bop) : res bout :=
  match o with
  | GetDtype => Ok (OutF (precision_after before))
  | GetDtypeComplex => Ok (OutC (match precision_after before with F32 => C64 | F64 => C128 end))
  | GetDtypeInt => Ok (OutI (match precision_after before with F32 => I32 | F64 => I64 end))
  | SetDtype v => if existsb is_read before then Err AssertionError
                  else match v with Dval _ => Ok OutUnit | Dother => Err ValueError end
  | GetFft => Ok (OutZ (last_fft (default_fft gpu) before))
  | SetFft _ => Ok OutUnit
  end.
Lemma backend_history gpu ops n o :
  nth_error ops n = Some o ->
  nth_error (snd (backend_run (backend_init gpu) ops)) n = Some (expected gpu (firstn n ops) o).
Proof.
  intros H. rewrite (backend_run_nth _ _ _ _ H). f_equal.
  destruct (backend_state gpu (firstn n ops)) as (I & D & F).
  destruct (backend_run (backend_init gpu) (firstn n ops)) as [b rs]. simpl in *.
  destruct o as [| | |v| |]; simpl; rewrite ?D, ?F; try reflexivity.
  rewrite I. destruct (existsb is_read (firstn n ops)); [reflexivity|]. destruct v; reflexivity.
Qed.
(** Once read, the precision never changes again. *)
Lemma precision_locked a b : existsb is_read a = true -> precision_after (a ++ b) = precision_after a.
Proof.
  unfold precision_after. intros H. f_equal. induction a as [|x a IH]; simpl in *; [discriminate|].
  destruct (is_read x); [reflexivity|]. simpl in H. rewrite IH; auto.
Qed.

(** ** Caching (C54) *)
Section Cached.
Context {V : Type} (compute : nat -> fdtype -> V).
(** Reference semantics without a cache. *)
Definition fresh_step (b : backend) (o : pop) : backend * pout (V := V) :=
  match o with
  | PBackend o => let (b', r) := backend_step b o in (b', PoutB r)
  | PGrid k => (mark b, PoutV (compute k (be_dtype b)))
  end.
Fixpoint fresh_run (b : backend) (ops : list pop) : backend * list pout :=
  match ops with
  | [] => (b, [])
  | o :: os => let (b1, r) := fresh_step b o in let (b2, rs) := fresh_run b1 os in (b2, r :: rs)
  end.
Definition cache_ok (s : proc (V := V)) : Prop :=
  (forall k v, In (k, v) (pr_cache s) -> v = compute k (be_dtype (pr_be s))) /\
  (pr_cache s <> [] -> be_init (pr_be s) = true) /\
  length (pr_cache s) <= lru_maxsize /\ NoDup (map fst (pr_cache s)).
Lemma lru_find_in k (c : lru V) v : lru_find k c = Some v -> In (k, v) c.
Proof.
  induction c as [|[k' v'] r IH]; simpl; [discriminate|].
  destruct (Nat.eqb_spec k k') as [->|]; [intros H; inversion H; auto|auto].
Qed.
Lemma lru_find_none k (c : lru V) : lru_find k c = None -> ~ In k (map fst c).
Proof.
  induction c as [|[k' v'] r IH]; simpl; [auto|].
  destruct (Nat.eqb_spec k k') as [->|]; [discriminate|]. intros H [->|Hin]; [congruence|]. apply IH; assumption.
Qed.
Lemma lru_remove_in k (c : lru V) (x : nat * V) : In x (lru_remove k c) -> In x c.
Proof.
  induction c as [|[k' v'] r IH]; simpl; [auto|]. destruct (Nat.eqb k k'); simpl; [auto|]. intros [->|H]; auto.
Qed.
Lemma lru_remove_length k (c : lru V) v : lru_find k c = Some v -> S (length (lru_remove k c)) = length c.
Proof.
  induction c as [|[k' v'] r IH]; simpl; [discriminate|]. destruct (Nat.eqb k k'); simpl; [reflexivity|]. intros H. rewrite IH; auto.
Qed.
Lemma lru_remove_nodup k (c : lru V) : NoDup (map fst c) -> NoDup (map fst (lru_remove k c)) /\ ~ In k (map fst (lru_remove k c)).
Proof.
  induction c as [|[k' v'] r IH]; simpl; [auto|]. intros H. inversion H as [|? ? Hn Hr]; subst.
  destruct (Nat.eqb_spec k k') as [->|ne].
  - auto.
  - simpl. destruct (IH Hr) as [H1 H2]. split.
    + constructor; [|exact H1]. intros Hin. apply Hn. apply in_map_iff in Hin. destruct Hin as (x & E & Hx).
      apply in_map_iff. exists x. split; [exact E|]. eapply lru_remove_in; eassumption.
    + intros [->|Hin]; [congruence|contradiction].
Qed.
Lemma removelast_in {A} (l : list A) x : In x (removelast l) -> In x l.
Proof. induction l as [|a r IH]; simpl; [auto|]. destruct r; simpl in *; [tauto|]. intros [->|H]; auto. Qed.
Lemma removelast_len {A} (l : list A) : length (removelast l) = length l - 1.
Proof.
  induction l as [|a r IH]; [reflexivity|]. destruct r as [|b r']; [reflexivity|].
  change (removelast (a :: b :: r')) with (a :: removelast (b :: r')).
  transitivity (S (length (removelast (b :: r')))); [reflexivity|]. rewrite IH. simpl. lia.
Qed.
Lemma removelast_nodup (c : lru V) : NoDup (map fst c) -> NoDup (map fst (removelast c)).
Proof.
  induction c as [|a r IH]; [auto|]. intros H. destruct r as [|b r']; [constructor|].
  change (removelast (a :: b :: r')) with (a :: removelast (b :: r')). simpl map at 1.
  inversion H as [|? ? Hn Hr]; subst. constructor; [|apply IH; exact Hr].
  intros Hin. apply Hn. apply in_map_iff in Hin. destruct Hin as (x & E & Hx).
  change (In (fst a) (map fst (b :: r'))). rewrite <- E. apply in_map. apply removelast_in; exact Hx.
Qed.
Lemma lru_insert_facts k v (c : lru V) :
  length c <= lru_maxsize -> NoDup (map fst c) -> ~ In k (map fst c) ->
  (forall x, In x (lru_insert k v c) -> x = (k, v) \/ In x c) /\
  length (lru_insert k v c) <= lru_maxsize /\ NoDup (map fst (lru_insert k v c)) /\ lru_insert k v c <> [].
Proof.
  intros L N K. unfold lru_insert. destruct (Nat.leb_spec lru_maxsize (length c)) as [B|B].
  - split; [intros x [E|Hin]; [left; congruence|right; apply removelast_in; exact Hin]|].
    split; [|split; [|discriminate]].
    + change (S (length (removelast c)) <= lru_maxsize). rewrite removelast_len. assert (1 <= lru_maxsize) by (unfold lru_maxsize; lia). lia.
    + change (NoDup (k :: map fst (removelast c))). constructor; [|apply removelast_nodup; exact N]. intros Hin. apply K.
      apply in_map_iff in Hin. destruct Hin as (x & E & Hx). rewrite <- E. apply in_map. apply removelast_in; exact Hx.
  - split; [intros x [E|Hin]; [left; congruence|right; exact Hin]|].
    split; [exact B|]. split; [|discriminate]. constructor; assumption.
Qed.
Lemma cached_step s o : cache_ok s ->
  let (s', r) := proc_step compute s o in
  let (b', r') := fresh_step (pr_be s) o in
  pr_be s' = b' /\ r = r' /\ cache_ok s'.
Proof.
  destruct s as [b c]. intros (H1 & H2 & H3 & H4). simpl in *. destruct o as [o|k]; simpl.
  - destruct (backend_step b o) as [b' r] eqn:E. simpl. split; [reflexivity|]. split; [reflexivity|].
    split; [|split; [|split; assumption]]; simpl.
    + intros k v Hin. assert (be_init b = true) as I by (apply H2; intros ->; contradiction).
      assert (be_dtype b' = be_dtype b) as ->; [|auto].
      destruct o as [| | |v'| |z]; simpl in E; try rewrite I in E; inversion E; reflexivity.
    + intros Hn. specialize (H2 Hn). destruct o as [| | |v'| |z]; simpl in E; try rewrite H2 in E; inversion E; subst; simpl; auto.
  - destruct (lru_find k c) as [v|] eqn:F.
    + assert (be_init b = true) as I by (apply H2; intros ->; discriminate).
      simpl. split; [destruct b; simpl in *; subst; reflexivity|].
      split; [f_equal; apply H1; apply lru_find_in; exact F|].
      split; [|split; [|split]]; simpl.
      * intros k' v' [E|Hin]; [inversion E; subst; apply H1; apply lru_find_in; exact F|].
        apply H1. eapply lru_remove_in; exact Hin.
      * auto.
      * pose proof (lru_remove_length _ _ _ F). lia.
      * destruct (lru_remove_nodup k c H4). constructor; assumption.
    + apply lru_find_none in F.
      destruct (lru_insert_facts k (compute k (be_dtype b)) c H3 H4 F) as (Q1 & Q2 & Q3 & Q4).
      split; [reflexivity|]. split; [reflexivity|]. split; [|split; [|split]]; cbn [pr_cache pr_be be_dtype be_init mark].
      * intros k' v' Hin. destruct (Q1 _ Hin) as [E|Hc]; [inversion E; reflexivity|apply H1; exact Hc].
      * reflexivity.
      * exact Q2.
      * exact Q3.
Qed.
Lemma cached_run s ops : cache_ok s ->
  let (s', rs) := proc_run compute s ops in
  let (b', rs') := fresh_run (pr_be s) ops in
  pr_be s' = b' /\ rs = rs' /\ cache_ok s'.
Proof.
  revert s. induction ops as [|o os IH]; intros s H; simpl; [auto|].
  pose proof (cached_step s o H) as Hs. destruct (proc_step compute s o) as [s1 r]. destruct (fresh_step (pr_be s) o) as [b1 r'].
  destruct Hs as (E1 & E2 & H'). specialize (IH s1 H'). rewrite E1 in IH.
  destruct (proc_run compute s1 os) as [s2 rs]. destruct (fresh_run b1 os) as [b2 rs'].
  destruct IH as (E3 & E4 & H''). subst. auto.
Qed.
Lemma cache_ok_init gpu : cache_ok (proc_init gpu).
Proof. repeat split; simpl; try (intros; contradiction); try constructor; try (intros H; exfalso; apply H; reflexivity). unfold lru_maxsize. lia. Qed.
Lemma cache_transparent gpu ops :
  snd (proc_run compute (proc_init gpu) ops) = snd (fresh_run (backend_init gpu) ops) /\
  length (pr_cache (fst (proc_run compute (proc_init gpu) ops))) <= 128.
Proof.
  pose proof (cached_run (proc_init gpu) ops (cache_ok_init gpu)) as H.
  destruct (proc_run compute (proc_init gpu) ops) as [s rs]. simpl pr_be in H.
  destruct (fresh_run (backend_init gpu) ops) as [b rs']. destruct H as (_ & -> & _ & _ & H & _). split; [reflexivity|exact H].
Qed.
(** Every access to the same object returns the same grid. *)
Lemma fresh_locked b ops : be_init b = true ->
  forall n k, nth_error ops n = Some (PGrid k) -> nth_error (snd (fresh_run b ops)) n = Some (PoutV (compute k (be_dtype b))).
Proof.
  revert b. induction ops as [|o os IH]; intros b I n k H; [destruct n; discriminate|].
  simpl. destruct (fresh_step b o) as [b1 r] eqn:E.
  assert (be_init b1 = true /\ be_dtype b1 = be_dtype b) as [I1 D1].
  { destruct o as [[| | |v'| |z]|k']; simpl in E; try rewrite I in E; inversion E; subst; simpl; auto. }
  destruct n; simpl in H.
  - inversion H; subst. simpl in E. inversion E; subst. destruct (fresh_run (mark b) os). reflexivity.
  - specialize (IH b1 I1 n k H). destruct (fresh_run b1 os) as [b2 rs]. simpl in *. rewrite IH, D1. reflexivity.
Qed.
Lemma fresh_same b ops n m k :
  n <= m -> nth_error ops n = Some (PGrid k) -> nth_error ops m = Some (PGrid k) ->
  nth_error (snd (fresh_run b ops)) n = nth_error (snd (fresh_run b ops)) m.
Proof.
  revert b n m. induction ops as [|o os IH]; intros b n m L Hn Hm; [destruct n; discriminate|].
  simpl. destruct (fresh_step b o) as [b1 r] eqn:E.
  destruct n; simpl in Hn.
  - inversion Hn; subst. simpl in E. inversion E; subst. destruct m; [reflexivity|]. simpl in Hm.
    pose proof (fresh_locked (mark b) os eq_refl m k Hm) as Q.
    destruct (fresh_run (mark b) os). simpl in *. rewrite Q. reflexivity.
  - destruct m; [lia|]. simpl in Hm. specialize (IH b1 n m ltac:(lia) Hn Hm).
    destruct (fresh_run b1 os). exact IH.
Qed.
Lemma cache_stable gpu ops n m k :
  nth_error ops n = Some (PGrid k) -> nth_error ops m = Some (PGrid k) ->
  nth_error (snd (proc_run compute (proc_init gpu) ops)) n = nth_error (snd (proc_run compute (proc_init gpu) ops)) m.
Proof.
  intros Hn Hm. destruct (cache_transparent gpu ops) as [-> _].
  destruct (Nat.le_ge_cases n m); [|symmetry]; eapply fresh_same; eassumption.
Qed.
End Cached.
