(** Transforms, attribute assignment, as_complex_profile (C24-C26). *)
From Coq Require Import Reals Lra Psatz ZArith Arith List Bool Lia.
From Coquelicot Require Import Complex.
From Verif Require Import Cx PyBase ProfileModel ProfSpec ProfFacts.
Import ListNotations.
Open Scope R_scope.

(** ** Transforms *)
Lemma transform_formulas h p x y : 
  (forall dx dy, func h (p_shift p dx dy) x y = func h p (x - dx) (y - dy)) /\
  (forall t, func h (p_rotate p t) x y = func h p (cos t * x - sin t * y) (sin t * x + cos t * y)) /\
  (forall m, m <> 0 -> func h (p_rescale_x p m) x y = func h p (x / m) y) /\
  (forall m, m <> 0 -> func h (p_rescale_y p m) x y = func h p x (y / m)).
Proof.
  repeat split; intros; try reflexivity; cbn [p_rescale_x p_rescale_y func]; destruct (Req_EM_T m 0); [contradiction|reflexivity|contradiction|reflexivity].
Qed.
Lemma transforms_compose h p :
  (forall a b c d, same_value h (p_shift (p_shift p a b) c d) h (p_shift p (a + c) (b + d))) /\
  (forall s t, same_value h (p_rotate (p_rotate p s) t) h (p_rotate p (s + t))) /\
  (forall m n, m <> 0 -> n <> 0 -> same_value h (p_rescale_x (p_rescale_x p m) n) h (p_rescale_x p (m * n))) /\
  (forall m n, m <> 0 -> n <> 0 -> same_value h (p_rescale_y (p_rescale_y p m) n) h (p_rescale_y p (m * n))) /\
  (forall m n, same_value h (p_rescale_x (p_rescale_y p m) n) h (p_rescale_y (p_rescale_x p n) m)).
Proof.
  unfold same_value. repeat split; intros.
  - cbn [p_shift func]. f_equal; ring.
  - cbn [p_rotate func]. rewrite cos_plus, sin_plus. f_equal; ring.
  - cbn [p_rescale_x func]. destruct (Req_EM_T n 0), (Req_EM_T m 0); try contradiction. destruct (Req_EM_T (m * n) 0) as [E|_]; [apply Rmult_integral in E; tauto|].
    f_equal. field. auto.
  - cbn [p_rescale_y func]. destruct (Req_EM_T n 0), (Req_EM_T m 0); try contradiction. destruct (Req_EM_T (m * n) 0) as [E|_]; [apply Rmult_integral in E; tauto|].
    f_equal. field. auto.
  - cbn [p_rescale_x p_rescale_y func]. destruct (Req_EM_T n 0), (Req_EM_T m 0); reflexivity.
Qed.
Lemma transforms_invert h p :
  (forall a b, same_value h (p_shift (p_shift p a b) (- a) (- b)) h p) /\
  (forall t, same_value h (p_rotate (p_rotate p t) (- t)) h p) /\
  (forall k, same_value h (p_rotate p (2 * PI * IZR k)) h p) /\
  (forall m, m <> 0 -> same_value h (p_rescale_x (p_rescale_x p m) (/ m)) h p) /\
  (forall m, m <> 0 -> same_value h (p_rescale_y (p_rescale_y p m) (/ m)) h p) /\
  same_value h (p_rotate p PI) h (p_rescale_x (p_rescale_y p (-1)) (-1)).
Proof.
  unfold same_value. repeat split; intros.
  - cbn [p_shift func]. f_equal; ring.
  - cbn [p_rotate func]. rewrite cos_neg, sin_neg. assert (T := sin2_cos2 t). unfold Rsqr in T. f_equal.
    + transitivity ((sin t * sin t + cos t * cos t) * x); [ring|rewrite T; ring].
    + transitivity ((sin t * sin t + cos t * cos t) * y); [ring|rewrite T; ring].
  - cbn [p_rotate func]. assert (E := cis_2PI_Z k). injection E as Ec Es. rewrite Ec, Es. f_equal; ring.
  - cbn [p_rescale_x func]. destruct (Req_EM_T m 0); [contradiction|]. destruct (Req_EM_T (/ m) 0) as [E|_]; [destruct (Rinv_neq_0_compat m H E)|].
    f_equal. field. auto.
  - cbn [p_rescale_y func]. destruct (Req_EM_T m 0); [contradiction|]. destruct (Req_EM_T (/ m) 0) as [E|_]; [destruct (Rinv_neq_0_compat m H E)|].
    f_equal. field. auto.
  - cbn [p_rotate p_rescale_x p_rescale_y func]. destruct (Req_EM_T (-1) 0); [lra|]. rewrite cos_PI, sin_PI. f_equal; field.
Qed.
(** Polar coordinates: the picture turns clockwise. *)
Lemma rotate_polar h p t r phi : func h (p_rotate p t) (r * cos phi) (r * sin phi) = func h p (r * cos (phi + t)) (r * sin (phi + t)).
Proof. cbn [p_rotate func]. rewrite cos_plus, sin_plus. f_equal; ring. Qed.
Lemma transform_arith t o h p q h' r : p_binop o h p q = (h', Ok r) ->
  exists r', p_binop o h (apply_t t p) (apply_operand t q) = (h', Ok r') /\ same_value h' (apply_t t r) h' r'.
Proof.
  unfold same_value. destruct q as [q|c|c|]; cbn [p_binop apply_operand]; [| | |discriminate].
  - intros E; injection E as <- <-. eexists. split; [reflexivity|]. intros x y. destruct t as [th|dx dy|m|m]; cbn [apply_t p_rotate p_shift p_rescale_x p_rescale_y func]; try reflexivity;
    destruct (Req_EM_T m 0); reflexivity.
  - destruct (new_const h (VR c)) as [h1 k] eqn:K. intros E; injection E as <- <-. eexists. split; [reflexivity|]. unfold new_const in K. destruct (h_alloc (VR c) h). injection K as <- <-.
    intros x y. destruct t as [th|dx dy|m|m]; cbn [apply_t p_rotate p_shift p_rescale_x p_rescale_y func]; try reflexivity; destruct (Req_EM_T m 0); reflexivity.
  - destruct (new_const h (VC c)) as [h1 k] eqn:K. intros E; injection E as <- <-. eexists. split; [reflexivity|]. unfold new_const in K. destruct (h_alloc (VC c) h). injection K as <- <-.
    intros x y. destruct t as [th|dx dy|m|m]; cbn [apply_t p_rotate p_shift p_rescale_x p_rescale_y func]; try reflexivity; destruct (Req_EM_T m 0); reflexivity.
Qed.
Lemma transform_pow t h p q r : p_pow p q = Ok r ->
  exists r', p_pow (apply_t t p) (apply_operand t q) = Ok r' /\ same_value h (apply_t t r) h r'.
Proof.
  unfold same_value. destruct q as [q|c|c|]; cbn [p_pow apply_operand]; intros E; try discriminate; injection E as <-; eexists; (split; [reflexivity|]); intros x y;
  destruct t as [th|dx dy|m|m]; cbn [apply_t p_rotate p_shift p_rescale_x p_rescale_y func]; try reflexivity; destruct (Req_EM_T m 0); reflexivity.
Qed.
Lemma transform_as_complex t h p : same_value h (apply_t t (p_as_complex p)) h (p_as_complex (apply_t t p)).
Proof.
  unfold same_value. intros x y. destruct t as [th|dx dy|m|m]; cbn [apply_t p_as_complex p_rotate p_shift p_rescale_x p_rescale_y func]; try reflexivity; destruct (Req_EM_T m 0); reflexivity.
Qed.

(** ** as_complex_profile *)
Lemma as_complex_value h p x y z k : gives h p x y z k -> gives h (p_as_complex p) x y (cexp (Ci * z)%C) true.
Proof. intros (v & E & <- & _). exists (VC (cexp (Ci * to_c v)%C)). cbn [p_as_complex func]. rewrite E. auto. Qed.
Lemma as_complex_real h p x y r : gives h p x y (RtoC r) false -> gives h (p_as_complex p) x y (cis r) true /\ Cmod (cis r) = 1.
Proof.
  intros H. split; [|apply Cmod_cis]. replace (cis r) with (cexp (Ci * RtoC r)%C); [apply (as_complex_value _ _ _ _ _ false), H|].
  unfold cexp, cis, Ci, RtoC, Cmult. cbn [fst snd]. replace (0 * r - 1 * 0) with 0 by ring. replace (0 * 0 + 1 * r) with r by ring. rewrite exp_0. f_equal; ring.
Qed.
Lemma gives_kind_real h p x y v : func h p x y = Ok v -> is_complex v = false -> exists r, v = VR r.
Proof. destruct v; [eauto|discriminate]. Qed.
Lemma as_complex_sum h p q x y a ka b kb : gives h p x y a ka -> gives h q x y b kb ->
  exists z, gives h (p_as_complex (PBin Oadd p q)) x y z true /\ gives h (PBin Omul (p_as_complex p) (p_as_complex q)) x y z true.
Proof.
  intros Ha Hb. exists (cexp (Ci * (a + b))%C). split.
  - apply (as_complex_value _ _ _ _ _ (ka || kb)). apply (gives_bin h Oadd); [assumption|assumption|discriminate].
  - replace (cexp (Ci * (a + b))%C) with (cexp (Ci * a) * cexp (Ci * b))%C by (rewrite <- cexp_plus; f_equal; ring).
    apply (gives_bin h Omul _ _ x y _ true _ true); [apply (as_complex_value _ _ _ _ _ ka Ha)|apply (as_complex_value _ _ _ _ _ kb Hb)|discriminate].
Qed.
Lemma as_complex_inverse h p : lives h p -> exists h' r, p_neg h p = (h', Ok r) /\ keeps h h' /\
  forall x y a k, gives h p x y a k -> gives h' (PBin Omul (p_as_complex p) (p_as_complex r)) x y (RtoC 1) true.
Proof.
  intros Hp. destruct (neg_spec h p Hp) as (h' & r & E & L & K & G). exists h', r. split; [exact E|]. split; [exact K|]. intros x y a k Ha.
  replace (RtoC 1) with (cexp (Ci * a) * cexp (Ci * (- a)))%C by (rewrite <- cexp_plus, <- cexp_0; f_equal; ring).
  apply (gives_bin h' Omul _ _ x y _ true _ true); [|apply (as_complex_value _ _ _ _ _ k), G, Ha|discriminate].
  apply (as_complex_value _ _ _ _ _ k). apply (keeps_gives h); assumption.
Qed.

(** ** Assignment *)
Lemma attr_in p f l : attr_target p f = Setter l -> In l (locs p).
Proof. destruct p, f; cbn [attr_target locs]; try discriminate; intros E; injection E as <-; cbn; tauto. Qed.
Lemma assign_other h l v l' : l <> l' -> h_val (fst (assign h l v)) l' = h_val h l'.
Proof.
  intros N. unfold assign. destruct (h_val h l), v; cbn [fst h_set h_val]; try reflexivity; destruct (Nat.eqb_spec l' l); congruence.
Qed.
Lemma assign_next h l v : h_next (fst (assign h l v)) = h_next h.
Proof. unfold assign. destruct (h_val h l), v; reflexivity. Qed.
Lemma set_frame h p f v q : (forall l, In l (locs p) -> ~ In l (locs q)) -> same_value h q (fst (set_attr h p f v)) q.
Proof.
  intros H. apply func_agree. intros l Hl. unfold set_attr. destruct (attr_target p f) as [l0| |] eqn:E; try reflexivity.
  symmetry. apply assign_other. intros ->. exact (H _ (attr_in _ _ _ E) Hl).
Qed.
Lemma set_frame_attr h p f v q l : attr_target p f = Setter l -> ~ In l (locs q) -> same_value h q (fst (set_attr h p f v)) q.
Proof. intros E N. apply func_agree. intros l' Hl. unfold set_attr. rewrite E. symmetry. apply assign_other. congruence. Qed.
Lemma set_readonly h p f v : attr_target p f = ReadOnly -> set_attr h p f v = (h, Err AttributeError).
Proof. unfold set_attr. intros ->. reflexivity. Qed.
(** Kinds of variables never change. *)
Lemma set_kind h p f v l : is_complex (h_val (fst (set_attr h p f v)) l) = is_complex (h_val h l).
Proof.
  unfold set_attr. destruct (attr_target p f) as [l0| |]; try reflexivity. unfold assign.
  destruct (h_val h l0) eqn:E, v; cbn [fst h_set h_val]; try reflexivity; destruct (Nat.eqb_spec l l0); subst; rewrite ?E; reflexivity.
Qed.
(** Build programs commute with assignment to an existing variable. *)
Definition shifted (l : loc) (v : val) (h h' : heap) : Prop := h_next h = h_next h' /\ (l < h_next h)%nat /\ forall k, h_val h' k = if Nat.eqb k l then v else h_val h k.
Lemma shifted_alloc l v h h' u : shifted l v h h' -> shifted l v (fst (h_alloc u h)) (fst (h_alloc u h')) /\ snd (h_alloc u h) = snd (h_alloc u h').
Proof.
  intros (N & L & V). unfold h_alloc. cbn [fst snd]. split; [|exact N]. split; [cbn; lia|]. split; [cbn; lia|]. intros k. cbn [h_val]. rewrite <- N.
  destruct (Nat.eqb_spec k (h_next h)), (Nat.eqb_spec k l); subst; try lia; try reflexivity; rewrite V; [rewrite Nat.eqb_refl; reflexivity|].
  destruct (Nat.eqb_spec k l); [contradiction|reflexivity].
Qed.
Lemma shifted_binop l v o h h' p q : shifted l v h h' -> shifted l v (fst (p_binop o h p q)) (fst (p_binop o h' p q)) /\ snd (p_binop o h p q) = snd (p_binop o h' p q).
Proof.
  intros S. destruct q as [q|c|c|]; cbn [p_binop]; try (split; [exact S|reflexivity]).
  - unfold new_const. destruct (shifted_alloc l v h h' (VR c) S) as [A B]. destruct (h_alloc (VR c) h) as [h1 k1], (h_alloc (VR c) h') as [h2 k2]. cbn in *. subst. auto.
  - unfold new_const. destruct (shifted_alloc l v h h' (VC c) S) as [A B]. destruct (h_alloc (VC c) h) as [h1 k1], (h_alloc (VC c) h') as [h2 k2]. cbn in *. subst. auto.
Qed.
Lemma shifted_push l v env r r' : shifted l v (fst r) (fst r') -> snd r = snd r' -> shifted l v (fst (push env r)) (fst (push env r')) /\ snd (push env r) = snd (push env r').
Proof. destruct r as [h1 [a|]], r' as [h2 [b|]]; cbn; intros S E; try discriminate; [injection E as ->|]; auto. Qed.
Lemma shifted_dop l v env h h' o : shifted l v h h' -> shifted l v (fst (run_dop (h, env) o)) (fst (run_dop (h', env) o)) /\ snd (run_dop (h, env) o) = snd (run_dop (h', env) o).
Proof.
  intros S. destruct o; cbn [run_dop];
  try (destruct (nth_error env i); [|split; [exact S|reflexivity]]; apply shifted_push; [exact S|reflexivity]);
  try (destruct (nth_error env i); [|split; [exact S|reflexivity]]; destruct (shifted_binop l v Omul h h' p (OReal (-1)) S); apply shifted_push; assumption).
  - unfold new_const. destruct (shifted_alloc l v h h' v0 S) as [A B]. destruct (h_alloc v0 h) as [h1 k1], (h_alloc v0 h') as [h2 k2]. cbn in *. subst. auto.
  - destruct (nth_error env i); [|split; [exact S|reflexivity]]. destruct (shifted_binop l v o h h' p (operand_of env q) S). apply shifted_push; assumption.
Qed.
Lemma shifted_dops l v ops : forall env h h', shifted l v h h' ->
  shifted l v (fst (run_dops ops (h, env))) (fst (run_dops ops (h', env))) /\ snd (run_dops ops (h, env)) = snd (run_dops ops (h', env)).
Proof.
  unfold run_dops. induction ops as [|o ops IH]; intros env h h' S; [split; [exact S|reflexivity]|]. cbn [fold_left].
  destruct (shifted_dop l v env h h' o S) as [A B]. destruct (run_dop (h, env) o) as [h1 e1], (run_dop (h', env) o) as [h2 e2]. cbn [fst snd] in *. subst e2. apply IH, A.
Qed.
(** Programs only allocate: existing variables keep their contents. *)
Lemma dop_keeps_vals env h o : (h_next h <= h_next (fst (run_dop (h, env) o)))%nat /\ forall l, (l < h_next h)%nat -> h_val (fst (run_dop (h, env) o)) l = h_val h l.
Proof.
  assert (A : forall u, (h_next h <= h_next (fst (h_alloc u h)))%nat /\ forall l, (l < h_next h)%nat -> h_val (fst (h_alloc u h)) l = h_val h l).
  { intros u. unfold h_alloc. cbn. split; [lia|]. intros l Hl. destruct (Nat.eqb_spec l (h_next h)); [lia|reflexivity]. }
  assert (P : forall r, fst (push env r) = fst r) by (intros [h1 [|]]; reflexivity).
  assert (B : forall b p q, (h_next h <= h_next (fst (p_binop b h p q)))%nat /\ forall l, (l < h_next h)%nat -> h_val (fst (p_binop b h p q)) l = h_val h l).
  { intros b p q. destruct q as [q|c|c|]; cbn [p_binop]; try (split; [cbn; lia|reflexivity]).
    - unfold new_const. specialize (A (VR c)). destruct (h_alloc (VR c) h). exact A.
    - unfold new_const. specialize (A (VC c)). destruct (h_alloc (VC c) h). exact A. }
  destruct o; cbn [run_dop].
  - unfold new_const. specialize (A v). destruct (h_alloc v h). exact A.
  - destruct (nth_error env i); [rewrite P; apply B|split; [cbn; lia|reflexivity]].
  - destruct (nth_error env i); [rewrite P; apply B|split; [cbn; lia|reflexivity]].
  - destruct (nth_error env i); [rewrite P|]; (split; [cbn; lia|reflexivity]).
  - destruct (nth_error env i); [rewrite P|]; (split; [cbn; lia|reflexivity]).
  - destruct (nth_error env i); [rewrite P|]; (split; [cbn; lia|reflexivity]).
  - destruct (nth_error env i); [rewrite P|]; (split; [cbn; lia|reflexivity]).
  - destruct (nth_error env i); [rewrite P|]; (split; [cbn; lia|reflexivity]).
  - destruct (nth_error env i); [rewrite P|]; (split; [cbn; lia|reflexivity]).
Qed.
Lemma dops_keep_vals ops : forall env h, (h_next h <= h_next (fst (run_dops ops (h, env))))%nat /\ forall l, (l < h_next h)%nat -> h_val (fst (run_dops ops (h, env))) l = h_val h l.
Proof.
  unfold run_dops. induction ops as [|o ops IH]; intros env h; [split; [cbn; lia|reflexivity]|]. cbn [fold_left].
  destruct (dop_keeps_vals env h o) as [A B]. destruct (run_dop (h, env) o) as [h1 e1]. cbn [fst] in *. destruct (IH e1 h1) as [A' B']. split; [lia|].
  intros l Hl. rewrite B' by lia. apply B, Hl.
Qed.
(** Creating with another parameter value. *)
Lemma alloc_reals_val l : forall h k r, nth_error l k = Some r -> h_val (fst (alloc_reals h l)) (h_next h + k)%nat = VR r.
Proof.
  assert (N : forall l h i, (i < h_next h)%nat -> h_val (fold_left (fun h r => fst (h_alloc (VR r) h)) l h) i = h_val h i).
  { clear l. induction l as [|a l IH]; intros h i Hi; [reflexivity|]. cbn [fold_left]. rewrite IH by (cbn; lia). cbn. destruct (Nat.eqb_spec i (h_next h)); [lia|reflexivity]. }
  unfold alloc_reals. cbn [fst]. induction l as [|a l IH]; intros h k r H; [destruct k; discriminate|]. cbn [fold_left]. destruct k as [|k]; cbn [nth_error] in H.
  - injection H as ->. rewrite Nat.add_0_r, N by (cbn; lia). cbn. rewrite Nat.eqb_refl. reflexivity.
  - specialize (IH (fst (h_alloc (VR a) h)) k r H). cbn in IH. rewrite Nat.add_succ_r. exact IH.
Qed.
Lemma alloc_reals_next l : forall h, h_next (fst (alloc_reals h l)) = (h_next h + length l)%nat.
Proof. unfold alloc_reals. cbn [fst]. induction l as [|a l IH]; intros h; cbn [fold_left length]; [lia|]. rewrite IH. cbn. lia. Qed.
Lemma alloc_reals_old l : forall h i, (i < h_next h)%nat -> h_val (fst (alloc_reals h l)) i = h_val h i.
Proof.
  unfold alloc_reals. cbn [fst]. induction l as [|a l IH]; intros h i Hi; [reflexivity|]. cbn [fold_left]. rewrite IH by (cbn; lia). cbn. destruct (Nat.eqb_spec i (h_next h)); [lia|reflexivity].
Qed.
Lemma alloc_reals_new l : forall h i, (h_next h + length l <= i)%nat -> h_val (fst (alloc_reals h l)) i = h_val h i.
Proof.
  unfold alloc_reals. cbn [fst]. induction l as [|a l IH]; intros h i Hi; [reflexivity|]. cbn [fold_left length] in *. rewrite IH by (cbn; lia). cbn. destruct (Nat.eqb_spec i (h_next h)); [lia|reflexivity].
Qed.
Lemma alloc_reals_shifted l k v h l' r : nth_error l k = Some r -> l' = firstn k l ++ v :: skipn (S k) l ->
  shifted (h_next h + k)%nat (VR v) (fst (alloc_reals h l)) (fst (alloc_reals h l')).
Proof.
  intros Hk El. assert (Lk : (k < length l)%nat) by (apply nth_error_Some; congruence).
  assert (Len : length l' = length l) by (subst l'; rewrite app_length, firstn_length; cbn [length]; rewrite skipn_length; lia).
  split; [rewrite !alloc_reals_next, Len; reflexivity|]. split; [rewrite alloc_reals_next; lia|]. intros i.
  destruct (Nat.lt_ge_cases i (h_next h)) as [H|H].
  { rewrite !alloc_reals_old by exact H. destruct (Nat.eqb_spec i (h_next h + k)); [lia|reflexivity]. }
  destruct (Nat.lt_ge_cases i (h_next h + length l)) as [H2|H2].
  2:{ rewrite !alloc_reals_new by (rewrite ?Len; exact H2). destruct (Nat.eqb_spec i (h_next h + k)); [lia|reflexivity]. }
  replace i with (h_next h + (i - h_next h))%nat by lia. set (m := (i - h_next h)%nat).
  destruct (nth_error l m) as [a|] eqn:Em; [|apply nth_error_None in Em; lia].
  destruct (Nat.eqb_spec (h_next h + m) (h_next h + k)) as [E|E].
  - assert (m = k) by lia. subst m. rewrite H0. apply alloc_reals_val. subst l'. rewrite nth_error_app2; rewrite firstn_length; [|lia]. replace (k - Nat.min k (length l))%nat with O by lia. reflexivity.
  - rewrite (alloc_reals_val l h m a Em). apply alloc_reals_val. subst l'. destruct (Nat.lt_ge_cases m k).
    + rewrite nth_error_app1 by (rewrite firstn_length; lia). rewrite <- Em. rewrite <- (firstn_skipn k l) at 2. rewrite nth_error_app1 by (rewrite firstn_length; lia). reflexivity.
    + rewrite nth_error_app2 by (rewrite firstn_length; lia). rewrite firstn_length. replace (m - Nat.min k (length l))%nat with (S (m - S k)) by lia. cbn [nth_error].
      rewrite <- Em. rewrite <- (firstn_skipn (S k) l) at 2. rewrite nth_error_app2 by (rewrite firstn_length; lia). rewrite firstn_length. f_equal. lia.
Qed.
Lemma alloc_reals_get l h k r : nth_error l k = Some r -> h_val (fst (alloc_reals h l)) (h_next h + k)%nat = VR r.
Proof. apply alloc_reals_val. Qed.

Lemma shifted_set l v h h' : shifted l v h h' -> same_heap (h_set l v h) h'.
Proof. intros (N & _ & V). split; [exact N|]. intros k. rewrite V. reflexivity. Qed.
Definition settable (h h1 : heap) (p : prof) (f : field) (v : val) (c' : creation) : Prop :=
  exists l w h1', attr_target p f = Setter l /\ create h c' = Ok (h1', p) /\ shifted l w h1 h1' /\
    forall h2, h_val h2 l = h_val h1 l -> assign h2 l v = (h_set l w h2, Ok tt).
Lemma settable_reals (mk : loc -> prof) (c c' : creation) f l l' k r v h :
  (forall h, create h c = Ok (fst (alloc_reals h l), mk (h_next h))) -> (forall h, create h c' = Ok (fst (alloc_reals h l'), mk (h_next h))) ->
  (forall b, attr_target (mk b) f = Setter (b + k)%nat) -> nth_error l k = Some r -> l' = firstn k l ++ v :: skipn (S k) l ->
  settable h (fst (alloc_reals h l)) (mk (h_next h)) f (VR v) c'.
Proof.
  intros _ C' A N E. exists (h_next h + k)%nat, (VR v), (fst (alloc_reals h l')). split; [apply A|]. split; [apply C'|]. split; [apply (alloc_reals_shifted l k v h l' r N E)|].
  intros h2 H2. unfold assign. rewrite H2, (alloc_reals_get l h k r N). reflexivity.
Qed.
Lemma ok_pair {A B} (a c : A) (b d : B) : @Ok (A * B) (a, b) = Ok (c, d) -> a = c /\ b = d.
Proof. intros E. injection E as -> ->. auto. Qed.
Lemma create_settable c f v c' h h1 p : create h c = Ok (h1, p) -> with_field c f v = Some c' -> settable h h1 p f v c'.
Proof.
  assert (K0 : forall b, (b + 0)%nat = b) by (intros; lia).
  destruct c as [u|x0 y0 a w n m|x0 y0 a w q|a radius n m nz ex|x0 y0 wx wy|x0 y0 rr]; cbn [with_field].
  - intros C W. assert (exists u', is_complex u' = is_complex u /\ f = Fc /\ c' = NewConst u' /\ (forall h2 l, h_val h2 l = u -> assign h2 l v = (h_set l u' h2, Ok tt))) as (u' & Ku & -> & -> & HA).
    { destruct u as [u|u], f, v as [v|v]; try discriminate; injection W as <-;
      [exists (VR v)|exists (VC (RtoC v))|exists (VC v)]; (split; [reflexivity|]; split; [reflexivity|]; split; [reflexivity|]; intros h2 l E; unfold assign; rewrite E; reflexivity). }
    cbn [create] in C. unfold new_const, h_alloc in C. injection C as <- <-. exists (h_next h), u'. eexists. split; [reflexivity|]. split; [reflexivity|]. split.
    + split; [reflexivity|]. split; [cbn; lia|]. intros k. cbn. destruct (Nat.eqb k (h_next h)); reflexivity.
    + intros h2 H2. apply HA. rewrite H2. cbn. rewrite Nat.eqb_refl. reflexivity.
  - intros C W. cbn [create] in C. unfold hg_new in C. destruct ((n <? 0)%Z || (m <? 0)%Z)%bool eqn:G; [discriminate|].
    pose (mk := fun l : nat => PHG l (l + 1)%nat (l + 2)%nat (l + 3)%nat (Z.to_nat n) (Z.to_nat m)).
    assert (CC : forall x0 y0 a w h, create h (NewHG x0 y0 a w n m) = Ok (fst (alloc_reals h [x0; y0; a; w]), mk (h_next h)))
      by (intros; cbn [create]; unfold hg_new; rewrite G; reflexivity).
    assert (C2 := CC x0 y0 a w h). unfold create, hg_new in C2. rewrite G in C2. rewrite C2 in C. clear C2. apply ok_pair in C. destruct C as [<- <-].
    destruct f, v; try discriminate; injection W as <-.
    + eapply (settable_reals mk (NewHG x0 y0 a w n m) _ _ _ _ 0%nat); [apply CC|apply CC|intros; rewrite K0; reflexivity|reflexivity|reflexivity].
    + eapply (settable_reals mk (NewHG x0 y0 a w n m) _ _ _ _ 1%nat); [apply CC|apply CC|reflexivity|reflexivity|reflexivity].
    + eapply (settable_reals mk (NewHG x0 y0 a w n m) _ _ _ _ 2%nat); [apply CC|apply CC|reflexivity|reflexivity|reflexivity].
    + eapply (settable_reals mk (NewHG x0 y0 a w n m) _ _ _ _ 3%nat); [apply CC|apply CC|reflexivity|reflexivity|reflexivity].
  - intros C W.
    pose (mk := fun l : nat => PSG l (l + 1)%nat (l + 2)%nat (l + 3)%nat (l + 4)%nat).
    assert (CC : forall x0 y0 a w q h, create h (NewSG x0 y0 a w q) = Ok (fst (alloc_reals h [x0; y0; a; w; q]), mk (h_next h))) by reflexivity.
    rewrite (CC x0 y0 a w q h) in C. apply ok_pair in C. destruct C as [<- <-].
    destruct f, v; try discriminate; injection W as <-.
    + eapply (settable_reals mk (NewSG x0 y0 a w q) _ _ _ _ 0%nat); [apply CC|apply CC|intros; rewrite K0; reflexivity|reflexivity|reflexivity].
    + eapply (settable_reals mk (NewSG x0 y0 a w q) _ _ _ _ 1%nat); [apply CC|apply CC|reflexivity|reflexivity|reflexivity].
    + eapply (settable_reals mk (NewSG x0 y0 a w q) _ _ _ _ 2%nat); [apply CC|apply CC|reflexivity|reflexivity|reflexivity].
    + eapply (settable_reals mk (NewSG x0 y0 a w q) _ _ _ _ 3%nat); [apply CC|apply CC|reflexivity|reflexivity|reflexivity].
    + eapply (settable_reals mk (NewSG x0 y0 a w q) _ _ _ _ 4%nat); [apply CC|apply CC|reflexivity|reflexivity|reflexivity].
  - intros C W. destruct f, v; try discriminate; injection W as <-. cbn [create] in C. unfold zernike_new in C.
    destruct (negb (m <=? n)%Z) eqn:G1; [discriminate|]. destruct (negb ((n - m) mod 2 =? 0)%Z) eqn:G2; [discriminate|]. destruct (zern_norm n m nz) as [nrm|] eqn:G3; [|discriminate].
    cbn [rbind h_alloc] in C. injection C as <- <-.
    exists (h_next h), (VR r). eexists. split; [reflexivity|]. split; [cbn [create]; unfold zernike_new; rewrite G1, G2, G3; reflexivity|]. split.
    + split; [reflexivity|]. split; [cbn; lia|]. intros k. cbn. destruct (Nat.eqb k (h_next h)); reflexivity.
    + intros h2 H2. unfold assign. rewrite H2. cbn. rewrite Nat.eqb_refl. reflexivity.
  - intros C W.
    pose (mk := fun l : nat => PRect l (l + 1)%nat (l + 2)%nat (l + 3)%nat).
    assert (CC : forall x0 y0 wx wy h, create h (NewRect x0 y0 wx wy) = Ok (fst (alloc_reals h [x0; y0; wx; wy]), mk (h_next h))) by reflexivity.
    rewrite (CC x0 y0 wx wy h) in C. apply ok_pair in C. destruct C as [<- <-].
    destruct f, v; try discriminate; injection W as <-.
    + eapply (settable_reals mk (NewRect x0 y0 wx wy) _ _ _ _ 0%nat); [apply CC|apply CC|intros; rewrite K0; reflexivity|reflexivity|reflexivity].
    + eapply (settable_reals mk (NewRect x0 y0 wx wy) _ _ _ _ 1%nat); [apply CC|apply CC|reflexivity|reflexivity|reflexivity].
    + eapply (settable_reals mk (NewRect x0 y0 wx wy) _ _ _ _ 2%nat); [apply CC|apply CC|reflexivity|reflexivity|reflexivity].
    + eapply (settable_reals mk (NewRect x0 y0 wx wy) _ _ _ _ 3%nat); [apply CC|apply CC|reflexivity|reflexivity|reflexivity].
  - intros C W.
    pose (mk := fun l : nat => PCirc l (l + 1)%nat (l + 2)%nat).
    assert (CC : forall x0 y0 rr h, create h (NewCirc x0 y0 rr) = Ok (fst (alloc_reals h [x0; y0; rr]), mk (h_next h))) by reflexivity.
    rewrite (CC x0 y0 rr h) in C. apply ok_pair in C. destruct C as [<- <-].
    destruct f, v; try discriminate; injection W as <-.
    + eapply (settable_reals mk (NewCirc x0 y0 rr) _ _ _ _ 0%nat); [apply CC|apply CC|intros; rewrite K0; reflexivity|reflexivity|reflexivity].
    + eapply (settable_reals mk (NewCirc x0 y0 rr) _ _ _ _ 1%nat); [apply CC|apply CC|reflexivity|reflexivity|reflexivity].
    + eapply (settable_reals mk (NewCirc x0 y0 rr) _ _ _ _ 2%nat); [apply CC|apply CC|reflexivity|reflexivity|reflexivity].
Qed.
Lemma assign_as_built c f v c' h h1 p env ops : create h c = Ok (h1, p) -> with_field c f v = Some c' ->
  exists h1', create h c' = Ok (h1', p) /\
    let s := run_dops ops (h1, env) in let s' := run_dops ops (h1', env) in
    snd s = snd s' /\ snd (set_attr (fst s) p f v) = Ok tt /\ same_heap (fst (set_attr (fst s) p f v)) (fst s') /\
    forall q, same_value (fst (set_attr (fst s) p f v)) q (fst s') q.
Proof.
  intros C W. destruct (create_settable c f v c' h h1 p C W) as (l & w & h1' & A & C' & S & HA). exists h1'. split; [exact C'|]. intros s s'.
  destruct (shifted_dops l w ops env h1 h1' S) as [SS SE]. fold s s' in SS, SE. split; [exact SE|].
  assert (E : set_attr (fst s) p f v = (h_set l w (fst s), Ok tt)).
  { unfold set_attr. rewrite A. apply HA. apply dops_keep_vals. destruct S as (_ & L & _). exact L. }
  rewrite E. cbn [fst snd]. split; [reflexivity|]. split; [apply shifted_set, SS|]. intros q. apply same_heap_value, shifted_set, SS.
Qed.
(** Objects that existed before are not affected. *)
Lemma create_fresh c h h1 p : create h c = Ok (h1, p) -> forall l, In l (locs p) -> (h_next h <= l)%nat.
Proof.
  destruct c; cbn [create]; unfold new_const, hg_new, zernike_new; cbn [alloc_reals h_alloc];
  try (destruct (_ || _)%bool; [discriminate|]);
  try (destruct (negb _); [discriminate|]; destruct (negb _); [discriminate|]; destruct (zern_norm _ _ _); [|discriminate]; cbn [rbind h_alloc]);
  intros E; injection E as <- <-; cbn [locs]; intros l Hl; cbn in Hl; intuition lia.
Qed.
Lemma assign_frame c h h1 p env ops f v q : create h c = Ok (h1, p) -> lives h q -> same_value h1 q h q ->
  same_value h q (fst (set_attr (fst (run_dops ops (h1, env))) p f v)) q.
Proof.
  intros C L E x y. rewrite <- E. rewrite <- (set_frame (fst (run_dops ops (h1, env))) p f v q).
  - apply func_agree. intros l Hl. symmetry. apply dops_keep_vals. specialize (L l Hl).
    assert (h_next h <= h_next h1)%nat; [|lia]. revert C. clear. destruct c; cbn [create]; unfold new_const, hg_new, zernike_new; cbn [alloc_reals h_alloc];
    try (destruct (_ || _)%bool; [discriminate|]);
    try (destruct (negb _); [discriminate|]; destruct (negb _); [discriminate|]; destruct (zern_norm _ _ _); [|discriminate]; cbn [rbind h_alloc]);
    intros E; injection E as <- <-; cbn; lia.
  - intros l Hl Hq. assert (A := create_fresh _ _ _ _ C l Hl). specialize (L l Hq). lia.
Qed.
Lemma create_keeps c h h1 p : create h c = Ok (h1, p) -> keeps h h1 /\ lives h1 p.
Proof.
  assert (A : forall l, keeps h (fst (alloc_reals h l))).
  { intros l q Hq. split; [intros k Hk; rewrite alloc_reals_next; specialize (Hq k Hk); lia|]. apply func_agree. intros k Hk. symmetry. apply alloc_reals_old, Hq, Hk. }
  destruct c as [u|x0 y0 a w n m|x0 y0 a w q|a radius n m nz ex|x0 y0 wx wy|x0 y0 rr]; cbn [create].
  - intros E. injection E as <- <-. split; [apply alloc_keeps|]. intros l [<-|[]]. cbn. lia.
  - unfold hg_new. destruct (_ || _)%bool; [discriminate|]. intros E. injection E as <- <-. split; [apply (A [x0; y0; a; w])|]. intros l Hl. cbn in *. lia.
  - intros E. injection E as <- <-. split; [apply (A [x0; y0; a; w; q])|]. intros l Hl. cbn in *. lia.
  - unfold zernike_new. destruct (negb _); [discriminate|]. destruct (negb _); [discriminate|]. destruct (zern_norm _ _ _); [|discriminate]. cbn [rbind].
    destruct (h_alloc (VR a) h) as [h' l'] eqn:K. intros E. injection E as <- <-. split; [|intros l [<-|[]]; injection K as <- <-; cbn; lia].
    change h' with (fst (h', l')). rewrite <- K. apply alloc_keeps.
  - intros E. injection E as <- <-. split; [apply (A [x0; y0; wx; wy])|]. intros l Hl. cbn in *. lia.
  - intros E. injection E as <- <-. split; [apply (A [x0; y0; rr])|]. intros l Hl. cbn in *. lia.
Qed.
Lemma assign_frame_old c h h1 p env ops f v q : create h c = Ok (h1, p) -> lives h q ->
  same_value h q (fst (set_attr (fst (run_dops ops (h1, env))) p f v)) q.
Proof.
  intros C L. apply (assign_frame c h h1 p env ops f v q C L). destruct (create_keeps _ _ _ _ C) as [K _]. destruct (K q L) as [_ S]. intros x y. symmetry. apply S.
Qed.
(** LaguerreGaussian has no setters: assignment is accepted and does nothing. *)
Lemma lg_assign_ignored h x0 y0 a w l p h1 q f v : lg_new h x0 y0 a w l p = Ok (h1, q) -> set_attr h1 q f v = (h1, Ok tt).
Proof. unfold lg_new. destruct (p <? 0)%Z; [discriminate|]. cbn [alloc_reals]. intros E; injection E as <- <-. destruct f; reflexivity. Qed.
