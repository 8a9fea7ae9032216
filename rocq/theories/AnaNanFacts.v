(** Phase maps with missing samples (C156). *)
From Coq Require Import Reals Lra ZArith Arith List Bool Lia.
From Verif Require Import Cx Sums PyBase ProfileModel SlmModel LibModel ZernSpec AnaSpec AnalysisModel AnsiFacts AnaFacts AnaThms SimFacts2 IftaFacts AnaNanModel AnaNanSpec.
Import ListNotations.
Open Scope R_scope.

Lemma ap_iff ny nx radius i j : aperture ny nx radius i j = true <-> dist_sq ny nx i j < radius ^ 2.
Proof. rewrite ap_spec. destruct (Rlt_dec _ _); intuition (try discriminate; try lra). Qed.
Lemma some_selected ny nx radius : count ny nx (aperture ny nx radius) <> 0 -> exists i j, (i < ny)%nat /\ (j < nx)%nat /\ aperture ny nx radius i j = true.
Proof.
  rewrite count_inside. intros H. destruct (inside ny nx radius) as [|[i j] l] eqn:E; [cbn in H; lra|]. exists i, j.
  destruct (proj1 (in_inside ny nx radius i j)) as (Hi & Hj & D); [rewrite E; left; reflexivity|]. split; [exact Hi|]. split; [exact Hj|]. apply ap_iff. exact D.
Qed.
Lemma count_pos ny nx radius i j : (i < ny)%nat -> (j < nx)%nat -> dist_sq ny nx i j < radius ^ 2 -> count ny nx (aperture ny nx radius) <> 0.
Proof.
  intros Hi Hj D. rewrite count_inside. assert (I : In (i, j) (inside ny nx radius)) by (apply in_inside; auto).
  destruct (inside ny nx radius); [destruct I|]. cbn [length]. apply not_0_INR. discriminate.
Qed.
Section M.
Variables (h : heap) (ny nx : nat) (radius : R).
Local Notation holed := (AnaNanSpec.holed ny nx).
Local Notation outside_only := (AnaNanSpec.outside_only ny nx radius).
Local Notation of_map := (AnaNanSpec.of_map ny nx).
Lemma coef_holed f m M z : outside_only f -> holed f m M -> m_coefficient ny nx radius m z = coefficient ny nx radius M z.
Proof.
  intros O H. unfold m_coefficient, coefficient, mean_sel. destruct (Req_EM_T _ 0) as [_|N]; [destruct M; reflexivity|].
  destruct M as [g|].
  - rewrite allb2_true.
    + f_equal. f_equal. apply rsum2_ext. intros i j Hi Hj. rewrite H by assumption. destruct (aperture ny nx radius i j) eqn:A; [|reflexivity].
      apply ap_iff in A. destruct (f i j) eqn:E; [reflexivity|destruct (O i j Hi Hj A E)].
    + intros i j Hi Hj. rewrite H by assumption. destruct (aperture ny nx radius i j) eqn:A; [|reflexivity].
      apply ap_iff in A. destruct (f i j) eqn:E; [reflexivity|destruct (O i j Hi Hj A E)].
  - destruct (some_selected _ _ _ N) as (i & j & Hi & Hj & A). rewrite (allb2_false _ _ _ i j Hi Hj); [reflexivity|]. rewrite A, H by assumption. reflexivity.
Qed.
Lemma sub_holed f m M c z : holed f m M -> holed f (m_sub m c z) (sub_mode M c z).
Proof. intros H i j Hi Hj. unfold m_sub, sub_mode. rewrite H by assumption. destruct M, c, (f i j); reflexivity. Qed.
Lemma remove_holed f : outside_only f -> forall l m M, holed f m M ->
  match remove_terms h ny nx radius l M, m_remove_terms h ny nx radius l m with Ok r, Ok g => holed f g r | Err e, Err e' => e' = e | _, _ => False end.
Proof.
  intros O. induction l as [|[n k] l IH]; intros m M H; cbn [remove_terms m_remove_terms]; [exact H|].
  destruct (zernike_on_grid h ny nx radius n k false) as [z|e]; cbn [rbind]; [|reflexivity].
  apply IH. rewrite (coef_holed f m M z O H). apply sub_holed. exact H.
Qed.
Lemma of_holed f P : of_map f P -> holed f f (Some P).
Proof. intros H i j Hi Hj. destruct (H i j Hi Hj) as [-> | ->]; reflexivity. Qed.
Lemma trivial_outside f P d : of_map f P -> outside_only f ->
  match remove_trivial_phase h ny nx P radius d, m_remove_trivial_phase h ny nx f radius d with Ok r, Ok g => holed f g r | Err e, Err e' => e' = e | _, _ => False end.
Proof. intros H O. apply remove_holed; [exact O|]. apply of_holed. exact H. Qed.
Lemma loop_holed f P e : of_map f P -> outside_only f -> forall l cs a b, (forall i j, (i < ny)%nat -> (j < nx)%nat -> b i j = option_map (fun g => g i j) a) ->
  match decompose_loop h ny nx radius e P l (cs, a), m_decompose_loop h ny nx radius e f l (cs, b) with
  | Ok (cs, r), Ok (cs', r') => cs' = cs /\ forall i j, (i < ny)%nat -> (j < nx)%nat -> r' i j = option_map (fun g => g i j) r
  | Err x, Err x' => x' = x | _, _ => False end.
Proof.
  intros H O. induction l as [|k l IH]; intros cs a b E; cbn [decompose_loop m_decompose_loop]; [split; [reflexivity|exact E]|].
  unfold decompose_step, m_decompose_step. destruct (ansi_j_to_n_m (Z.of_nat k)) as [[n m]|x]; cbn [rbind]; [|reflexivity].
  destruct (zernike_on_grid h ny nx radius n m e) as [z|x]; cbn [rbind fst snd]; [|reflexivity].
  rewrite (coef_holed f f (Some P) z O (of_holed f P H)). apply IH. intros i j Hi Hj. unfold m_add, add_mode. rewrite E by assumption.
  destruct a as [g|]; cbn [option_map]; [|reflexivity]. destruct (coefficient ny nx radius (Some P) z); reflexivity.
Qed.
Lemma decomposition_outside f P e n : of_map f P -> outside_only f ->
  match zernike_decomposition h ny nx P radius n e, m_zernike_decomposition h ny nx f radius n e with
  | Ok (cs, r), Ok (cs', r') => cs' = cs /\ forall i j, (i < ny)%nat -> (j < nx)%nat -> r' i j = option_map (fun g => g i j) r
  | Err x, Err x' => x' = x | _, _ => False end.
Proof. intros H O. apply loop_holed; [exact H|exact O|reflexivity]. Qed.
(** A sample missing inside. *)
Lemma coef_missing f z i j : (i < ny)%nat -> (j < nx)%nat -> dist_sq ny nx i j < radius ^ 2 -> f i j = None -> m_coefficient ny nx radius f z = None.
Proof.
  intros Hi Hj D E. unfold m_coefficient. destruct (Req_EM_T _ 0); [reflexivity|]. rewrite (allb2_false _ _ _ i j Hi Hj); [reflexivity|].
  apply ap_iff in D. rewrite D, E. reflexivity.
Qed.
Lemma sub_none f z i j : m_sub f None z i j = None. Proof. unfold m_sub. destruct (f i j); reflexivity. Qed.
Lemma trivial_missing f d i j : 0 < radius -> (i < ny)%nat -> (j < nx)%nat -> dist_sq ny nx i j < radius ^ 2 -> f i j = None ->
  exists g, m_remove_trivial_phase h ny nx f radius d = Ok g /\ forall a b, g a b = None.
Proof.
  intros HR Hi Hj D E. unfold m_remove_trivial_phase.
  assert (K : forall l m, (forall n k, In (n, k) l -> zvalid n k) -> (forall a b, m a b = None) -> exists g, m_remove_terms h ny nx radius l m = Ok g /\ forall a b, g a b = None).
  { induction l as [|[n k] l IH]; intros m V H; cbn [m_remove_terms]; [exists m; auto|].
    destruct (zernike_sampled h ny nx radius n k false (V n k (or_introl eq_refl)) HR) as (z & -> & _). cbn [rbind]. apply IH.
    - intros; apply V; right; assumption.
    - intros a b. unfold m_sub. rewrite H. reflexivity. }
  cbn [app m_remove_terms]. destruct (zernike_sampled h ny nx radius 0 0 false ltac:(split; [lia|reflexivity]) HR) as (z & -> & _). cbn [rbind].
  rewrite (coef_missing f z i j Hi Hj D E). apply (K ((1, -1) :: (1, 1) :: if d then [(2, 0)] else [])%Z).
  - intros n k [H|[H|H]]; [| |destruct d; [destruct H as [H|[]]|destruct H]]; injection H as <- <-; (split; [lia|reflexivity]).
  - intros a b. apply sub_none.
Qed.
Lemma loop_missing f e i j : 0 < radius -> (i < ny)%nat -> (j < nx)%nat -> dist_sq ny nx i j < radius ^ 2 -> f i j = None ->
  forall n a cs acc, (9 + 8 * (Z.of_nat a + Z.of_nat n - 1) <= 2 ^ 53)%Z ->
  exists r, m_decompose_loop h ny nx radius e f (seq a n) (cs, acc) = Ok (cs ++ repeat None n, r) /\ (n = 0%nat -> r = acc) /\ ((1 <= n)%nat -> forall x y, r x y = None).
Proof.
  intros HR Hi Hj D E. induction n as [|n IH]; intros a cs acc B.
  - exists acc. cbn [seq m_decompose_loop repeat]. rewrite app_nil_r. split; [reflexivity|]. split; [reflexivity|lia].
  - cbn [seq m_decompose_loop]. unfold m_decompose_step. destruct (ansi_total (Z.of_nat a)) as (p & q & -> & V & _); [lia|lia|]. cbn [rbind].
    destruct (zernike_sampled h ny nx radius p q e V HR) as (z & -> & _). cbn [rbind fst snd]. rewrite (coef_missing f z i j Hi Hj D E).
    destruct (IH (S a) (cs ++ [None]) (m_add acc None z)) as (r & -> & H0 & H1); [lia|]. exists r. rewrite <- app_assoc. split; [reflexivity|]. split; [discriminate|].
    intros _ x y. destruct n as [|n]; [|apply H1; lia]. rewrite H0 by reflexivity. unfold m_add. destruct (acc x y); reflexivity.
Qed.
Lemma decomposition_missing f e n i j : 0 < radius -> (i < ny)%nat -> (j < nx)%nat -> dist_sq ny nx i j < radius ^ 2 -> f i j = None -> (0 <= n)%Z -> (9 + 8 * (n - 1) <= 2 ^ 53)%Z ->
  exists r, m_zernike_decomposition h ny nx f radius n e = Ok (repeat None (Z.to_nat n), r) /\ ((1 <= n)%Z -> forall x y, r x y = None).
Proof.
  intros HR Hi Hj D E Hn B. destruct (loop_missing f e i j HR Hi Hj D E (Z.to_nat n) 0 [] (fun _ _ => Some 0)) as (r & H & _ & H1); [lia|].
  exists r. split; [exact H|]. intros L. apply H1. lia.
Qed.
End M.
