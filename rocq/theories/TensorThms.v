(** profile_to_tensor: sampling and conversion. *)
From Coq Require Import Reals Lra Psatz ZArith Arith List Bool Lia FunctionalExtensionality.
From Coquelicot Require Import Complex.
From Verif Require Import Cx Sums PyBase ProfileModel ProfSpec ProfFacts ProfFacts2 SlmModel LibModel DmdModel SimModel SimSpec GridFacts GridFacts2 ModeSpec.
Import ListNotations.
Open Scope R_scope.

Lemma scalar_leaves p : scalar_valued p = true <-> Forall constant_leaf (leaves p).
Proof.
  induction p; cbn [scalar_valued leaves]; try assumption;
  try (split; [discriminate|intros H; inversion H as [|? ? H1]; destruct H1; discriminate]).
  - split; [intros _; constructor; [eexists; reflexivity|constructor]|reflexivity].
  - rewrite andb_true_iff, IHp1, IHp2. symmetry. apply Forall_app.
  - rewrite andb_true_iff, IHp1, IHp2. symmetry. apply Forall_app.
Qed.
Lemma bix n i : (i < n)%nat -> (if Nat.eqb n 1 then 0%nat else i) = i.
Proof. intros H. destruct (Nat.eqb_spec n 1); lia. Qed.
Lemma all_ok_row_ok {A} (f : nat -> res A) n : all_ok_row f n = Ok tt <-> forall i, (i < n)%nat -> exists v, f i = Ok v.
Proof.
  induction n as [|n IH]; cbn [all_ok_row]; [split; [intros _ i Hi; lia|reflexivity]|]. split.
  - destruct (all_ok_row f n) as [[]|e]; [|discriminate]. cbn [rbind]. destruct (f n) as [v|e] eqn:E; [|discriminate]. intros _ i Hi.
    destruct (Nat.eq_dec i n) as [->|Hn]; [eexists; exact E|]. apply IH; [reflexivity|lia].
  - intros H. rewrite (proj2 IH) by (intros i Hi; apply H; lia). cbn [rbind]. destruct (H n) as [v ->]; [lia|]. reflexivity.
Qed.
Lemma all_ok_ok {A} (f : nat -> nat -> res A) ny nx : all_ok f ny nx = Ok tt <-> forall i j, (i < ny)%nat -> (j < nx)%nat -> exists v, f i j = Ok v.
Proof.
  induction ny as [|n IH]; cbn [all_ok]; [split; [intros _ i j Hi; lia|reflexivity]|]. split.
  - destruct (all_ok f n nx) as [[]|e]; [|discriminate]. cbn [rbind]. intros H i j Hi Hj. destruct (Nat.eq_dec i n) as [->|Hn].
    + apply all_ok_row_ok with (i := j) in H; assumption.
    + apply IH; [reflexivity|lia|exact Hj].
  - intros H. rewrite (proj2 IH) by (intros i j Hi Hj; apply H; lia). cbn [rbind]. apply all_ok_row_ok. intros j Hj. apply H; lia.
Qed.
Definition grid_of (s : slm) (fp : bool) := if fp then fourier_plane_grid s else image_plane_grid s.
Lemma sample_full h s p fp X Y (z : nat -> nat -> C) k : ~ Forall constant_leaf (leaves p) -> grid_is (grid_of s fp) (s_Ny s) (s_Nx s) X Y ->
  (forall i j, (i < s_Ny s)%nat -> (j < s_Nx s)%nat -> gives h p (X i j) (Y i j) (z i j) k) ->
  exists v, sample h p (grid_of s fp) = Ok (T2 (s_Ny s) (s_Nx s) v) /\
    forall i j, (i < s_Ny s)%nat -> (j < s_Nx s)%nat -> to_c (v i j) = z i j /\ is_complex (v i j) = k.
Proof.
  intros Hn HG Hv. unfold sample. assert (Hs : scalar_valued p = false). { destruct (scalar_valued p) eqn:E; [|reflexivity]. exfalso. apply Hn, scalar_leaves, E. } rewrite Hs.
  destruct HG as [HX HY]. destruct (grid_of s fp) as [gx gy]. cbn [fst snd] in *.
  destruct gx as [|ny nx fx]; [contradiction HX|]. destruct gy as [|ny' nx' fy]; [contradiction HY|]. destruct HX as (-> & -> & HX), HY as (-> & -> & HY). cbn [tget].
  assert (F : forall i j, (i < s_Ny s)%nat -> (j < s_Nx s)%nat -> gives h p (fx i j) (fy i j) (z i j) k).
  { intros i j Hi Hj. rewrite (HX i j Hi Hj), (HY i j Hi Hj). apply Hv; assumption. }
  rewrite (proj2 (all_ok_ok _ _ _)).
  - cbn [rbind]. eexists. split; [reflexivity|]. intros i j Hi Hj. destruct (F i j Hi Hj) as [v [E [E1 E2]]]. cbn beta. rewrite !bix by assumption. rewrite E. cbn [val_or0]. split; assumption.
  - intros i j Hi Hj. destruct (F i j Hi Hj) as [v [E _]]. exists v. rewrite !bix by assumption. exact E.
Qed.

Lemma to_tensor_full h s p fp X Y (z : nat -> nat -> C) k : ~ Forall constant_leaf (leaves p) -> grid_is (grid_of s fp) (s_Ny s) (s_Nx s) X Y ->
  (forall i j, (i < s_Ny s)%nat -> (j < s_Nx s)%nat -> gives h p (X i j) (Y i j) (z i j) k) ->
  (exists t, profile_to_tensor_c h s (AProf p) fp = Ok t /\ teq t (T2 (s_Ny s) (s_Nx s) z)) /\
  (exists t, profile_to_tensor_r h s (AProf p) fp = Ok t /\ teq t (T2 (s_Ny s) (s_Nx s) (fun i j => fst (z i j)))).
Proof.
  intros Hn HG Hv. destruct (sample_full h s p fp X Y z k Hn HG Hv) as [v [E H]]. split; eexists; (split; [unfold profile_to_tensor_c, profile_to_tensor_r; fold (grid_of s fp); rewrite E; reflexivity|]); cbn; repeat split; try reflexivity;
  intros i j Hi Hj; destruct (H i j Hi Hj) as [H1 _].
  - exact H1.
  - rewrite <- H1. destruct (v i j); reflexivity.
Qed.
(** A sample that fails makes the call fail. *)
Lemma to_tensor_needs_samples h s p fp X Y : ~ Forall constant_leaf (leaves p) -> grid_is (grid_of s fp) (s_Ny s) (s_Nx s) X Y ->
  ((exists t, profile_to_tensor_c h s (AProf p) fp = Ok t) \/ (exists t, profile_to_tensor_r h s (AProf p) fp = Ok t)) ->
  forall i j, (i < s_Ny s)%nat -> (j < s_Nx s)%nat -> exists z k, gives h p (X i j) (Y i j) z k.
Proof.
  intros Hn [HX HY] H i j Hi Hj. assert (E : exists t, sample h p (grid_of s fp) = Ok t).
  { destruct H as [[t H]|[t H]]; unfold profile_to_tensor_c, profile_to_tensor_r in H; fold (grid_of s fp) in H; destruct (sample h p (grid_of s fp)) as [u|e]; try discriminate; eauto. }
  destruct E as [t E]. unfold sample in E. assert (Hs : scalar_valued p = false). { destruct (scalar_valued p) eqn:E1; [|reflexivity]. exfalso. apply Hn, scalar_leaves, E1. } rewrite Hs in E.
  destruct (grid_of s fp) as [gx gy]. cbn [fst snd] in *.
  destruct gx as [|ny nx fx]; [contradiction HX|]. destruct gy as [|ny' nx' fy]; [contradiction HY|]. destruct HX as (-> & -> & HX), HY as (-> & -> & HY). cbn [tget] in E.
  match type of E with context [all_ok ?f _ _] => destruct (all_ok f (s_Ny s) (s_Nx s)) as [[]|e] eqn:A; [|discriminate] end.
  destruct (proj1 (all_ok_ok _ _ _) A i j Hi Hj) as [v Ev]. rewrite !bix in Ev by assumption. exists (to_c v), (is_complex v). exists v. rewrite <- (HX i j Hi Hj), <- (HY i j Hi Hj). repeat split; assumption.
Qed.
(** Only constants: rank 0. *)
Lemma const_indep h p : Forall constant_leaf (leaves p) -> forall x y x' y', func h p x y = func h p x' y'.
Proof.
  induction p; cbn [leaves]; intros H x y x' y'; try (inversion H as [|? ? H1]; destruct H1; discriminate); cbn [func].
  - reflexivity.
  - apply Forall_app in H. rewrite (IHp1 (proj1 H) x y x' y'), (IHp2 (proj2 H) x y x' y'). reflexivity.
  - apply Forall_app in H. rewrite (IHp1 (proj1 H) x y x' y'), (IHp2 (proj2 H) x y x' y'). reflexivity.
  - rewrite (IHp H x y x' y'). reflexivity.
  - rewrite (IHp H x y x' y'). reflexivity.
  - apply IHp, H.
  - apply IHp, H.
  - destruct (Req_EM_T m 0); [reflexivity|]. apply IHp, H.
  - destruct (Req_EM_T m 0); [reflexivity|]. apply IHp, H.
  - rewrite (IHp H x y x' y'). reflexivity.
Qed.
Lemma to_tensor_constant h s p fp z k x y : Forall constant_leaf (leaves p) -> gives h p x y z k ->
  profile_to_tensor_c h s (AProf p) fp = Ok (T0 z) /\ profile_to_tensor_r h s (AProf p) fp = Ok (T0 (fst z)).
Proof.
  intros H [v [E [Hv _]]]. unfold profile_to_tensor_c, profile_to_tensor_r, sample. rewrite (proj2 (scalar_leaves p) H). rewrite (const_indep h p H 0 0 x y), E. cbn. subst z. split; [reflexivity|]. destruct v; reflexivity.
Qed.
(** Arrays pass unchecked. *)
Lemma to_tensor_arrays h s fp (tr : tensor R) (tc : tensor C) :
  profile_to_tensor_c h s (ATensorC tc) fp = Ok tc /\ profile_to_tensor_c h s (AConstC tc) fp = Ok tc /\
  profile_to_tensor_c h s (ATensorR tr) fp = Ok (tmap RtoC tr) /\ profile_to_tensor_c h s (AConstR tr) fp = Ok (tmap RtoC tr) /\
  profile_to_tensor_r h s (ATensorR tr) fp = Ok tr /\ profile_to_tensor_r h s (AConstR tr) fp = Ok tr /\
  profile_to_tensor_r h s (ATensorC tc) fp = Ok (tmap fst tc) /\
  profile_to_tensor_r h s (AConstC tc) fp = (match tc with T0 _ => Err TypeError | T2 _ _ _ => Ok (tmap fst tc) end).
Proof. destruct tc; repeat split; reflexivity. Qed.
