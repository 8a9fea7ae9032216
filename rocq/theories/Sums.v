(** Finite sums over index ranges [0 .. n-1] (mathematics only). *)
From Coq Require Import Reals Lra Lia ZArith Arith.
From Coquelicot Require Import Complex.
From Verif Require Import Cx.
Open Scope R_scope.

Fixpoint rsum (n : nat) (f : nat -> R) : R :=
  match n with O => 0 | S m => rsum m f + f m end.
Fixpoint csum (n : nat) (f : nat -> C) : C :=
  match n with O => RtoC 0 | S m => (csum m f + f m)%C end.
Definition rsum2 (ny nx : nat) (f : nat -> nat -> R) : R := rsum ny (fun i => rsum nx (fun j => f i j)).
Definition csum2 (ny nx : nat) (f : nat -> nat -> C) : C := csum ny (fun i => csum nx (fun j => f i j)).

Lemma csum_ext n f g : (forall i, (i < n)%nat -> f i = g i) -> csum n f = csum n g.
Proof.
  induction n as [|n IH]; intros H; [reflexivity|]. cbn [csum].
  rewrite IH, (H n) by (intros; auto with arith); reflexivity.
Qed.
Lemma rsum_ext n f g : (forall i, (i < n)%nat -> f i = g i) -> rsum n f = rsum n g.
Proof.
  induction n as [|n IH]; intros H; [reflexivity|]. cbn [rsum].
  rewrite IH, (H n) by (intros; auto with arith); reflexivity.
Qed.
Lemma csum2_ext ny nx f g : (forall i j, (i < ny)%nat -> (j < nx)%nat -> f i j = g i j) -> csum2 ny nx f = csum2 ny nx g.
Proof. intros H. apply csum_ext; intros i Hi. apply csum_ext; intros j Hj. auto. Qed.
Lemma rsum2_ext ny nx f g : (forall i j, (i < ny)%nat -> (j < nx)%nat -> f i j = g i j) -> rsum2 ny nx f = rsum2 ny nx g.
Proof. intros H. apply rsum_ext; intros i Hi. apply rsum_ext; intros j Hj. auto. Qed.

Lemma csum_0 n : csum n (fun _ => RtoC 0) = RtoC 0.
Proof. induction n as [|n IH]; cbn [csum]; [reflexivity|]. rewrite IH. ring. Qed.
Lemma rsum_0 n : rsum n (fun _ => 0) = 0.
Proof. induction n as [|n IH]; cbn [rsum]; [reflexivity|]. rewrite IH. ring. Qed.
Lemma csum_plus n f g : csum n (fun i => (f i + g i)%C) = (csum n f + csum n g)%C.
Proof. induction n as [|n IH]; cbn [csum]; [ring|]. rewrite IH. ring. Qed.
Lemma rsum_plus n f g : rsum n (fun i => f i + g i) = rsum n f + rsum n g.
Proof. induction n as [|n IH]; cbn [rsum]; [ring|]. rewrite IH. ring. Qed.
Lemma csum_scal_l n c f : csum n (fun i => (c * f i)%C) = (c * csum n f)%C.
Proof. induction n as [|n IH]; cbn [csum]; [ring|]. rewrite IH. ring. Qed.
Lemma csum_scal_r n c f : csum n (fun i => (f i * c)%C) = (csum n f * c)%C.
Proof. induction n as [|n IH]; cbn [csum]; [ring|]. rewrite IH. ring. Qed.
Lemma rsum_scal_l n c f : rsum n (fun i => c * f i) = c * rsum n f.
Proof. induction n as [|n IH]; cbn [rsum]; [ring|]. rewrite IH. ring. Qed.
Lemma rsum_scal_r n c f : rsum n (fun i => f i * c) = rsum n f * c.
Proof. induction n as [|n IH]; cbn [rsum]; [ring|]. rewrite IH. ring. Qed.
Lemma csum_opp n f : csum n (fun i => (- f i)%C) = (- csum n f)%C.
Proof. induction n as [|n IH]; cbn [csum]; [ring|]. rewrite IH. ring. Qed.
Lemma rsum_opp n f : rsum n (fun i => - f i) = - rsum n f.
Proof. induction n as [|n IH]; cbn [rsum]; [ring|]. rewrite IH. ring. Qed.
Lemma rsum_minus n f g : rsum n (fun i => f i - g i) = rsum n f - rsum n g.
Proof. induction n as [|n IH]; cbn [rsum]; [ring|]. rewrite IH. ring. Qed.
Lemma csum_swap n m f : csum n (fun i => csum m (fun j => f i j)) = csum m (fun j => csum n (fun i => f i j)).
Proof.
  induction n as [|n IH]; cbn [csum].
  - symmetry. apply csum_0.
  - rewrite IH, csum_plus. reflexivity.
Qed.
Lemma rsum_swap n m f : rsum n (fun i => rsum m (fun j => f i j)) = rsum m (fun j => rsum n (fun i => f i j)).
Proof.
  induction n as [|n IH]; cbn [rsum].
  - symmetry. apply rsum_0.
  - rewrite IH, rsum_plus. reflexivity.
Qed.
Lemma csum_const n c : csum n (fun _ => c) = (RtoC (INR n) * c)%C.
Proof. induction n as [|n IH]; cbn [csum]; [simpl; ring|]. rewrite IH, S_INR, RtoC_plus. ring. Qed.
Lemma rsum_const n c : rsum n (fun _ => c) = INR n * c.
Proof. induction n as [|n IH]; cbn [rsum]; [simpl; ring|]. rewrite IH, S_INR. ring. Qed.
Lemma csum_conj n f : cconj (csum n f) = csum n (fun i => cconj (f i)).
Proof. induction n as [|n IH]; cbn [csum]; [cring|]. rewrite cconj_plus, IH. reflexivity. Qed.
Lemma csum_RtoC n f : csum n (fun i => RtoC (f i)) = RtoC (rsum n f).
Proof. induction n as [|n IH]; cbn [csum rsum]; [reflexivity|]. rewrite IH, RtoC_plus. reflexivity. Qed.
Lemma csum_fst n f : fst (csum n f) = rsum n (fun i => fst (f i)).
Proof. induction n as [|n IH]; cbn [csum rsum]; [reflexivity|]. rewrite <- IH. reflexivity. Qed.
Lemma csum_snd n f : snd (csum n f) = rsum n (fun i => snd (f i)).
Proof. induction n as [|n IH]; cbn [csum rsum]; [reflexivity|]. rewrite <- IH. reflexivity. Qed.

Lemma csum_single n k f : (k < n)%nat -> (forall i, (i < n)%nat -> i <> k -> f i = RtoC 0) -> csum n f = f k.
Proof.
  induction n as [|n IH]; intros Hk H; [lia|]. cbn [csum].
  destruct (Nat.eq_dec k n) as [->|Hne].
  - rewrite (csum_ext n f (fun _ => RtoC 0)).
    + rewrite csum_0. ring.
    + intros i Hi. apply H; lia.
  - rewrite IH; [|lia|intros; apply H; lia]. rewrite (H n) by lia. ring.
Qed.
Lemma rsum_single n k f : (k < n)%nat -> (forall i, (i < n)%nat -> i <> k -> f i = 0) -> rsum n f = f k.
Proof.
  induction n as [|n IH]; intros Hk H; [lia|]. cbn [rsum].
  destruct (Nat.eq_dec k n) as [->|Hne].
  - rewrite (rsum_ext n f (fun _ => 0)).
    + rewrite rsum_0. ring.
    + intros i Hi. apply H; lia.
  - rewrite IH; [|lia|intros; apply H; lia]. rewrite (H n) by lia. ring.
Qed.

Lemma rsum_le n f g : (forall i, (i < n)%nat -> f i <= g i) -> rsum n f <= rsum n g.
Proof.
  induction n as [|n IH]; intros H; cbn [rsum]; [lra|].
  assert (rsum n f <= rsum n g) by (apply IH; intros; apply H; lia).
  assert (f n <= g n) by (apply H; lia). lra.
Qed.
Lemma rsum_ge_0 n f : (forall i, (i < n)%nat -> 0 <= f i) -> 0 <= rsum n f.
Proof. intros H. rewrite <- (rsum_0 n). apply rsum_le; exact H. Qed.
Lemma rsum_eq_0 n f : (forall i, (i < n)%nat -> 0 <= f i) -> rsum n f = 0 -> forall i, (i < n)%nat -> f i = 0.
Proof.
  induction n as [|n IH]; intros H H0 i Hi; [lia|]. cbn [rsum] in H0.
  assert (0 <= rsum n f) by (apply rsum_ge_0; intros; apply H; lia).
  assert (0 <= f n) by (apply H; lia).
  destruct (Nat.eq_dec i n) as [->|Hne]; [lra|]. apply IH; try lia; try lra. intros; apply H; lia.
Qed.

(** Splitting and reindexing. *)
Lemma csum_app n m f : csum (n + m) f = (csum n f + csum m (fun i => f (n + i)%nat))%C.
Proof.
  induction m as [|m IH].
  - rewrite Nat.add_0_r. cbn [csum]. ring.
  - rewrite Nat.add_succ_r. cbn [csum]. rewrite IH. ring.
Qed.
Lemma rsum_app n m f : rsum (n + m) f = rsum n f + rsum m (fun i => f (n + i)%nat).
Proof.
  induction m as [|m IH].
  - rewrite Nat.add_0_r. cbn [rsum]. ring.
  - rewrite Nat.add_succ_r. cbn [rsum]. rewrite IH. ring.
Qed.
Lemma csum_rev n f : csum n (fun i => f (n - 1 - i)%nat) = csum n f.
Proof.
  revert f; induction n as [|n IH]; intros f; [reflexivity|].
  replace (S n) with (1 + n)%nat at 1 by lia. rewrite csum_app. cbn [csum].
  rewrite <- (IH f). rewrite (csum_ext n (fun i => f (S n - 1 - (1 + i))%nat) (fun i => f (n - 1 - i)%nat)).
  - replace (S n - 1 - 0)%nat with n by lia. ring.
  - intros i Hi. f_equal. lia.
Qed.
Lemma rsum_rev n f : rsum n (fun i => f (n - 1 - i)%nat) = rsum n f.
Proof.
  revert f; induction n as [|n IH]; intros f; [reflexivity|].
  replace (S n) with (1 + n)%nat at 1 by lia. rewrite rsum_app. cbn [rsum].
  rewrite <- (IH f). rewrite (rsum_ext n (fun i => f (S n - 1 - (1 + i))%nat) (fun i => f (n - 1 - i)%nat)).
  - replace (S n - 1 - 0)%nat with n by lia. ring.
  - intros i Hi. f_equal. lia.
Qed.

(** Cyclic rotation of the index leaves a full sum unchanged. *)
Lemma csum_rot n s f : (0 < n)%nat -> csum n (fun i => f ((i + s) mod n)%nat) = csum n f.
Proof.
  intros Hn. set (k := (s mod n)%nat). assert (Hk : (k < n)%nat) by (apply Nat.mod_upper_bound; lia).
  rewrite (csum_ext n _ (fun i => f ((i + k) mod n)%nat)).
  2:{ intros i _. f_equal. unfold k. rewrite Nat.add_mod_idemp_r by lia. reflexivity. }
  replace n with ((n - k) + k)%nat at 1 by lia. rewrite csum_app.
  rewrite (csum_ext (n - k) _ (fun i => f (k + i)%nat)).
  2:{ intros i Hi. f_equal. rewrite Nat.mod_small by lia. lia. }
  rewrite (csum_ext k _ f).
  2:{ intros i Hi. f_equal. replace (n - k + i + k)%nat with (i + 1 * n)%nat by lia.
      rewrite Nat.mod_add by lia. apply Nat.mod_small. lia. }
  replace n with (k + (n - k))%nat at 2 by lia. rewrite csum_app. ring.
Qed.
Lemma rsum_rot n s f : (0 < n)%nat -> rsum n (fun i => f ((i + s) mod n)%nat) = rsum n f.
Proof.
  intros Hn. set (k := (s mod n)%nat). assert (Hk : (k < n)%nat) by (apply Nat.mod_upper_bound; lia).
  rewrite (rsum_ext n _ (fun i => f ((i + k) mod n)%nat)).
  2:{ intros i _. f_equal. unfold k. rewrite Nat.add_mod_idemp_r by lia. reflexivity. }
  replace n with ((n - k) + k)%nat at 1 by lia. rewrite rsum_app.
  rewrite (rsum_ext (n - k) _ (fun i => f (k + i)%nat)).
  2:{ intros i Hi. f_equal. rewrite Nat.mod_small by lia. lia. }
  rewrite (rsum_ext k _ f).
  2:{ intros i Hi. f_equal. replace (n - k + i + k)%nat with (i + 1 * n)%nat by lia.
      rewrite Nat.mod_add by lia. apply Nat.mod_small. lia. }
  replace n with (k + (n - k))%nat at 2 by lia. rewrite rsum_app. ring.
Qed.

(** Two-dimensional versions. *)
Lemma csum2_plus ny nx f g : csum2 ny nx (fun i j => (f i j + g i j)%C) = (csum2 ny nx f + csum2 ny nx g)%C.
Proof. unfold csum2. rewrite <- csum_plus. apply csum_ext; intros. apply csum_plus. Qed.
Lemma csum2_scal_l ny nx c f : csum2 ny nx (fun i j => (c * f i j)%C) = (c * csum2 ny nx f)%C.
Proof. unfold csum2. rewrite <- csum_scal_l. apply csum_ext; intros. apply csum_scal_l. Qed.
Lemma csum2_scal_r ny nx c f : csum2 ny nx (fun i j => (f i j * c)%C) = (csum2 ny nx f * c)%C.
Proof. unfold csum2. rewrite <- csum_scal_r. apply csum_ext; intros. apply csum_scal_r. Qed.
Lemma csum2_conj ny nx f : cconj (csum2 ny nx f) = csum2 ny nx (fun i j => cconj (f i j)).
Proof. unfold csum2. rewrite csum_conj. apply csum_ext; intros. apply csum_conj. Qed.
Lemma csum2_RtoC ny nx f : csum2 ny nx (fun i j => RtoC (f i j)) = RtoC (rsum2 ny nx f).
Proof. unfold csum2, rsum2. rewrite <- csum_RtoC. apply csum_ext; intros. apply csum_RtoC. Qed.
Lemma rsum2_plus ny nx f g : rsum2 ny nx (fun i j => f i j + g i j) = rsum2 ny nx f + rsum2 ny nx g.
Proof. unfold rsum2. rewrite <- rsum_plus. apply rsum_ext; intros. apply rsum_plus. Qed.
Lemma rsum2_minus ny nx f g : rsum2 ny nx (fun i j => f i j - g i j) = rsum2 ny nx f - rsum2 ny nx g.
Proof. unfold rsum2. rewrite <- rsum_minus. apply rsum_ext; intros. apply rsum_minus. Qed.
Lemma rsum2_scal_l ny nx c f : rsum2 ny nx (fun i j => c * f i j) = c * rsum2 ny nx f.
Proof. unfold rsum2. rewrite <- rsum_scal_l. apply rsum_ext; intros. apply rsum_scal_l. Qed.
Lemma rsum2_scal_r ny nx c f : rsum2 ny nx (fun i j => f i j * c) = rsum2 ny nx f * c.
Proof. unfold rsum2. rewrite <- rsum_scal_r. apply rsum_ext; intros. apply rsum_scal_r. Qed.
Lemma rsum2_0 ny nx : rsum2 ny nx (fun _ _ => 0) = 0.
Proof. unfold rsum2. transitivity (rsum ny (fun _ => 0)); [|apply rsum_0]. apply rsum_ext; intros. apply rsum_0. Qed.
Lemma rsum2_le ny nx f g : (forall i j, (i < ny)%nat -> (j < nx)%nat -> f i j <= g i j) -> rsum2 ny nx f <= rsum2 ny nx g.
Proof. intros H. apply rsum_le; intros i Hi. apply rsum_le; intros j Hj. auto. Qed.
Lemma rsum2_ge_0 ny nx f : (forall i j, (i < ny)%nat -> (j < nx)%nat -> 0 <= f i j) -> 0 <= rsum2 ny nx f.
Proof. intros H. apply rsum_ge_0; intros i Hi. apply rsum_ge_0; intros j Hj. auto. Qed.
Lemma rsum2_eq_0 ny nx f : (forall i j, (i < ny)%nat -> (j < nx)%nat -> 0 <= f i j) -> rsum2 ny nx f = 0 ->
  forall i j, (i < ny)%nat -> (j < nx)%nat -> f i j = 0.
Proof.
  intros H H0 i j Hi Hj. apply (rsum_eq_0 nx (fun j => f i j)); auto.
  apply (rsum_eq_0 ny (fun i => rsum nx (fun j => f i j))); auto.
  intros; apply rsum_ge_0; auto.
Qed.
Lemma csum2_single ny nx k l f : (k < ny)%nat -> (l < nx)%nat ->
  (forall i j, (i < ny)%nat -> (j < nx)%nat -> (i, j) <> (k, l) -> f i j = RtoC 0) -> csum2 ny nx f = f k l.
Proof.
  intros Hk Hl H. unfold csum2. rewrite (csum_single ny k).
  - apply csum_single; [exact Hl|]. intros j Hj Hne. apply H; auto. congruence.
  - exact Hk.
  - intros i Hi Hne. rewrite <- (csum_0 nx). apply csum_ext. intros j Hj. apply H; auto. congruence.
Qed.
Lemma csum2_rot ny nx s t f : (0 < ny)%nat -> (0 < nx)%nat ->
  csum2 ny nx (fun i j => f ((i + s) mod ny) ((j + t) mod nx))%nat = csum2 ny nx f.
Proof.
  intros Hy Hx. unfold csum2.
  rewrite (csum_rot ny s (fun i => csum nx (fun j => f i ((j + t) mod nx)%nat))) by exact Hy.
  apply csum_ext; intros i _. apply (csum_rot nx t (fun j => f i j)); exact Hx.
Qed.
Lemma rsum2_rot ny nx s t f : (0 < ny)%nat -> (0 < nx)%nat ->
  rsum2 ny nx (fun i j => f ((i + s) mod ny) ((j + t) mod nx))%nat = rsum2 ny nx f.
Proof.
  intros Hy Hx. unfold rsum2.
  rewrite (rsum_rot ny s (fun i => rsum nx (fun j => f i ((j + t) mod nx)%nat))) by exact Hy.
  apply rsum_ext; intros i _. apply (rsum_rot nx t (fun j => f i j)); exact Hx.
Qed.
Lemma rsum2_nx0 ny f : rsum2 ny 0 f = 0.
Proof. unfold rsum2. cbn [rsum]. apply rsum_0. Qed.
Lemma csum2_nx0 ny f : csum2 ny 0 f = RtoC 0.
Proof. unfold csum2. cbn [csum]. apply csum_0. Qed.

(** Prepending / appending zero blocks (padding). *)
Lemma rsum_pad p n q f : (forall i, (i < p)%nat -> f i = 0) -> (forall i, (i < q)%nat -> f (p + n + i)%nat = 0) ->
  rsum (p + n + q) f = rsum n (fun i => f (p + i)%nat).
Proof.
  intros H1 H2. rewrite rsum_app, (rsum_app p n).
  rewrite (rsum_ext p f (fun _ => 0)) by exact H1.
  rewrite (rsum_ext q _ (fun _ => 0)) by exact H2. rewrite !rsum_0. ring.
Qed.
