(** Backward differences: the sums behind the Zernike radial polynomials. *)
From Coq Require Import Reals Lra Psatz ZArith Arith List Bool Lia.
From Verif Require Import Sums.
Open Scope R_scope.

Fixpoint nab (n : nat) (f : R -> R) (t : R) : R := match n with O => f t | S k => nab k f t - nab k f (t - 1) end.
Lemma nab_ext n : forall f g t, (forall u, f u = g u) -> nab n f t = nab n g t.
Proof. induction n as [|n IH]; intros f g t E; cbn; [apply E|]. rewrite (IH f g t E), (IH f g (t - 1) E). reflexivity. Qed.
(** Only the points t, t-1, ..., t-n matter. *)
Lemma nab_local n : forall f g t, (forall k, (k <= n)%nat -> f (t - INR k) = g (t - INR k)) -> nab n f t = nab n g t.
Proof.
  induction n as [|n IH]; intros f g t E; cbn [nab].
  - specialize (E 0%nat (le_n _)). cbn in E. rewrite Rminus_0_r in E. exact E.
  - rewrite (IH f g t), (IH f g (t - 1)); [reflexivity| |]; intros k Hk.
    + replace (t - 1 - INR k) with (t - INR (S k)) by (rewrite S_INR; ring). apply E. lia.
    + apply E. lia.
Qed.
Lemma nab_plus n : forall f g t, nab n (fun u => f u + g u) t = nab n f t + nab n g t.
Proof. induction n as [|n IH]; intros f g t; cbn; [reflexivity|]. rewrite !IH. ring. Qed.
Lemma nab_scal n c : forall f t, nab n (fun u => c * f u) t = c * nab n f t.
Proof. induction n as [|n IH]; intros f t; cbn; [reflexivity|]. rewrite !IH. ring. Qed.
Lemma nab_comm n f t : nab n (fun u => f u - f (u - 1)) t = nab (S n) f t.
Proof. revert t. induction n as [|n IH]; intros t; cbn [nab]; [reflexivity|]. rewrite !IH. cbn [nab]. ring. Qed.
Lemma nab_shift n f t : nab n (fun u => f (u - 1)) t = nab n f (t - 1).
Proof. revert t. induction n as [|n IH]; intros t; cbn [nab]; [reflexivity|]. rewrite !IH. reflexivity. Qed.
Lemma leibniz n c f t : nab (S n) (fun u => (u + c) * f u) t = (t + c) * nab (S n) f t + INR (S n) * nab n f (t - 1).
Proof.
  revert t. induction n as [|n IH]; intros t.
  - cbn. ring.
  - change (nab (S (S n)) (fun u => (u + c) * f u) t) with (nab (S n) (fun u => (u + c) * f u) t - nab (S n) (fun u => (u + c) * f u) (t - 1)).
    rewrite !IH. change (nab (S (S n)) f t) with (nab (S n) f t - nab (S n) f (t - 1)). change (nab (S n) f (t - 1)) with (nab n f (t - 1) - nab n f (t - 1 - 1)). rewrite !S_INR. ring.
Qed.
(** Products of linear factors. *)
Fixpoint lin (l : list R) (t : R) : R := match l with nil => 1 | cons c r => (t + c) * lin r t end.
Lemma lin_top l : forall t, nab (length l) (lin l) t = INR (fact (length l)) /\ nab (S (length l)) (lin l) t = 0.
Proof.
  induction l as [|c l IH]; intros t; [cbn; split; ring|].
  assert (A : forall u, nab (length (c :: l)) (lin (c :: l)) u = INR (fact (length (c :: l)))).
  { intros u. cbn [length]. change (lin (c :: l)) with (fun u => (u + c) * lin l u). rewrite leibniz. destruct (IH u) as [_ ->], (IH (u - 1)) as [-> _].
    rewrite fact_simpl, mult_INR. ring. }
  split; [apply A|]. cbn [nab]. rewrite !A. ring.
Qed.
Lemma nab_zero_more n f : (forall t, nab n f t = 0) -> forall k t, nab (n + k) f t = 0.
Proof. intros H k. induction k as [|k IH]; intros t; [rewrite Nat.add_0_r; apply H|]. rewrite Nat.add_succ_r. cbn [nab]. rewrite !IH. ring. Qed.
Lemma lin_low l n t : (length l < n)%nat -> nab n (lin l) t = 0.
Proof. intros H. replace n with (S (length l) + (n - S (length l)))%nat by lia. apply nab_zero_more. intros u. apply lin_top. Qed.
(** Division with remainder by a linear factor. *)
Lemma lin_div c l : exists Q, (forall t, lin l t = Q t * (t + c) + lin l (- c)) /\ forall n t, (length l <= n)%nat -> nab n Q t = 0.
Proof.
  induction l as [|a l [Q [HQ HN]]].
  - exists (fun _ => 0). split; [intros t; cbn; ring|]. intros n t _. revert t. induction n; intros t; cbn; [reflexivity|rewrite !IHn; ring].
  - exists (fun t => (t + a) * Q t + lin l (- c)). split.
    + intros t. cbn [lin]. rewrite (HQ t) at 1. ring.
    + intros n t Hn. cbn [length] in Hn. rewrite (nab_plus n (fun t => (t + a) * Q t) (fun _ => lin l (- c))). destruct n as [|n]; [lia|]. rewrite leibniz, !HN by lia.
      replace (nab (S n) (fun _ => lin l (- c)) t) with 0; [ring|]. rewrite (nab_ext (S n) _ (fun u => lin l (- c) * lin nil u)) by (intros; cbn; ring). rewrite nab_scal, lin_low by (cbn; lia). ring.
Qed.
(** Differences of 1/t. *)
Fixpoint fall (s : nat) (t : R) : R := match s with O => t | S k => fall k t * (t - INR (S k)) end.   (* t (t-1) ... (t-s) *)
Lemma fall_shift s t : fall s t * (t - INR (S s)) = t * fall s (t - 1).
Proof. induction s as [|s IH]; cbn [fall]; [cbn; ring|]. rewrite IH. rewrite !S_INR. ring. Qed.
Lemma fall_pos s t : INR s < t -> 0 < fall s t.
Proof. induction s as [|s IH]; intros H; [cbn in *; lra|]. cbn [fall]. rewrite S_INR in *. apply Rmult_lt_0_compat; [apply IH; lra|lra]. Qed.
Lemma nab_inv s c : forall t, INR s < t + c -> nab s (fun u => / (u + c)) t = (-1) ^ s * INR (fact s) / fall s (t + c).
Proof.
  induction s as [|s IH]; intros t H; [cbn in *; field; lra|]. cbn [nab]. rewrite S_INR in H. rewrite (IH t) by lra. rewrite (IH (t - 1)) by lra. replace (t - 1 + c) with (t + c - 1) by ring.
  assert (P1 : 0 < fall s (t + c)) by (apply fall_pos; lra). assert (P2 : 0 < fall s (t + c - 1)) by (apply fall_pos; lra).
  cbn [fall pow]. pose proof (fall_shift s (t + c)) as F. pose proof (pos_INR s) as Ps. rewrite S_INR in *. rewrite fact_simpl, mult_INR, S_INR.
  assert (E : fall s (t + c - 1) = fall s (t + c) * (t + c - (INR s + 1)) / (t + c)) by (rewrite F; field; lra).
  rewrite E. field. repeat split; lra.
Qed.
(** Closed form with binomials. *)
Fixpoint bin (n k : nat) : nat := match n, k with _, O => 1 | O, S _ => 0 | S n', S k' => bin n' k' + bin n' (S k') end%nat.
Lemma bin_0 n : bin n 0 = 1%nat. Proof. destruct n; reflexivity. Qed.
Lemma bin_out n : forall k, (n < k)%nat -> bin n k = 0%nat.
Proof. induction n as [|n IH]; intros [|k] H; cbn; try lia. rewrite !IH by lia. reflexivity. Qed.
Lemma bin_fact k j : (bin (k + j) k * (fact k * fact j) = fact (k + j))%nat.
Proof.
  revert j. induction k as [|k IHk]; intros j; [cbn [Nat.add]; rewrite bin_0; cbn; lia|].
  induction j as [|j IHj].
  - replace (S k + 0)%nat with (S k) by lia. cbn [bin]. rewrite (bin_out k (S k)) by lia. specialize (IHk 0%nat). rewrite Nat.add_0_r in IHk. cbn [fact] in *. nia.
  - replace (S k + S j)%nat with (S (S k + j)) by lia. cbn [bin]. replace (S k + j)%nat with (k + S j)%nat at 1 by lia. specialize (IHk (S j)). rewrite !fact_simpl in *.
    replace (k + S j)%nat with (S k + j)%nat in IHk by lia. replace (k + S j)%nat with (S k + j)%nat by lia. nia.
Qed.
Lemma rsum_S n f : rsum (S n) f = rsum n f + f n. Proof. reflexivity. Qed.
Lemma rsum_head n f : rsum (S n) f = f 0%nat + rsum n (fun i => f (S i)).
Proof. change (S n) with (1 + n)%nat. rewrite rsum_app. cbn [rsum]. rewrite Rplus_0_l. reflexivity. Qed.
Lemma nab_sum n f : forall t, nab n f t = rsum (S n) (fun k => (-1) ^ k * INR (bin n k) * f (t - INR k)).
Proof.
  induction n as [|n IH]; intros t.
  - cbn. rewrite Rminus_0_r. ring.
  - cbn [nab]. rewrite !IH. rewrite (rsum_head (S n)). rewrite (rsum_head n (fun k => (-1) ^ k * INR (bin n k) * f (t - INR k))).
    rewrite (rsum_ext (S n) (fun i => (-1) ^ S i * INR (bin (S n) (S i)) * f (t - INR (S i)))
      (fun i => (-1) ^ S i * INR (bin n (S i)) * f (t - INR (S i)) - (-1) ^ i * INR (bin n i) * f (t - 1 - INR i))).
    + rewrite rsum_minus. rewrite (rsum_S n (fun i => (-1) ^ S i * INR (bin n (S i)) * f (t - INR (S i)))). rewrite (bin_out n (S n)) by lia. rewrite !bin_0. cbn [INR pow]. ring.
    + intros i _. cbn [bin]. rewrite plus_INR. replace (t - 1 - INR i) with (t - INR (S i)) by (rewrite S_INR; ring). cbn [pow]. ring.
Qed.
