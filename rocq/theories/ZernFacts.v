(** Radial Zernike polynomials: value at the rim, moments, orthogonality. *)
From Coq Require Import Reals Lra Psatz ZArith Arith List Bool Lia.
From Coquelicot Require Import Complex Coquelicot.
From Verif Require Import Cx Sums PyBase ProfileModel ProfSpec ZernSpec NablaFacts.
Import ListNotations.
Open Scope R_scope.

Definition rc (mu s k : nat) : R := (-1) ^ k * INR (fact (mu + 2 * s - k)) / (INR (fact k) * INR (fact (mu + s - k)) * INR (fact (s - k))).
Lemma radial_sum mu s rho : radial (mu + 2 * s) mu rho = rsum (S s) (fun k => rc mu s k * rho ^ (mu + 2 * (s - k))).
Proof.
  unfold radial, rc. replace ((mu + 2 * s - mu) / 2)%nat with s by (replace (mu + 2 * s - mu)%nat with (s * 2)%nat by lia; rewrite Nat.div_mul; lia).
  replace ((mu + 2 * s + mu) / 2)%nat with (mu + s)%nat by (replace (mu + 2 * s + mu)%nat with ((mu + s) * 2)%nat by lia; rewrite Nat.div_mul; lia).
  apply rsum_ext. intros k Hk. replace (mu + 2 * (s - k))%nat with (mu + 2 * s - 2 * k)%nat by lia. reflexivity.
Qed.
(** The product (t+1)...(t+s). *)
Definition up (s : nat) : R -> R := lin (map INR (seq 1 s)).
Lemma lin_fact s : forall b t, lin (map INR (seq (S b) s)) (INR t) * INR (fact (t + b)) = INR (fact (t + b + s)).
Proof.
  induction s as [|s IH]; intros b t; [cbn; rewrite Nat.add_0_r; ring|]. cbn [seq map lin]. specialize (IH (S b) t).
  replace (t + b + S s)%nat with (t + S b + s)%nat by lia. rewrite <- IH. replace (t + S b)%nat with (S (t + b)) by lia. rewrite fact_simpl, mult_INR. rewrite <- (plus_INR t (S b)). replace (t + S b)%nat with (S (t + b)) by lia. ring.
Qed.
Lemma up_fact s t : up s (INR t) = INR (fact (t + s)) / INR (fact t).
Proof. pose proof (lin_fact s 0 t) as H. rewrite Nat.add_0_r in H. unfold up. rewrite <- H. field. apply INR_fact_neq_0. Qed.
Lemma lin_app l l' t : lin (l ++ l') t = lin l t * lin l' t.
Proof. induction l as [|c l IH]; cbn; [ring|]. rewrite IH. ring. Qed.
Lemma lin_neg s : forall a, lin (map INR (seq a s)) (- INR (a + s)) = (-1) ^ s * INR (fact s).
Proof.
  induction s as [|s IH]; intros a; [cbn; ring|]. cbn [seq map lin]. specialize (IH (S a)). replace (a + S s)%nat with (S a + s)%nat by lia. rewrite IH.
  rewrite fact_simpl, mult_INR, plus_INR, !S_INR. cbn [pow]. ring.
Qed.
Lemma fall_fact s : forall t, fall s (INR (t + s + 1)) * INR (fact t) = INR (fact (t + s + 1)).
Proof.
  induction s as [|s IH]; intros t.
  - cbn [fall]. replace (t + 0 + 1)%nat with (S t) by lia. rewrite fact_simpl, mult_INR. ring.
  - cbn [fall]. specialize (IH (S t)). replace (S t + s + 1)%nat with (t + S s + 1)%nat in IH by lia. rewrite <- IH. rewrite fact_simpl, mult_INR.
    replace (INR (t + S s + 1) - INR (S s)) with (INR (S t)) by (rewrite <- minus_INR by lia; f_equal; lia). ring.
Qed.
Lemma rc_nab mu s k : (k <= s)%nat -> rc mu s k = (-1) ^ k * INR (bin s k) * up s (INR (mu + s) - INR k) / INR (fact s).
Proof.
  intros Hk. rewrite <- minus_INR by lia. rewrite up_fact. unfold rc. replace (mu + s - k + s)%nat with (mu + 2 * s - k)%nat by lia.
  pose proof (bin_fact k (s - k)) as B. replace (k + (s - k))%nat with s in B by lia. apply (f_equal INR) in B. rewrite !mult_INR in B.
  rewrite <- B. assert (bin s k <> 0)%nat. { intros Z. pose proof (bin_fact k (s - k)) as B'. replace (k + (s - k))%nat with s in B' by lia. rewrite Z in B'. cbn in B'. pose proof (lt_O_fact s). lia. }
  field. repeat split; try apply INR_fact_neq_0. apply not_0_INR. assumption.
Qed.
Lemma weighted_sum mu s (g : R -> R) : rsum (S s) (fun k => rc mu s k * g (INR (mu + s) - INR k)) = nab s (fun t => up s t * g t) (INR (mu + s)) / INR (fact s).
Proof.
  rewrite nab_sum. unfold Rdiv. rewrite <- rsum_scal_r. apply rsum_ext. intros k Hk. rewrite rc_nab by lia. unfold Rdiv. ring.
Qed.
Lemma up_length s : length (map INR (seq 1 s)) = s. Proof. rewrite map_length, seq_length. reflexivity. Qed.
(** R(1) = 1 *)
Lemma radial_one mu s : radial (mu + 2 * s) mu 1 = 1.
Proof.
  rewrite radial_sum. rewrite (rsum_ext (S s) _ (fun k => rc mu s k * (fun _ => 1) (INR (mu + s) - INR k))) by (intros; rewrite pow1; reflexivity).
  rewrite (weighted_sum mu s (fun _ => 1)). rewrite (nab_ext s _ (up s)) by (intros; ring). pose proof (proj1 (lin_top (map INR (seq 1 s)) (INR (mu + s)))) as H. rewrite up_length in H. unfold up. rewrite H.
  field. apply INR_fact_neq_0.
Qed.
(** Moments *)
Lemma moment_low mu s j : (j < s)%nat -> rsum (S s) (fun k => rc mu s k * / INR (mu + s - k + j + 1)) = 0.
Proof.
  intros Hj. rewrite (rsum_ext (S s) _ (fun k => rc mu s k * (fun t => / (t + INR (j + 1))) (INR (mu + s) - INR k))).
  2:{ intros k Hk. rewrite <- minus_INR by lia. rewrite <- plus_INR. replace (mu + s - k + (j + 1))%nat with (mu + s - k + j + 1)%nat by lia. reflexivity. }
  rewrite (weighted_sum mu s (fun t => / (t + INR (j + 1)))).
  rewrite (nab_local s _ (lin (map INR (seq 1 j) ++ map INR (seq (S (S j)) (s - S j))))).
  - rewrite lin_low; [unfold Rdiv; ring|]. rewrite app_length, !map_length, !seq_length. lia.
  - intros k Hk. unfold up. replace (seq 1 s) with (seq 1 j ++ (S j) :: seq (S (S j)) (s - S j)).
    + rewrite map_app, !lin_app. cbn [map lin]. replace (j + 1)%nat with (S j) by lia. field. rewrite <- minus_INR by lia. rewrite <- plus_INR. apply not_0_INR. lia.
    + replace s with (j + S (s - S j))%nat at 2 by lia. rewrite seq_app. reflexivity.
Qed.
Lemma moment_top mu s : rsum (S s) (fun k => rc mu s k * / INR (mu + s - k + s + 1)) = INR (fact s) * INR (fact (mu + s)) / INR (fact (mu + 2 * s + 1)).
Proof.
  rewrite (rsum_ext (S s) _ (fun k => rc mu s k * (fun t => / (t + INR (1 + s))) (INR (mu + s) - INR k))).
  2:{ intros k Hk. rewrite <- minus_INR by lia. rewrite <- plus_INR. replace (mu + s - k + (1 + s))%nat with (mu + s - k + s + 1)%nat by lia. reflexivity. }
  rewrite (weighted_sum mu s (fun t => / (t + INR (1 + s)))). destruct (lin_div (INR (1 + s)) (map INR (seq 1 s))) as [Q [HQ HN]].
  rewrite (nab_local s _ (fun t => Q t + (-1) ^ s * INR (fact s) * / (t + INR (1 + s)))).
  - rewrite (nab_plus s Q (fun t => (-1) ^ s * INR (fact s) * / (t + INR (1 + s)))). rewrite HN by (rewrite up_length; lia). rewrite nab_scal, nab_inv by (rewrite <- plus_INR; apply lt_INR; lia).
    rewrite <- plus_INR. pose proof (fall_fact s (mu + s)) as F. replace (mu + s + s + 1)%nat with (mu + 2 * s + 1)%nat in F by lia. replace (mu + s + (1 + s))%nat with (mu + 2 * s + 1)%nat by lia.
    rewrite <- F. assert (0 < fall s (INR (mu + 2 * s + 1))) by (apply fall_pos, lt_INR; lia).
    replace (0 + (-1) ^ s * INR (fact s) * ((-1) ^ s * INR (fact s) / fall s (INR (mu + 2 * s + 1)))) with (((-1) ^ s * (-1) ^ s) * (INR (fact s) * INR (fact s) / fall s (INR (mu + 2 * s + 1)))) by (field; lra).
    replace ((-1) ^ s * (-1) ^ s) with 1. { field. repeat split; try apply INR_fact_neq_0; lra. }
    rewrite <- Rpow_mult_distr. replace (-1 * -1) with 1 by ring. rewrite pow1. reflexivity.
  - intros k Hk. unfold up. rewrite HQ. rewrite lin_neg. field. rewrite <- minus_INR by lia. rewrite <- plus_INR. apply not_0_INR. lia.
Qed.
(** Integrals of polynomials *)
Lemma int_pow n : is_RInt (fun x => x ^ n) 0 1 (/ INR (n + 1)).
Proof.
  replace (/ INR (n + 1)) with (minus (1 ^ (n + 1) / INR (n + 1)) (0 ^ (n + 1) / INR (n + 1))).
  - apply (is_RInt_derive (fun x => x ^ (n + 1) / INR (n + 1))).
    + intros x _. auto_derive; [trivial|]. replace (pred (n + 1)) with n by lia. field. apply not_0_INR. lia.
    + intros x _. apply (ex_derive_continuous (fun x => x ^ n)). auto_derive. trivial.
  - rewrite pow1, pow_i by lia. unfold minus, plus, opp; cbn -[INR]. unfold Rdiv. ring.
Qed.
Lemma int_rsum n (f : nat -> R -> R) (v : nat -> R) a b : (forall i, (i < n)%nat -> is_RInt (f i) a b (v i)) -> is_RInt (fun x => rsum n (fun i => f i x)) a b (rsum n v).
Proof.
  induction n as [|n IH]; intros H; cbn [rsum].
  - pose proof (is_RInt_const a b (0 : R)) as G. match type of G with is_RInt _ _ _ ?w => assert (E : w = 0) by (unfold scal; cbn; unfold mult; cbn; ring); rewrite E in G end. exact G.
  - apply (is_RInt_plus (fun x => rsum n (fun i => f i x)) (f n)); [apply IH; intros i Hi; apply H; lia|apply H; lia].
Qed.
Lemma int_radial_pow mu s j : is_RInt (fun x => radial (mu + 2 * s) mu x * x ^ (mu + 2 * j) * x) 0 1 (/ 2 * rsum (S s) (fun k => rc mu s k * / INR (mu + s - k + j + 1))).
Proof.
  rewrite <- rsum_scal_l.
  apply (is_RInt_ext (fun x => rsum (S s) (fun k => rc mu s k * x ^ (2 * (mu + (s - k) + j) + 1)))).
  - intros x _. rewrite radial_sum. rewrite Rmult_assoc, <- rsum_scal_r. apply rsum_ext. intros k Hk. rewrite !Rmult_assoc. f_equal. rewrite <- tech_pow_Rmult || idtac.
    replace (2 * (mu + (s - k) + j) + 1)%nat with ((mu + 2 * (s - k)) + ((mu + 2 * j) + 1))%nat by lia. rewrite !pow_add, pow_1. ring.
  - apply int_rsum. intros k Hk. replace (/ 2 * (rc mu s k * / INR (mu + s - k + j + 1))) with (scal (rc mu s k) (/ INR (2 * (mu + (s - k) + j) + 1 + 1))).
    + apply (is_RInt_scal (fun x => x ^ (2 * (mu + (s - k) + j) + 1))). apply int_pow.
    + unfold scal; cbn -[INR Nat.mul]; unfold mult; cbn -[INR Nat.mul]. replace (2 * (mu + (s - k) + j) + 1 + 1)%nat with (2 * (mu + s - k + j + 1))%nat by lia. rewrite mult_INR. change (INR 2) with 2. field. apply not_0_INR. lia.
Qed.
Lemma int_radial_le mu s t : (s <= t)%nat -> is_RInt (fun x => radial (mu + 2 * s) mu x * radial (mu + 2 * t) mu x * x) 0 1 (if Nat.eqb s t then / (2 * INR (mu + 2 * s + 1)) else 0).
Proof.
  intros H. apply (is_RInt_ext (fun x => rsum (S s) (fun k => rc mu s k * (radial (mu + 2 * t) mu x * x ^ (mu + 2 * (s - k)) * x)))).
  - intros x _. rewrite (radial_sum mu s x). rewrite Rmult_assoc, <- rsum_scal_r. apply rsum_ext. intros k _. ring.
  - replace (if Nat.eqb s t then _ else _) with (rsum (S s) (fun k => rc mu s k * (/ 2 * rsum (S t) (fun i => rc mu t i * / INR (mu + t - i + (s - k) + 1))))).
    + apply int_rsum. intros k Hk. apply (is_RInt_scal (fun x => radial (mu + 2 * t) mu x * x ^ (mu + 2 * (s - k)) * x)). apply int_radial_pow.
    + destruct (Nat.eqb_spec s t) as [<-|Hn].
      * rewrite rsum_head. rewrite (rsum_ext s _ (fun _ => 0)), rsum_0.
        -- rewrite Nat.sub_0_r. rewrite moment_top. unfold rc. rewrite !Nat.sub_0_r. replace (mu + 2 * s + 1)%nat with (S (mu + 2 * s)) by lia. rewrite fact_simpl, mult_INR. change (fact 0) with 1%nat. change (INR 1) with 1. cbn [pow].
           field. repeat split; try apply INR_fact_neq_0. apply not_0_INR. lia.
        -- intros i Hi. rewrite moment_low by lia. ring.
      * rewrite (rsum_ext (S s) _ (fun _ => 0)), rsum_0; [reflexivity|]. intros i Hi. rewrite moment_low by lia. ring.
Qed.
Lemma int_radial mu s t : is_RInt (fun x => radial (mu + 2 * s) mu x * radial (mu + 2 * t) mu x * x) 0 1 (if Nat.eqb s t then / (2 * INR (mu + 2 * s + 1)) else 0).
Proof.
  destruct (le_lt_dec s t) as [H|H]; [apply int_radial_le, H|]. rewrite (proj2 (Nat.eqb_neq s t)) by lia.
  apply (is_RInt_ext (fun x => radial (mu + 2 * t) mu x * radial (mu + 2 * s) mu x * x)); [intros; match goal with |- @eq _ ?a ?b => change (@eq R a b) end; ring|].
  pose proof (int_radial_le mu t s (Nat.lt_le_incl _ _ H)) as G. rewrite (proj2 (Nat.eqb_neq t s)) in G by lia. exact G.
Qed.
