(** Hermite-Gauss, Laguerre-Gauss, super-Gauss modes and windows (C27-C30). *)
From Coq Require Import Reals Lra Psatz ZArith Arith List Bool Lia FunctionalExtensionality.
From Coquelicot Require Import Complex Coquelicot.
From Verif Require Import Cx Sums PyBase ProfileModel ProfSpec ProfFacts ProfFacts2 ModeSpec.
Import ListNotations.
Open Scope R_scope.

(** ** Polynomial evaluation *)
Lemma polyval_fold l x : polyval l x = fold_left (fun p c => c + p * x) l 0.
Proof. destruct l as [|c l]; [reflexivity|]. cbn [polyval fold_left]. f_equal. ring. Qed.
Definition eval_low (l : list R) (x : R) : R := fold_right (fun c acc => c + acc * x) 0 l.
Lemma polyval_rev l x : polyval (rev l) x = eval_low l x.
Proof. rewrite polyval_fold. unfold eval_low. rewrite <- (rev_involutive l) at 2. rewrite fold_left_rev_right. reflexivity. Qed.
Lemma eval_low_nth l x : eval_low l x = rsum (length l) (fun i => nth i l 0 * x ^ i).
Proof.
  induction l as [|c l IH]; [reflexivity|]. cbn [eval_low fold_right length]. change (fold_right _ 0 l) with (eval_low l x). rewrite IH.
  change (S (length l)) with (1 + length l)%nat. rewrite rsum_app. cbn [rsum nth]. replace (0 + c * x ^ 0) with c by (cbn; ring). f_equal.
  rewrite <- rsum_scal_r. apply rsum_ext. intros i _. cbn [nth Nat.add pow]. ring.
Qed.
Lemma eval_low_seq (c : nat -> R) n x : eval_low (map c (seq 0 n)) x = rsum n (fun i => c i * x ^ i).
Proof.
  rewrite eval_low_nth, map_length, seq_length. apply rsum_ext. intros i Hi. rewrite (nth_indep _ 0 (c 0%nat)) by (rewrite map_length, seq_length; exact Hi).
  rewrite map_nth, seq_nth by exact Hi. reflexivity.
Qed.

(** ** Hermite *)
Fixpoint hpair (n : nat) (x : R) : R * R :=
  match n with O => (1, 2 * x) | S k => let (a, b) := hpair k x in (b, 2 * x * b - 2 * INR (S k) * a) end.
Definition evz (l : list Z) (x : R) : R := eval_low (map IZR l) x.
Lemma evz_cons c l x : evz (c :: l) x = IZR c + evz l x * x. Proof. reflexivity. Qed.
Lemma evz_zadd a x : forall b, evz (zadd a b) x = evz a x + evz b x.
Proof.
  induction a as [|c a IH]; intros [|d b]; cbn [zadd]; rewrite ?evz_cons; try (unfold evz; cbn; ring). rewrite IH, plus_IZR. ring.
Qed.
Lemma evz_scale k l x : evz (map (fun c => k * c)%Z l) x = IZR k * evz l x.
Proof. induction l as [|c l IH]; cbn [map]; rewrite ?evz_cons; [unfold evz; cbn; ring|]. rewrite IH, mult_IZR. ring. Qed.
Lemma hermite_pair_eval n x : evz (fst (hermite_pair n)) x = fst (hpair n x) /\ evz (snd (hermite_pair n)) x = snd (hpair n x).
Proof.
  induction n as [|n [IH1 IH2]]; [cbn; unfold evz; cbn; split; ring|]. cbn [hermite_pair hpair]. destruct (hermite_pair n) as [a b], (hpair n x) as [u v]. cbn [fst snd] in *. split; [exact IH2|].
  rewrite evz_zadd, evz_cons, !evz_scale, IH1, IH2. rewrite mult_IZR, <- INR_IZR_INZ. ring.
Qed.
Lemma hermite_coef_eval n x : polyval (hermite_coef n) x = fst (hpair n x).
Proof. unfold hermite_coef, hermite_low. rewrite map_rev, polyval_rev. apply hermite_pair_eval. Qed.
Lemma hpair_derive n : (forall x, is_derive (fun t => fst (hpair n t)) x (2 * x * fst (hpair n x) - snd (hpair n x))) /\
  (forall x, is_derive (fun t => snd (hpair n t)) x (2 * INR (S n) * fst (hpair n x))).
Proof.
  induction n as [|n [IH1 IH2]].
  - split; intros x; cbn [hpair fst snd INR]; auto_derive; trivial; ring.
  - assert (E1 : forall t, fst (hpair (S n) t) = snd (hpair n t)) by (intros t; cbn [hpair]; destruct (hpair n t); reflexivity).
    assert (E2 : forall t, snd (hpair (S n) t) = 2 * t * snd (hpair n t) - 2 * INR (S n) * fst (hpair n t)) by (intros t; cbn [hpair]; destruct (hpair n t); reflexivity).
    split; intros x.
    + apply (is_derive_ext (fun t => snd (hpair n t))); [intros; symmetry; apply E1|]. rewrite E1, E2.
      replace (2 * x * snd (hpair n x) - (2 * x * snd (hpair n x) - 2 * INR (S n) * fst (hpair n x))) with (2 * INR (S n) * fst (hpair n x)) by ring. apply IH2.
    + apply (is_derive_ext (fun t => 2 * t * snd (hpair n t) - 2 * INR (S n) * fst (hpair n t))); [intros; symmetry; apply E2|]. rewrite E1.
      replace (2 * INR (S (S n)) * snd (hpair n x)) with ((2 * snd (hpair n x) + 2 * x * (2 * INR (S n) * fst (hpair n x))) - 2 * INR (S n) * (2 * x * fst (hpair n x) - snd (hpair n x)))
        by (rewrite (S_INR (S n)); ring).
      apply (is_derive_minus (fun t => 2 * t * snd (hpair n t)) (fun t => 2 * INR (S n) * fst (hpair n t))).
      * replace (2 * snd (hpair n x) + 2 * x * (2 * INR (S n) * fst (hpair n x))) with (plus (mult (2 : R_AbsRing) (snd (hpair n x))) (mult (2 * x) (2 * INR (S n) * fst (hpair n x)))) by reflexivity.
        apply (is_derive_mult (fun t => 2 * t) (fun t => snd (hpair n t))); [auto_derive; trivial; ring|apply IH2|intros; apply Rmult_comm].
      * apply (is_derive_scal (fun t => fst (hpair n t))). apply IH1.
Qed.
Lemma gauss_derive n : forall x, Derive_n (fun t => exp (- t ^ 2)) n x = (-1) ^ n * fst (hpair n x) * exp (- x ^ 2).
Proof.
  induction n as [|n IH]; intros x; [cbn [Derive_n hpair fst pow]; ring|]. cbn [Derive_n].
  rewrite (Derive_ext _ (fun t => (-1) ^ n * fst (hpair n t) * exp (- t ^ 2)) x IH). apply is_derive_unique.
  destruct (hpair_derive n) as [D _]. 
  assert (E1 : fst (hpair (S n) x) = snd (hpair n x)) by (cbn [hpair]; destruct (hpair n x); reflexivity). rewrite E1.
  replace ((-1) ^ S n * snd (hpair n x) * exp (- x ^ 2)) with
    (plus (mult ((-1) ^ n * (2 * x * fst (hpair n x) - snd (hpair n x)) : R_AbsRing) (exp (- x ^ 2))) (mult ((-1) ^ n * fst (hpair n x)) (- (2 * x) * exp (- x ^ 2))))
    by (unfold plus, mult; cbn -[pow hpair]; change ((-1) ^ S n) with (-1 * (-1) ^ n); ring).
  apply (is_derive_mult (fun t => (-1) ^ n * fst (hpair n t)) (fun t => exp (- t ^ 2))); [apply (is_derive_scal (fun t => fst (hpair n t))), D| |intros; apply Rmult_comm].
  auto_derive; trivial. cbn [pred Init.Nat.pred pow INR]. ring_simplify. ring.
Qed.
Lemma m1_sq n : (-1) ^ n * (-1) ^ n = 1.
Proof. rewrite <- Rpow_mult_distr. replace (-1 * -1) with 1 by ring. apply pow1. Qed.
Lemma hermite_hpair n x : hermite n x = fst (hpair n x).
Proof.
  unfold hermite. rewrite gauss_derive. replace ((-1) ^ n * exp (x ^ 2) * ((-1) ^ n * fst (hpair n x) * exp (- x ^ 2))) with
    (((-1) ^ n * (-1) ^ n) * (exp (x ^ 2) * exp (- x ^ 2)) * fst (hpair n x)) by ring.
  rewrite m1_sq, <- exp_plus, Rplus_opp_r, exp_0. ring.
Qed.
Lemma hpair_parity n x : fst (hpair n (- x)) = (-1) ^ n * fst (hpair n x) /\ snd (hpair n (- x)) = (-1) ^ S n * snd (hpair n x).
Proof.
  induction n as [|n [IH1 IH2]]; [cbn; split; ring|]. cbn [hpair]. destruct (hpair n (- x)) as [a b], (hpair n x) as [u v]. cbn [fst snd] in *. split; [exact IH2|].
  rewrite IH1, IH2. cbn [pow]. ring.
Qed.
Lemma hermite_parity n x : hermite n (- x) = (-1) ^ n * hermite n x.
Proof. rewrite !hermite_hpair. apply hpair_parity. Qed.

(** ** Laguerre *)
Definition lsum (al n : nat) (x : R) : R := rsum (S n) (fun i => laguerre_c n al i * x ^ i).
Lemma laguerre_coef_eval p al x : polyval (laguerre_coef p al) x = lsum al p x.
Proof. unfold laguerre_coef. rewrite map_rev, polyval_rev, eval_low_seq. reflexivity. Qed.
Definition lc (al n i : nat) : R := if (i <=? n)%nat then laguerre_c n al i else 0.
Lemma lsum_ext al n k x : lsum al n x = rsum (S n + k) (fun i => lc al n i * x ^ i).
Proof.
  rewrite rsum_app. rewrite (rsum_ext k _ (fun _ => 0)).
  - rewrite rsum_0, Rplus_0_r. apply rsum_ext. intros i Hi. unfold lc. rewrite (proj2 (Nat.leb_le i n)) by lia. reflexivity.
  - intros i _. unfold lc. rewrite (proj2 (Nat.leb_gt _ n)) by lia. ring.
Qed.
Lemma fact_S n : INR (fact (S n)) = (INR n + 1) * INR (fact n).
Proof. rewrite fact_simpl, mult_INR, S_INR. reflexivity. Qed.
Lemma INR_nn n : 0 <= INR n. Proof. apply pos_INR. Qed.
Ltac nz := repeat match goal with
  | |- _ /\ _ => split | |- INR (fact _) <> 0 => apply INR_fact_neq_0 end; try (repeat match goal with n : nat |- _ => pose proof (INR_nn n); clear n || revert n; intros n end; lra).
Lemma lc_top al n i : (n < i)%nat -> lc al n i = 0.
Proof. intros H. unfold lc. rewrite (proj2 (Nat.leb_gt _ _)) by lia. reflexivity. Qed.
Lemma lc_in al k i : lc al (k + i) i = (-1) ^ i * (INR (fact (k + i + al)) / (INR (fact k) * INR (fact (al + i)))) / INR (fact i).
Proof. unfold lc. rewrite (proj2 (Nat.leb_le _ _)) by lia. unfold laguerre_c. replace (k + i - i)%nat with k by lia. reflexivity. Qed.
Lemma lc_rec0 al n : (INR n + 2) * lc al (S (S n)) 0 = (2 * INR n + 3 + INR al) * lc al (S n) 0 - (INR n + 1 + INR al) * lc al n 0.
Proof.
  replace (lc al (S (S n)) 0) with (lc al (S (S n) + 0) 0) by (f_equal; lia). replace (lc al (S n) 0) with (lc al (S n + 0) 0) by (f_equal; lia).
  replace (lc al n 0) with (lc al (n + 0) 0) by (f_equal; lia). rewrite !lc_in. rewrite !Nat.add_0_r. cbn [Nat.add pow]. rewrite !fact_S, !S_INR, !plus_INR.
  pose proof (INR_nn n). change (INR (fact 0)) with 1. field. repeat split; try apply INR_fact_neq_0; lra.
Qed.
Lemma lc_rec1 al n j : (INR n + 2) * lc al (S (S n)) (S j) =
  (2 * INR n + 3 + INR al) * lc al (S n) (S j) - lc al (S n) j - (INR n + 1 + INR al) * lc al n (S j).
Proof.
  destruct (le_lt_dec (S j) n) as [H|H].
  - destruct (Nat.le_exists_sub _ _ H) as [k [-> _]].
    replace (S (S (k + S j))) with (S (S k) + S j)%nat by lia. replace (lc al (S (k + S j)) (S j)) with (lc al (S k + S j) (S j)) by (f_equal; lia).
    replace (lc al (S (k + S j)) j) with (lc al (S (S k) + j) j) by (f_equal; lia). rewrite !lc_in.
    replace (S (S k) + S j + al)%nat with (S (S (S (k + j + al)))) by lia. replace (S k + S j + al)%nat with (S (S (k + j + al))) by lia.
    replace (S (S k) + j + al)%nat with (S (S (k + j + al))) by lia. replace (k + S j + al)%nat with (S (k + j + al)) by lia.
    replace (al + S j)%nat with (S (al + j)) by lia. rewrite !fact_S, !plus_INR, !S_INR, !plus_INR.
    pose proof (INR_nn k). pose proof (INR_nn j). pose proof (INR_nn al). cbn [pow]. field. repeat split; try apply INR_fact_neq_0; lra.
  - rewrite (lc_top al n (S j)) by lia. destruct (Nat.eq_dec j n) as [->|Hj].
    + replace (lc al (S (S n)) (S n)) with (lc al (1 + S n) (S n)) by (f_equal; lia). replace (lc al (S n) (S n)) with (lc al (0 + S n) (S n)) by (f_equal; lia).
      replace (lc al (S n) n) with (lc al (1 + n) n) by (f_equal; lia). rewrite !lc_in. replace (1 + S n + al)%nat with (S (S (n + al))) by lia.
      replace (0 + S n + al)%nat with (S (n + al)) by lia. replace (1 + n + al)%nat with (S (n + al)) by lia. replace (al + S n)%nat with (S (al + n)) by lia.
      replace (al + n)%nat with (n + al)%nat by lia.
      rewrite !fact_S, !S_INR, !plus_INR. pose proof (INR_nn n). pose proof (INR_nn al). change (INR (fact 0)) with 1. cbn [pow INR]. field. repeat split; try apply INR_fact_neq_0; lra.
    + rewrite (lc_top al (S n) (S j)) by lia. destruct (Nat.eq_dec j (S n)) as [->|Hj2].
      * replace (lc al (S (S n)) (S (S n))) with (lc al (0 + S (S n)) (S (S n))) by (f_equal; lia). replace (lc al (S n) (S n)) with (lc al (0 + S n) (S n)) by (f_equal; lia).
        rewrite !lc_in. replace (0 + S (S n) + al)%nat with (al + S (S n))%nat by lia. replace (0 + S n + al)%nat with (al + S n)%nat by lia.
        rewrite !fact_S, !S_INR. pose proof (INR_nn n). change (INR (fact 0)) with 1. cbn [pow]. field. repeat split; try apply INR_fact_neq_0; lra.
      * rewrite !lc_top by lia. ring.
Qed.
Lemma rsum_first n f : rsum (S n) f = f 0%nat + rsum n (fun i => f (S i)).
Proof. change (S n) with (1 + n)%nat. rewrite rsum_app. cbn [rsum]. rewrite Rplus_0_l. reflexivity. Qed.
Lemma lsum_rec al n x : (INR n + 2) * lsum al (S (S n)) x = (2 * INR n + 3 + INR al - x) * lsum al (S n) x - (INR n + 1 + INR al) * lsum al n x.
Proof.
  replace (lsum al (S (S n)) x) with (rsum (S (S (S n))) (fun i => lc al (S (S n)) i * x ^ i)) by (rewrite (lsum_ext al (S (S n)) 0), Nat.add_0_r; reflexivity).
  replace ((2 * INR n + 3 + INR al - x) * lsum al (S n) x) with ((2 * INR n + 3 + INR al) * lsum al (S n) x - x * lsum al (S n) x) by ring.
  rewrite (lsum_ext al (S n) 1) at 1. rewrite (lsum_ext al n 2). rewrite (lsum_ext al (S n) 0).
  replace (S (S n) + 1)%nat with (S (S (S n))) by lia. replace (S n + 2)%nat with (S (S (S n))) by lia. rewrite Nat.add_0_r.
  rewrite (rsum_first (S (S n)) (fun i => lc al (S (S n)) i * x ^ i)), (rsum_first (S (S n)) (fun i => lc al (S n) i * x ^ i)), (rsum_first (S (S n)) (fun i => lc al n i * x ^ i)).
  rewrite !Rmult_plus_distr_l, <- !rsum_scal_l.
  rewrite (rsum_ext (S (S n)) (fun i => (INR n + 2) * (lc al (S (S n)) (S i) * x ^ (S i)))
    (fun i => (2 * INR n + 3 + INR al) * (lc al (S n) (S i) * x ^ (S i)) - x * (lc al (S n) i * x ^ i) - (INR n + 1 + INR al) * (lc al n (S i) * x ^ (S i)))).
  - rewrite !rsum_minus. pose proof (lc_rec0 al n) as H0. cbn [pow]. rewrite !Rmult_1_r. rewrite H0. ring.
  - intros i _. cbn [pow]. pose proof (lc_rec1 al n i) as H1.
    replace ((INR n + 2) * (lc al (S (S n)) (S i) * (x * x ^ i))) with (((INR n + 2) * lc al (S (S n)) (S i)) * (x * x ^ i)) by ring. rewrite H1. ring.
Qed.
Lemma laguerre_pair_lsum al n x : fst (laguerre_pair (INR al) n x) = lsum al n x /\ snd (laguerre_pair (INR al) n x) = lsum al (S n) x.
Proof.
  induction n as [|n [IH1 IH2]].
  - cbn [laguerre_pair fst snd]. unfold lsum, laguerre_c. cbn [rsum Nat.add Nat.sub pow]. rewrite Nat.add_0_r. replace (al + 1)%nat with (S al) by lia. rewrite !fact_S.
    cbn [fact]. pose proof (INR_nn al). cbn [INR]. split; field; repeat split; try apply INR_fact_neq_0; lra.
  - cbn [laguerre_pair]. destruct (laguerre_pair (INR al) n x) as [a b]. cbn [fst snd] in *. split; [exact IH2|]. pose proof (lsum_rec al n x) as H. rewrite <- IH1, <- IH2 in H. 
    pose proof (INR_nn n). apply (Rmult_eq_reg_l (INR n + 2)); [|lra]. rewrite H. field. lra.
Qed.
Lemma laguerre_lsum n al x : laguerre n (INR al) x = lsum al n x.
Proof. apply laguerre_pair_lsum. Qed.
