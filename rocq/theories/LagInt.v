(** Orthogonality of the Laguerre functions on the half line. *)
From Coq Require Import Reals Lra ZArith Arith List Bool Lia.
From Coquelicot Require Import Coquelicot.
From Verif Require Import Sums PyBase ProfileModel ProfSpec ModeSpec ModeFacts GaussInt.
Open Scope R_scope.

Lemma lsum_derive al n x : is_derive (fun t => lsum al (S n) t) x (- lsum (S al) n x).
Proof.
  assert (G : forall (c : nat -> R) k, is_derive (fun t => rsum (S k) (fun i => c i * t ^ i)) x (rsum k (fun i => INR (S i) * c (S i) * x ^ i))).
  { intros c k. induction k as [|k IH].
    - cbn [rsum]. auto_derive; [trivial|]. ring.
    - change (rsum (S (S k))) with (fun f => rsum (S k) f + f (S k)). cbn beta. cbn [rsum].
      apply (is_derive_plus (fun t => rsum (S k) (fun i => c i * t ^ i)) (fun t => c (S k) * t ^ S k)); [exact IH|].
      replace (INR (S k) * c (S k) * x ^ k) with (c (S k) * (INR (S k) * 1 * x ^ pred (S k))) by (cbn [pred]; ring). apply (is_derive_scal (fun t => t ^ S k) x). apply (is_derive_pow (fun t => t) (S k) x 1). exact (@is_derive_id R_AbsRing x). }
  unfold lsum. pose proof (G (fun i => laguerre_c (S n) al i) (S n)) as D. cbn beta in D.
  replace (- rsum (S n) (fun i => laguerre_c n (S al) i * x ^ i)) with (rsum (S n) (fun i => INR (S i) * laguerre_c (S n) al (S i) * x ^ i)); [exact D|].
  replace (- rsum (S n) (fun i => laguerre_c n (S al) i * x ^ i)) with (rsum (S n) (fun i => (-1) * (laguerre_c n (S al) i * x ^ i))) by (rewrite rsum_scal_l; ring).
  apply rsum_ext. intros i Hi. rewrite <- Rmult_assoc. f_equal. unfold laguerre_c. replace (S n - S i)%nat with (n - i)%nat by lia.
  replace (al + S i)%nat with (S al + i)%nat by lia. replace (S n + al)%nat with (n + S al)%nat by lia. rewrite (fact_S i). rewrite S_INR. cbn [pow]. pose proof (INR_nn i).
  field. repeat split; try apply INR_fact_neq_0; lra.
Qed.
(** (alpha + 1 - x) L_n^(alpha+1) + x (L_n^(alpha+1))' = (n + 1) L_(n+1)^alpha, on coefficients. *)
Lemma lc_up0 al n : (INR al + 1) * lc (S al) n 0 = (INR n + 1) * lc al (S n) 0.
Proof.
  replace (lc (S al) n 0) with (lc (S al) (n + 0) 0) by (f_equal; lia). replace (lc al (S n) 0) with (lc al (S n + 0) 0) by (f_equal; lia). rewrite !lc_in. rewrite !Nat.add_0_r.
  replace (n + S al)%nat with (S n + al)%nat by lia. rewrite (fact_S n), (fact_S al). pose proof (INR_nn n). pose proof (INR_nn al). change (fact 0) with 1%nat. cbn [pow INR]. field.
  repeat split; try apply INR_fact_neq_0; lra.
Qed.
Lemma lc_up al n i : (INR al + 1 + INR (S i)) * lc (S al) n (S i) - lc (S al) n i = (INR n + 1) * lc al (S n) (S i).
Proof.
  destruct (le_lt_dec (S i) n) as [H|H].
  - destruct (Nat.le_exists_sub _ _ H) as [k [-> _]].
    replace (lc (S al) (k + S i) i) with (lc (S al) (S k + i) i) by (f_equal; lia). replace (lc al (S (k + S i)) (S i)) with (lc al (S k + S i) (S i)) by (f_equal; lia). rewrite !lc_in.
    replace (k + S i + S al)%nat with (S (k + i + S al)) by lia. replace (S k + i + S al)%nat with (S (k + i + S al)) by lia. replace (S k + S i + al)%nat with (S (k + i + S al)) by lia.
    replace (S al + S i)%nat with (S (al + S i)) by lia. replace (S al + i)%nat with (al + S i)%nat by lia. rewrite (fact_S k), (fact_S i), (fact_S (al + S i)). rewrite !plus_INR, !S_INR. pose proof (INR_nn k). pose proof (INR_nn i). pose proof (INR_nn al).
    cbn [pow]. field. repeat split; try apply INR_fact_neq_0; lra.
  - rewrite (lc_top (S al) n (S i)) by lia. destruct (Nat.eq_dec i n) as [->|Hn].
    + replace (lc (S al) n n) with (lc (S al) (0 + n) n) by reflexivity. replace (lc al (S n) (S n)) with (lc al (0 + S n) (S n)) by reflexivity. rewrite !lc_in.
      replace (0 + n + S al)%nat with (S al + n)%nat by lia. replace (0 + S n + al)%nat with (S al + n)%nat by lia. replace (al + S n)%nat with (S al + n)%nat by lia. rewrite (fact_S n). pose proof (INR_nn n).
      cbn [pow]. change (fact 0) with 1%nat. cbn [INR]. field. repeat split; try apply INR_fact_neq_0; lra.
    + rewrite !lc_top by lia. ring.
Qed.
Lemma lsum_ex al n x : ex_derive (fun t => lsum al n t) x.
Proof. destruct n as [|n]; [unfold lsum; cbn [rsum pow]; auto_derive; trivial|]. eexists. apply lsum_derive. Qed.
Lemma lsum_cont al n x : continuous (fun t => lsum al n t) x.
Proof. apply (ex_derive_continuous (fun t => lsum al n t)), lsum_ex. Qed.
Definition dl (al n : nat) (x : R) : R := match n with O => 0 | S k => - lsum (S al) k x end.
Lemma lsum_dl al n x : is_derive (fun t => lsum al n t) x (dl al n x).
Proof. destruct n as [|n]; [unfold lsum, dl; cbn [rsum pow]; auto_derive; trivial; ring|apply lsum_derive]. Qed.
Lemma dl_sum al n x : x * dl al n x = rsum (S n) (fun i => INR i * lc al n i * x ^ i).
Proof.
  rewrite rsum_first. change (INR 0) with 0. rewrite !Rmult_0_l, Rplus_0_l. destruct n as [|n]; [cbn; ring|]. unfold dl, lsum. 
  replace (x * - rsum (S n) (fun i => laguerre_c n (S al) i * x ^ i)) with ((- x) * rsum (S n) (fun i => laguerre_c n (S al) i * x ^ i)) by ring.
  rewrite <- rsum_scal_l. apply rsum_ext. intros i Hi. unfold lc. rewrite (proj2 (Nat.leb_le (S i) (S n))) by lia. unfold laguerre_c. replace (S n - S i)%nat with (n - i)%nat by lia.
  replace (al + S i)%nat with (S al + i)%nat by lia. replace (S n + al)%nat with (n + S al)%nat by lia. rewrite (fact_S i), S_INR. cbn [pow]. pose proof (INR_nn i).
  field. repeat split; try apply INR_fact_neq_0; lra.
Qed.
Lemma lsum_up al n x : (INR al + 1 - x) * lsum (S al) n x + x * dl (S al) n x = (INR n + 1) * lsum al (S n) x.
Proof.
  rewrite dl_sum. rewrite (lsum_ext al (S n) 0), Nat.add_0_r. replace ((INR al + 1 - x) * lsum (S al) n x) with ((INR al + 1) * lsum (S al) n x - x * lsum (S al) n x) by ring.
  rewrite (lsum_ext (S al) n 1) at 1. rewrite (lsum_ext (S al) n 0), Nat.add_0_r. replace (S n + 1)%nat with (S (S n)) by lia.
  replace (rsum (S n) (fun i => INR i * lc (S al) n i * x ^ i)) with (rsum (S (S n)) (fun i => INR i * lc (S al) n i * x ^ i)).
  2:{ cbn [rsum]. rewrite (lc_top (S al) n (S n)) by lia. ring. }
  rewrite !(rsum_first (S n)).
  replace (x * rsum (S n) (fun i => lc (S al) n i * x ^ i)) with (rsum (S n) (fun i => lc (S al) n i * x ^ S i)) by (rewrite <- rsum_scal_l; apply rsum_ext; intros; cbn [pow]; ring).
  rewrite Rmult_plus_distr_l, (Rmult_plus_distr_l (INR n + 1)). rewrite <- !rsum_scal_l.
  replace ((INR n + 1) * (lc al (S n) 0 * x ^ 0)) with ((INR al + 1) * (lc (S al) n 0 * x ^ 0)) by (pose proof (lc_up0 al n); cbn [pow]; lra).
  change (INR 0) with 0. rewrite !Rmult_0_l, Rplus_0_l.
  match goal with |- ?A + ?B - ?C + ?D = ?A' + ?E => cut (B + (-1) * C + D = E); [intros; lra|] end.
  rewrite <- (rsum_scal_l (S n) (-1)), <- !rsum_plus. apply rsum_ext. intros i _.
  replace (((INR n + 1) * (lc al (S n) (S i) * x ^ S i))) with (((INR n + 1) * lc al (S n) (S i)) * x ^ S i) by ring. rewrite <- (lc_up al n i). rewrite S_INR. ring.
Qed.

(** ** Integrals *)
Lemma pb_lsum al n : pb (fun x => lsum al n x).
Proof. exact (pb_rsum (fun i => laguerre_c n al i) (S n)). Qed.
(** x^(alpha+1) e^(-x) L_n^(alpha+1) is an antiderivative of (n+1) x^alpha e^(-x) L_(n+1)^alpha. *)
Lemma lag_rodrigues al n x : is_derive (fun t => t ^ S al * lsum (S al) n t * exp (- t)) x ((INR n + 1) * (x ^ al * lsum al (S n) x * exp (- x))).
Proof.
  pose proof (lsum_dl (S al) n x) as D. evar_last.
  - apply (is_derive_mult (fun t => t ^ S al * lsum (S al) n t) (fun t => exp (- t))).
    + apply (is_derive_mult (fun t => t ^ S al) (fun t => lsum (S al) n t)).
      * apply (is_derive_pow (fun t => t) (S al) x 1). exact (@is_derive_id R_AbsRing x).
      * exact D.
      * intros; apply Rmult_comm.
    + instantiate (1 := - exp (- x)). auto_derive; [trivial|ring].
    + intros; apply Rmult_comm.
  - unfold plus, mult; cbn -[INR pow lsum dl]. cbn [pred pow]. rewrite S_INR. 
    replace ((INR n + 1) * (x ^ al * lsum al (S n) x * exp (- x))) with (x ^ al * exp (- x) * ((INR n + 1) * lsum al (S n) x)) by ring. rewrite <- lsum_up. ring.
Qed.
Definition lagw (al p q : nat) (x : R) : R := x ^ al * lsum al p x * lsum al q x * exp (- x).
Lemma lsum_0 al x : lsum al 0 x = 1.
Proof. unfold lsum, laguerre_c. cbn [rsum pow Nat.sub]. rewrite Nat.add_0_l, Nat.add_0_r. change (fact 0) with 1%nat. cbn [INR]. field. apply INR_fact_neq_0. Qed.
Lemma half_gamma al : half (fun x => x ^ al * exp (- x)) (INR (fact al)).
Proof.
  induction al as [|al IH].
  - exists (fun x => - exp (- x)), 0. split; [intros x; auto_derive; [trivial|cbn [pow]; ring]|]. split; [intros x; apply (ex_derive_continuous (fun x => x ^ 0 * exp (- x))); auto_derive; trivial|]. split.
    + apply (is_lim_ext (fun x => (-1) * exp (- x))); [intros; ring|]. apply (lim_pexp (fun _ => -1)), pb_const.
    + rewrite Ropp_0, exp_0. cbn. ring.
  - apply (half_ext (fun x => (INR al + 1) * (x ^ al * exp (- x)) + (-1) * ((INR al + 1) * x ^ al * exp (- x) - x ^ S al * exp (- x)))); [intros x; ring|].
    replace (INR (fact (S al))) with ((INR al + 1) * INR (fact al) + (-1) * 0) by (rewrite fact_S; ring). apply half_lin; [exact IH|].
    exists (fun x => x ^ S al * exp (- x)), 0. split; [|split; [|split]].
    + intros x. evar_last.
      * apply (is_derive_mult (fun t => t ^ S al) (fun t => exp (- t))); [apply (is_derive_pow (fun t => t) (S al) x 1); exact (@is_derive_id R_AbsRing x)| |intros; apply Rmult_comm].
        instantiate (1 := - exp (- x)). auto_derive; [trivial|ring].
      * unfold plus, mult; cbn -[INR pow]. cbn [pred pow]. rewrite S_INR. ring.
    + intros x. apply (ex_derive_continuous (fun x => (INR al + 1) * x ^ al * exp (- x) - x ^ S al * exp (- x))). auto_derive. trivial.
    + apply lim_pexp, pb_pow.
    + rewrite pow_i by lia. ring.
Qed.
Lemma lag_orthogonal p : forall q al, half (lagw al p q) (if (p =? q)%nat then INR (fact (al + p)) / INR (fact p) else 0).
Proof.
  assert (Z0 : forall n al, half (fun x => x ^ al * lsum al (S n) x * exp (- x)) 0).
  { intros n al. pose proof (INR_nn n). apply (half_ext (fun x => / (INR n + 1) * ((INR n + 1) * (x ^ al * lsum al (S n) x * exp (- x))))); [intros x; field; lra|].
    apply (half_val _ (/ (INR n + 1) * 0)); [ring|]. apply half_scal.
    exists (fun t => t ^ S al * lsum (S al) n t * exp (- t)), 0. split; [intros x; apply lag_rodrigues|]. split; [|split].
    - intros x. apply (ex_derive_continuous (fun x => (INR n + 1) * (x ^ al * lsum al (S n) x * exp (- x)))). pose proof (lsum_ex al (S n) x). auto_derive. auto.
    - apply (lim_pexp (fun t => t ^ S al * lsum (S al) n t)), pb_mult; [apply pb_pow|apply pb_lsum].
    - rewrite pow_i by lia. ring. }
  induction p as [|p IH]; intros [|q] al; cbn [Nat.eqb].
  - apply (half_ext (fun x => x ^ al * exp (- x))); [intros x; unfold lagw; rewrite lsum_0; ring|]. rewrite Nat.add_0_r. replace (INR (fact al) / INR (fact 0)) with (INR (fact al)) by (cbn; field). apply half_gamma.
  - apply (half_ext (fun x => x ^ al * lsum al (S q) x * exp (- x))); [intros x; unfold lagw; rewrite lsum_0; ring|]. apply Z0.
  - apply (half_ext (fun x => x ^ al * lsum al (S p) x * exp (- x))); [intros x; unfold lagw; rewrite lsum_0; ring|]. apply Z0.
  - pose proof (INR_nn p). specialize (IH q (S al)).
    apply (half_ext (fun x => / (INR p + 1) * ((INR p + 1) * (x ^ al * lsum al (S p) x * exp (- x)) * lsum al (S q) x - x ^ S al * lsum (S al) p x * exp (- x) * lsum (S al) q x) + / (INR p + 1) * lagw (S al) p q x)).
    { intros x. unfold lagw. field. lra. }
    replace (if (p =? q)%nat then _ else 0) with (/ (INR p + 1) * 0 + / (INR p + 1) * (if (p =? q)%nat then INR (fact (S al + p)) / INR (fact p) else 0)).
    2:{ destruct (p =? q)%nat; [|ring]. replace (al + S p)%nat with (S al + p)%nat by lia. rewrite (fact_S p). field. split; [apply INR_fact_neq_0|lra]. }
    apply half_lin; [|exact IH].
    exists (fun t => t ^ S al * lsum (S al) p t * exp (- t) * lsum al (S q) t), 0. split; [|split; [|split]].
    + intros x. evar_last; [apply (is_derive_mult (fun t => t ^ S al * lsum (S al) p t * exp (- t)) (fun t => lsum al (S q) t)); [apply lag_rodrigues|apply lsum_derive|intros; apply Rmult_comm]|].
      unfold plus, mult; cbn -[INR pow lsum]. ring.
    + intros x. apply (ex_derive_continuous (fun x => (INR p + 1) * (x ^ al * lsum al (S p) x * exp (- x)) * lsum al (S q) x - x ^ S al * lsum (S al) p x * exp (- x) * lsum (S al) q x)).
      pose proof (lsum_ex al (S p) x). pose proof (lsum_ex al (S q) x). pose proof (lsum_ex (S al) p x). pose proof (lsum_ex (S al) q x). auto_derive. auto.
    + apply (is_lim_ext (fun t => t ^ S al * lsum (S al) p t * lsum al (S q) t * exp (- t))); [intros t; ring|].
      apply (lim_pexp (fun t => t ^ S al * lsum (S al) p t * lsum al (S q) t)). apply pb_mult; [apply pb_mult; [apply pb_pow|apply pb_lsum]|apply pb_lsum].
    + rewrite pow_i by lia. ring.
Qed.
