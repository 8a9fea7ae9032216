(** Fourier sums of sampled Hermite functions (C113). *)
From Coq Require Import Reals Lra Psatz ZArith Arith List Bool Lia.
From Coquelicot Require Import Coquelicot.
From Verif Require Import Cx Sums ModeSpec ModeFacts GaussInt ErfInt GaussSum GaussSum2 HermSpec.
Open Scope R_scope.

Ltac req := match goal with |- ?x = ?y => change (@eq R x y) end.
(** *** A function dominated by an integrable one *)
Lemma rise_bound f V G G' : line f V -> (forall x, is_derive G x (G' x)) -> (forall x, Rabs (G' x) <= f x) -> is_lim G p_infty 0 -> is_lim G m_infty 0 ->
  forall x, 2 * G x <= V.
Proof.
  intros (F & K & L & D & _ & HK & HL & ->) DG B P Mi x.
  assert (U : F x + G x <= L).
  { assert (Lm : is_lim (fun y => F y + G y) p_infty (L + 0)) by (apply is_lim_plus'; assumption).
    assert (Q : Rbar_le (F x + G x) (L + 0)); [|cbn in Q; lra].
    apply (is_lim_le_loc (fun _ => F x + G x) (fun y => F y + G y) p_infty); [|apply is_lim_const|exact Lm].
    exists x. intros y Hy. apply (grows (fun y => F y + G y) (fun y => f y + G' y)); [lra| |].
    - intros z. apply (is_derive_plus (V := R_NormedModule)); [apply D|apply DG].
    - intros z _. assert (Q := B z). apply Rabs_le_between in Q. lra. }
  assert (W : K <= F x - G x).
  { assert (Lm : is_lim (fun y => F y - G y) m_infty (K - 0)) by (apply is_lim_minus'; assumption).
    assert (Q : Rbar_le (K - 0) (F x - G x)); [|cbn in Q; lra].
    apply (is_lim_le_loc (fun y => F y - G y) (fun _ => F x - G x) m_infty); [|exact Lm|apply is_lim_const].
    exists x. intros y Hy. apply (grows (fun y => F y - G y) (fun y => f y - G' y)); [lra| |].
    - intros z. apply (is_derive_minus (V := R_NormedModule)); [apply D|apply DG].
    - intros z _. assert (Q := B z). apply Rabs_le_between in Q. lra. }
  lra.
Qed.
(** *** Hermite functions are bounded *)
Definition dn (n : nat) (x : R) : R := match n with O => 0 | S k => 2 * (INR k + 1) * H k x end.
Lemma H_dn n x : is_derive (H n) x (dn n x). Proof. apply H_down. Qed.
Lemma H_rec n x : H (S n) x = 2 * x * H n x - dn n x.
Proof. assert (A := H_dn n x). assert (B := H_derive n x). apply is_derive_unique in A. apply is_derive_unique in B. lra. Qed.
Lemma slope_line n : line (fun x => (dn n x - H (S n) x) ^ 2 * g x) (sqrt PI * 2 ^ n * INR (fact n) * (4 * INR n + 2)).
Proof.
  destruct n as [|n].
  - apply (line_ext (fun x => H 1 x * H 1 x * g x)); [intros; unfold dn; ring|]. eapply line_val; [|apply herm_orthogonal]. cbn. ring.
  - apply (line_ext (fun x => 1 * ((2 * (INR n + 1)) ^ 2 * (H n x * H n x * g x) + 1 * (H (S (S n)) x * H (S (S n)) x * g x)) + (- (4 * (INR n + 1))) * (H n x * H (S (S n)) x * g x))).
    + intros x. unfold dn. ring.
    + eapply line_val; [|apply line_lin; [apply line_lin; apply herm_orthogonal|apply herm_orthogonal]].
      rewrite !Nat.eqb_refl. replace (n =? S (S n))%nat with false by (symmetry; apply Nat.eqb_neq; lia).
      rewrite !fact_S. rewrite !S_INR. cbn [pow]. ring.
Qed.
Lemma sup0_sq n : sup0 n ^ 2 = sqrt (PI * (INR n + 1 / 2)) * 2 ^ n * INR (fact n).
Proof.
  unfold sup0. rewrite <- Rsqr_pow2. apply Rsqr_sqrt. repeat apply Rmult_le_pos; [apply sqrt_pos|apply pow_le; lra|apply pos_INR].
Qed.
Lemma H_bound n x : H n x ^ 2 * g x <= sup0 n ^ 2.
Proof.
  set (s := sqrt (INR n + 1 / 2)). assert (P := pos_INR n). assert (Hs : 0 < s) by (apply sqrt_lt_R0; lra). assert (Es : s * s = INR n + 1 / 2) by (apply sqrt_sqrt; lra).
  set (c := 2 ^ n * INR (fact n)).
  assert (L : line (fun x => s * (H n x * H n x * g x) + / (4 * s) * ((dn n x - H (S n) x) ^ 2 * g x)) (2 * sup0 n ^ 2)).
  { eapply line_val; [|apply line_lin; [apply herm_orthogonal|apply slope_line]]. rewrite Nat.eqb_refl, sup0_sq, sqrt_mult by (pose proof PI_RGT_0; lra). fold s.
    replace (4 * INR n + 2) with (4 * (s * s)) by lra. field. lra. }
  assert (R := rise_bound _ _ (fun x => H n x * g x * H n x) (fun x => H n x * (dn n x - H (S n) x) * g x) L). assert (2 * (H n x * g x * H n x) <= 2 * sup0 n ^ 2); [|lra]. apply R.
  - intros t. evar_last; [apply (is_derive_mult (fun t => H n t * g t) (H n)); [apply Hg_derive|apply H_dn|intros; apply Rmult_comm]|]. unfold plus, mult; cbn -[H g dn]. req. ring.
  - intros t. assert (G0 : 0 < g t) by apply exp_pos. set (a := H n t). set (d := dn n t - H (S n) t).
    replace (s * (a * a * g t) + / (4 * s) * (d ^ 2 * g t)) with ((s * a ^ 2 + d ^ 2 / (4 * s)) * g t) by (field; lra).
    rewrite Rabs_mult, (Rabs_pos_eq (g t)) by lra. apply Rmult_le_compat_r; [lra|].
    assert (Q1 : 0 <= (s * a - d / 2) ^ 2 / s) by (apply Rmult_le_pos; [apply pow2_ge_0|left; apply Rinv_0_lt_compat, Hs]).
    assert (Q2 : 0 <= (s * a + d / 2) ^ 2 / s) by (apply Rmult_le_pos; [apply pow2_ge_0|left; apply Rinv_0_lt_compat, Hs]).
    replace ((s * a - d / 2) ^ 2 / s) with (s * a ^ 2 + d ^ 2 / (4 * s) - a * d) in Q1 by (field; lra).
    replace ((s * a + d / 2) ^ 2 / s) with (s * a ^ 2 + d ^ 2 / (4 * s) + a * d) in Q2 by (field; lra). apply Rabs_le. split; lra.
  - apply (is_lim_ext (fun x => H n x * H n x * exp (- x ^ 2))); [intros; unfold g; ring|]. apply (lim_pgauss (fun x => H n x * H n x)), pb_mult; apply pb_H.
  - apply (is_lim_ext (fun x => H n x * H n x * exp (- x ^ 2))); [intros; unfold g; ring|]. apply (lim_pgauss_m (fun x => H n x * H n x)), pb_mult; apply pb_H.
Qed.
(** *** The functions H_n(sqrt 2 t) exp(-t^2) *)
Definition hf (n : nat) (t : R) : R := H n (sqrt 2 * t) * exp (- t ^ 2).
Lemma sqrt2_sq : sqrt 2 * sqrt 2 = 2. Proof. apply sqrt_sqrt. lra. Qed.
Lemma sqrt2_pos : 0 < sqrt 2. Proof. apply sqrt_lt_R0. lra. Qed.
Lemma sup0_pos n : 0 <= sup0 n. Proof. apply sqrt_pos. Qed.
Lemma hf_bound n t : Rabs (hf n t) <= sup0 n.
Proof.
  apply Rsqr_incr_0_var; [|apply sup0_pos]. rewrite <- Rsqr_abs, !Rsqr_pow2.
  eapply Rle_trans; [|apply (H_bound n (sqrt 2 * t))]. right. unfold hf, g. rewrite Rpow_mult_distr. f_equal.
  rewrite <- Rsqr_pow2. unfold Rsqr. rewrite <- exp_plus. f_equal. replace ((sqrt 2 * t) ^ 2) with ((sqrt 2 * sqrt 2) * t ^ 2) by ring. rewrite sqrt2_sq. ring.
Qed.

Definition hd (n : nat) (t : R) : R := (lower (fun k => hf k t) n - hf (S n) t) / sqrt 2.
Definition hdd (n : nat) (t : R) : R := (lower (fun k => hd k t) n - hd (S n) t) / sqrt 2.
Lemma hf_derive n t : is_derive (hf n) t (hd n t).
Proof.
  assert (S0 := sqrt2_pos). assert (S2 := sqrt2_sq). unfold hf.
  assert (D1 : is_derive (fun t => H n (sqrt 2 * t)) t (sqrt 2 * dn n (sqrt 2 * t))).
  { apply (is_derive_comp (H n) (fun t => sqrt 2 * t)); [apply H_dn|]. auto_derive; [trivial|ring]. }
  assert (D2 : is_derive (fun t => exp (- t ^ 2)) t (- 2 * t * exp (- t ^ 2))) by (auto_derive; [trivial|]; change (t * (t * 1)) with (t ^ 2); ring).
  evar_last; [apply (is_derive_mult _ _ _ _ _ D1 D2); intros; apply Rmult_comm|]. unfold plus, mult; cbn -[H dn pow hf hd]. req.
  unfold hd, hf. rewrite H_rec. assert (El : lower (fun k => H k (sqrt 2 * t) * exp (- t ^ 2)) n = dn n (sqrt 2 * t) * exp (- t ^ 2)) by (destruct n; unfold lower, dn; ring). rewrite El.
  set (e := exp (- t ^ 2)). set (a := H n (sqrt 2 * t)). set (d := dn n (sqrt 2 * t)). clearbody e a d.
  apply (Rmult_eq_reg_r (sqrt 2)); [|lra]. replace ((d * e - (2 * (sqrt 2 * t) * a - d) * e) / sqrt 2 * sqrt 2) with (d * e - (2 * (sqrt 2 * t) * a - d) * e) by (field; lra).
  transitivity ((sqrt 2 * sqrt 2) * (d * e) - 2 * sqrt 2 * t * a * e); [ring|rewrite S2; ring].
Qed.
Lemma low_derive (f f' : nat -> R -> R) n t : (forall k, is_derive (f k) t (f' k t)) -> is_derive (fun t => lower (fun k => f k t) n) t (lower (fun k => f' k t) n).
Proof. intros D. destruct n as [|n]; unfold lower; [auto_derive; trivial|]. apply (is_derive_scal (f n) t). apply D. Qed.
Lemma hd_derive n t : is_derive (hd n) t (hdd n t).
Proof.
  unfold hd, hdd. apply (is_derive_ext (fun t => / sqrt 2 * (lower (fun k => hf k t) n - hf (S n) t))); [intros; req; unfold Rdiv; ring|].
  evar_last; [apply (is_derive_scal (fun t => lower (fun k => hf k t) n - hf (S n) t) t (/ sqrt 2)); apply (is_derive_minus (V := R_NormedModule)); [apply low_derive; intros; apply hf_derive|apply hf_derive]|].
  unfold minus, plus, opp; cbn. req. unfold Rdiv, Rminus. rewrite Rmult_comm. reflexivity.
Qed.
Lemma lower_bound (f b : nat -> R) n : (forall k, Rabs (f k) <= b k) -> Rabs (lower f n) <= lower b n.
Proof. intros B. destruct n as [|n]; unfold lower; [rewrite Rabs_R0; lra|]. assert (P := pos_INR n). rewrite Rabs_mult, (Rabs_pos_eq (2 * _)) by lra. apply Rmult_le_compat_l; [lra|apply B]. Qed.
Lemma diff_bound a b x y : Rabs x <= a -> Rabs y <= b -> Rabs ((x - y) / sqrt 2) <= (a + b) / sqrt 2.
Proof.
  intros A B. assert (S0 := sqrt2_pos). assert (0 < / sqrt 2) by (apply Rinv_0_lt_compat; lra). unfold Rdiv. rewrite Rabs_mult, (Rabs_pos_eq (/ _)) by lra. apply Rmult_le_compat_r; [lra|].
  unfold Rminus. eapply Rle_trans; [apply Rabs_triang|]. rewrite Rabs_Ropp. lra.
Qed.
Lemma hd_bound n t : Rabs (hd n t) <= sup1 n.
Proof. apply diff_bound; [apply lower_bound; intros; apply hf_bound|apply hf_bound]. Qed.
Lemma hdd_bound n t : Rabs (hdd n t) <= sup2 n.
Proof. apply diff_bound; [apply lower_bound; intros; apply hd_bound|apply hd_bound]. Qed.
(** *** Trapezium rule *)
Lemma trap_one (F F1 F2 J : R -> R) M s n : (forall x, is_derive F x (F1 x)) -> (forall x, is_derive F1 x (F2 x)) -> (forall x, is_derive J x (F x)) -> (forall x, Rabs (F2 x) <= M) -> 0 <= n ->
  Rabs (n * (F s + F (s + n)) / 2 - (J (s + n) - J s)) <= n ^ 3 / 12 * M.
Proof.
  intros D D' DJ B Hn.
  assert (Sh : forall (f f' : R -> R) x, (forall x, is_derive f x (f' x)) -> is_derive (fun x => f (s + x)) x (f' (s + x))).
  { intros f f' x Df. evar_last; [apply (is_derive_comp f (fun x => s + x) x (f' (s + x)) 1); [apply Df|auto_derive; [trivial|ring]]|]. unfold scal; cbn; unfold mult; cbn. req. ring. }
  set (E := fun x => x * (F s + F (s + x)) / 2 - (J (s + x) - J s)). set (E1 := fun x => (F s - F (s + x)) / 2 + x / 2 * F1 (s + x)).
  assert (D0 : forall x, is_derive E x (E1 x)).
  { intros x. unfold E, E1. assert (A := Sh F F1 x D). assert (C := Sh J F x DJ). evar_last.
    - apply (is_derive_minus (fun x => x * (F s + F (s + x)) / 2) (fun x => J (s + x) - J s)).
      + apply (is_derive_ext (fun x => (x / 2) * (F s + F (s + x)))); [intros; req; field|]. apply (is_derive_mult (fun x => x / 2) (fun x => F s + F (s + x)) x (/ 2) (F1 (s + x))); [auto_derive; [trivial|field]| |intros; apply Rmult_comm].
        evar_last; [apply (is_derive_plus (fun _ => F s) (fun x => F (s + x)) x 0); [auto_derive; [trivial|reflexivity]|exact A]|]. unfold plus; cbn. req. ring.
      + apply (is_derive_minus (fun x => J (s + x)) (fun _ => J s) x (F (s + x)) 0); [exact C|auto_derive; [trivial|reflexivity]].
    - unfold minus, plus, opp, mult; cbn. req. field. }
  assert (D1 : forall x, is_derive E1 x (x / 2 * F2 (s + x))).
  { intros x. unfold E1. assert (A := Sh F F1 x D). assert (C := Sh F1 F2 x D'). evar_last.
    - apply (is_derive_plus (fun x => (F s - F (s + x)) / 2) (fun x => x / 2 * F1 (s + x))).
      + apply (is_derive_ext (fun x => F s / 2 - / 2 * F (s + x))); [intros; req; field|]. apply (is_derive_minus (fun _ => F s / 2) (fun x => / 2 * F (s + x)) x 0); [auto_derive; [trivial|reflexivity]|]. apply (is_derive_scal (fun x => F (s + x)) x (/ 2)). exact A.
      + apply (is_derive_mult (fun x => x / 2) (fun x => F1 (s + x)) x (/ 2)); [auto_derive; [trivial|field]|exact C|intros; apply Rmult_comm].
    - unfold minus, plus, opp, mult; cbn. req. field. }
  assert (B1 : forall e x, (e = 1 \/ e = -1) -> 0 <= x -> e * E1 x <= x ^ 2 / 4 * M).
  { intros e x He Hx. assert (P := grows (fun x => x ^ 2 / 4 * M - e * E1 x) (fun x => x / 2 * M - e * (x / 2 * F2 (s + x))) 0 x Hx). cbv beta in P.
    replace (E1 0) with 0 in P by (unfold E1; rewrite Rplus_0_r; field). assert (0 ^ 2 / 4 * M - e * 0 <= x ^ 2 / 4 * M - e * E1 x); [|lra]. apply P.
    - intros y. evar_last; [apply (is_derive_minus (fun x => x ^ 2 / 4 * M) (fun x => e * E1 x) y (y / 2 * M)); [auto_derive; [trivial|field]|apply (is_derive_scal E1 y e); apply D1]|]. unfold minus, plus, opp, mult; cbn -[pow]. req. ring.
    - intros y [Hy _]. assert (Q := B (s + y)). apply Rabs_le_between in Q. assert (e * F2 (s + y) <= M) by (destruct He as [-> | ->]; lra). assert (y / 2 * (e * F2 (s + y)) <= y / 2 * M) by (apply Rmult_le_compat_l; lra). lra. }
  assert (B0 : forall e, (e = 1 \/ e = -1) -> e * E n <= n ^ 3 / 12 * M).
  { intros e He. assert (P := grows (fun x => x ^ 3 / 12 * M - e * E x) (fun x => x ^ 2 / 4 * M - e * E1 x) 0 n Hn). cbv beta in P.
    replace (E 0) with 0 in P by (unfold E; rewrite Rplus_0_r; field). assert (0 ^ 3 / 12 * M - e * 0 <= n ^ 3 / 12 * M - e * E n); [|lra]. apply P.
    - intros y. evar_last; [apply (is_derive_minus (fun x => x ^ 3 / 12 * M) (fun x => e * E x) y (y ^ 2 / 4 * M)); [auto_derive; [trivial|field]|apply (is_derive_scal E y e); apply D0]|]. unfold minus, plus, opp, mult; cbn -[pow]. req. ring.
    - intros y [Hy _]. assert (Q := B1 e y He Hy). lra. }
  assert (X := B0 1 (or_introl eq_refl)). assert (Y := B0 (-1) (or_intror eq_refl)). unfold E in X, Y. apply Rabs_le. lra.
Qed.
Lemma trap_all (F F1 F2 J : R -> R) M A n N : (forall x, is_derive F x (F1 x)) -> (forall x, is_derive F1 x (F2 x)) -> (forall x, is_derive J x (F x)) -> (forall x, Rabs (F2 x) <= M) -> 0 <= n ->
  Rabs (n * rsum N (fun j => F (A + INR j * n)) + n * (F (A + INR N * n) - F A) / 2 - (J (A + INR N * n) - J A)) <= INR N * (n ^ 3 / 12 * M).
Proof.
  intros D D' DJ B Hn. induction N as [|N IH].
  - cbn [rsum INR]. rewrite Rmult_0_l, Rplus_0_r. match goal with |- Rabs ?z <= _ => replace z with 0 by field end. rewrite Rabs_R0. lra.
  - rewrite S_INR. cbn [rsum]. set (E := A + INR N * n) in *. replace (A + (INR N + 1) * n) with (E + n) by (unfold E; ring). assert (C := trap_one F F1 F2 J M E n D D' DJ B Hn). set (s := rsum N _) in *.
    match type of IH with Rabs ?u <= _ => match type of C with Rabs ?v <= _ => match goal with |- Rabs ?z <= _ => replace z with (u + v) by field end end end.
    eapply Rle_trans; [apply Rabs_triang|]. lra.
Qed.
