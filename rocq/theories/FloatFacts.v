(** Floating-point formats and the effect of rounding (C95-C98). *)
From Coq Require Import Reals Lra Psatz ZArith Arith List Bool Lia.
From Flocq Require Import Core Relative.
From Verif Require Import FloatModel FloatSpec.
Open Scope R_scope.

(** ** The formats *)
Section FLT.
Variables (emin prec : Z).
Hypothesis (Hp : (0 < prec)%Z) (He : (emin <= -100)%Z).
Local Instance prec_gt : Prec_gt_0 prec := Hp.
Lemma flt_exact k e : (Z.abs k <= 2 ^ prec)%Z -> (e <= 100)%nat -> generic_format radix2 (FLT_exp emin prec) (IZR k / 2 ^ e).
Proof.
  intros Hk He'.
  assert (E2 : forall n, 2 ^ n = bpow radix2 (Z.of_nat n)).
  { induction n as [|n IH]; [reflexivity|]. rewrite Nat2Z.inj_succ, <- Z.add_1_r, bpow_plus. cbn [pow]. rewrite IH. change (bpow radix2 1) with 2. ring. }
  assert (E : IZR k / 2 ^ e = F2R (Float radix2 k (- Z.of_nat e))).
  { unfold F2R. cbn [Fnum Fexp]. rewrite E2, bpow_opp. reflexivity. }
  destruct (Z.eq_dec (Z.abs k) (2 ^ prec)) as [K|K].
  - (* a power of two *)
    assert (G : generic_format radix2 (FLT_exp emin prec) (bpow radix2 (prec - Z.of_nat e))).
    { apply generic_format_bpow. unfold FLT_exp. lia. }
    assert (A : Rabs (IZR k / 2 ^ e) = bpow radix2 (prec - Z.of_nat e)).
    { unfold Rdiv. rewrite Rabs_mult, <- abs_IZR, K, Rabs_inv, (Rabs_pos_eq (2 ^ e)) by (apply pow_le; lra).
      unfold Zminus. rewrite bpow_plus, bpow_opp, <- E2. f_equal. change (2 ^ prec)%Z with (Zpower radix2 prec). apply IZR_Zpower. lia. }
    unfold Rabs in A. destruct (Rcase_abs (IZR k / 2 ^ e)); [|rewrite A; exact G].
    replace (IZR k / 2 ^ e) with (- - (IZR k / 2 ^ e)) by ring. rewrite A. apply generic_format_opp. exact G.
  - apply generic_format_FLT. exists (Float radix2 k (- Z.of_nat e)); [exact E|cbn [Fnum]; change (Zpower radix2 prec) with (2 ^ prec)%Z; lia|cbn [Fexp]; lia].
Qed.
Lemma flt_arithmetic : arithmetic (/ 2 * bpow radix2 (- prec + 1)) (/ 2 * bpow radix2 emin) (2 ^ prec) (round radix2 (FLT_exp emin prec) ZnearestE).
Proof.
  split.
  - intros x y H. apply round_le; [typeclasses eauto|typeclasses eauto|exact H].
  - intros x. apply round_NE_opp.
  - intros x. apply round_generic; [typeclasses eauto|]. apply generic_format_round; typeclasses eauto.
  - intros k e Hk He'. apply round_generic; [typeclasses eauto|]. apply flt_exact; assumption.
  - intros x. destruct (error_N_FLT radix2 emin prec Hp (fun x => negb (Z.even x)) x) as (eps & eta & H1 & H2 & _ & H3).
    change (Znearest (fun x => negb (Z.even x))) with ZnearestE in H3. rewrite H3.
    replace (x * (1 + eps) + eta - x) with (eps * x + eta) by ring.
    apply Rle_trans with (Rabs (eps * x) + Rabs eta); [apply Rabs_triang|]. rewrite Rabs_mult.
    apply Rplus_le_compat; [|exact H2]. apply Rmult_le_compat_r; [apply Rabs_pos|exact H1].
Qed.
End FLT.
Lemma bpow_nat n : bpow radix2 (Z.of_nat n) = 2 ^ n.
Proof. induction n as [|n IH]; [reflexivity|]. rewrite Nat2Z.inj_succ, <- Z.add_1_r, bpow_plus, IH. change (bpow radix2 1) with 2. cbn [pow]. ring. Qed.
Lemma half_bpow n z : (z = 1 - Z.of_nat n)%Z -> / 2 * bpow radix2 z = / 2 ^ n.
Proof.
  intros ->. unfold Zminus. rewrite bpow_plus, bpow_opp, bpow_nat. change (bpow radix2 1) with 2. field. apply pow_nonzero. lra.
Qed.
Lemma binary64_arithmetic : arithmetic (/ 2 ^ 53) (/ 2 ^ 1075) (2 ^ 53) binary64.
Proof.
  rewrite <- (half_bpow 53 (-53 + 1)), <- (half_bpow 1075 (-1074)) by reflexivity. exact (flt_arithmetic (-1074) 53 ltac:(lia) ltac:(lia)).
Qed.
Lemma binary32_arithmetic : arithmetic (/ 2 ^ 24) (/ 2 ^ 150) (2 ^ 24) binary32.
Proof.
  rewrite <- (half_bpow 24 (-24 + 1)), <- (half_bpow 150 (-149)) by reflexivity. exact (flt_arithmetic (-149) 24 ltac:(lia) ltac:(lia)).
Qed.
Section Facts.
Variables (u eta : R) (B : Z) (f : R -> R).
Hypothesis (H : arithmetic u eta B f) (HB : (2 ^ 20 <= B)%Z).
Lemma fl_int k : (Z.abs k <= B)%Z -> f (IZR k) = IZR k.
Proof. intros Hk. assert (E := ar_exact _ _ _ _ H k 0 Hk ltac:(lia)). cbn [pow] in E. replace (IZR k / 1) with (IZR k) in E by field. exact E. Qed.
Lemma fl_half k : (Z.abs k <= B)%Z -> f (IZR k / 2) = IZR k / 2.
Proof. intros Hk. assert (E := ar_exact _ _ _ _ H k 1 Hk ltac:(lia)). cbn [pow] in E. rewrite Rmult_1_r in E. exact E. Qed.
Lemma fl_0 : f 0 = 0. Proof. apply (fl_int 0). lia. Qed.
Lemma fl_1 : f 1 = 1. Proof. apply (fl_int 1). lia. Qed.
Lemma fl_12 : f (1 / 2) = 1 / 2. Proof. apply (fl_half 1). lia. Qed.
Lemma fl_pos x : 0 <= x -> 0 <= f x.
Proof. intros Hx. rewrite <- fl_0. apply (ar_monotone _ _ _ _ H). exact Hx. Qed.
Lemma fl_neg x : x <= 0 -> f x <= 0.
Proof. intros Hx. rewrite <- fl_0. apply (ar_monotone _ _ _ _ H). exact Hx. Qed.
Lemma fl_le1 x : x <= 1 -> f x <= 1.
Proof. intros Hx. rewrite <- fl_1. apply (ar_monotone _ _ _ _ H). exact Hx. Qed.
Lemma fl_le12 x : x <= 1 / 2 -> f x <= 1 / 2.
Proof. intros Hx. rewrite <- fl_12. apply (ar_monotone _ _ _ _ H). exact Hx. Qed.
(** Flush to zero. *)
Lemma flushed_arithmetic t : 0 < t -> t <= / 2 ^ 100 -> u <= 1 / 2 -> 0 <= u -> 0 <= eta -> arithmetic u (2 * (t + eta)) B (flushed t f).
Proof.
  intros Ht Hs Hu Hu0 He. split.
  - intros x y Hxy. assert (M := ar_monotone _ _ _ _ H x y Hxy). unfold flushed.
    destruct (Rlt_dec (Rabs (f x)) t) as [A|A], (Rlt_dec (Rabs (f y)) t) as [D|D]; try lra.
    + unfold Rabs in *. destruct (Rcase_abs (f x)), (Rcase_abs (f y)); lra.
    + unfold Rabs in *. destruct (Rcase_abs (f x)), (Rcase_abs (f y)); lra.
  - intros x. unfold flushed. rewrite (ar_odd _ _ _ _ H), Rabs_Ropp. destruct (Rlt_dec (Rabs (f x)) t); ring.
  - intros x. unfold flushed. destruct (Rlt_dec (Rabs (f x)) t) as [A|A].
    + rewrite fl_0, Rabs_R0. destruct (Rlt_dec 0 t); reflexivity.
    + rewrite (ar_stable _ _ _ _ H). destruct (Rlt_dec (Rabs (f x)) t); [contradiction|reflexivity].
  - intros k e Hk He'. unfold flushed. rewrite (ar_exact _ _ _ _ H k e Hk He'). destruct (Rlt_dec (Rabs (IZR k / 2 ^ e)) t) as [A|A]; [|reflexivity].
    destruct (Z.eq_dec k 0) as [->|K]; [unfold Rdiv; ring|]. exfalso.
    assert (P : 0 < 2 ^ e) by (apply pow_lt; lra). assert (P' : 2 ^ e <= 2 ^ 100) by (apply Rle_pow; [lra|exact He']).
    assert (Q : / 2 ^ 100 <= / 2 ^ e) by (apply Rinv_le_contravar; assumption).
    assert (K1 : 1 <= Rabs (IZR k)) by (rewrite <- abs_IZR; apply IZR_le; lia).
    unfold Rdiv in A. rewrite Rabs_mult, (Rabs_pos_eq (/ 2 ^ e)) in A by (left; apply Rinv_0_lt_compat; exact P).
    assert (/ 2 ^ e <= Rabs (IZR k) * / 2 ^ e); [|lra]. rewrite <- (Rmult_1_l (/ 2 ^ e)) at 1. apply Rmult_le_compat_r; [|exact K1]. left. apply Rinv_0_lt_compat. exact P.
  - intros x. assert (E := ar_error _ _ _ _ H x). unfold flushed. destruct (Rlt_dec (Rabs (f x)) t) as [A|A]; [|lra].
    rewrite Rminus_0_l, Rabs_Ropp. assert (T : Rabs x <= Rabs (f x - x) + Rabs (f x)).
    { replace x with (- (f x - x) + f x) at 1 by ring. apply Rle_trans with (Rabs (- (f x - x)) + Rabs (f x)); [apply Rabs_triang|]. rewrite Rabs_Ropp. lra. }
    assert (X := Rabs_pos x). assert (u * Rabs x <= 1 / 2 * Rabs x) by (apply Rmult_le_compat_r; assumption). lra.
Qed.
End Facts.
