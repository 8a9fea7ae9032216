(** Complex-number helpers on top of Coquelicot's [C = R * R] (mathematics only, no model of the code). *)
From Coq Require Import Reals Lra Lia ZArith Arith.
From Coquelicot Require Import Complex.
Open Scope R_scope.

(** [cis t = exp(i t)]. *)
Definition cis (t : R) : C := (cos t, sin t).
(** Complex exponential. *)
Definition cexp (z : C) : C := ((exp (fst z) * cos (snd z))%R, (exp (fst z) * sin (snd z))%R).
Definition cconj (z : C) : C := (fst z, - snd z).
(** Squared modulus. *)
Definition cnorm2 (z : C) : R := fst z ^ 2 + snd z ^ 2.

(** Two-argument arctangent, as C / numpy / TensorFlow define it (signed zeros ignored). *)
Definition atan2 (y x : R) : R :=
  if Rlt_dec 0 x then atan (y / x)
  else if Rlt_dec x 0 then (if Rle_dec 0 y then atan (y / x) + PI else atan (y / x) - PI)
  else if Rlt_dec 0 y then PI / 2
  else if Rlt_dec y 0 then - (PI / 2) else 0.
(** Argument of a complex number; 0 for 0. *)
Definition carg (z : C) : R := atan2 (snd z) (fst z).

Lemma C_eq (a b : C) : fst a = fst b -> snd a = snd b -> a = b.
Proof. destruct a, b; simpl; intros -> ->; reflexivity. Qed.

Ltac cring := apply C_eq; unfold Cplus, Cminus, Copp, Cmult, RtoC, cconj; simpl; ring.

Lemma cis_0 : cis 0 = 1%C.
Proof. unfold cis; rewrite cos_0, sin_0; reflexivity. Qed.
Lemma cis_plus a b : cis (a + b) = (cis a * cis b)%C.
Proof. unfold cis, Cmult; simpl. rewrite cos_plus, sin_plus. apply C_eq; simpl; ring. Qed.
Lemma cis_neg a : cis (- a) = cconj (cis a).
Proof. unfold cis, cconj; simpl. rewrite cos_neg, sin_neg; reflexivity. Qed.
Lemma cis_minus a b : cis (a - b) = (cis a * cconj (cis b))%C.
Proof. unfold Rminus; rewrite cis_plus, cis_neg; reflexivity. Qed.
Lemma cnorm2_cis a : cnorm2 (cis a) = 1.
Proof. unfold cnorm2, cis; simpl. generalize (sin2_cos2 a); unfold Rsqr; lra. Qed.
Lemma cis_mul_neg a : (cis a * cis (- a))%C = 1%C.
Proof. rewrite <- cis_plus. replace (a + - a) with 0 by ring. apply cis_0. Qed.
Lemma cis_neq_0 a : cis a <> 0%C.
Proof. intros H. generalize (cnorm2_cis a); rewrite H. unfold cnorm2; simpl; lra. Qed.

Lemma cis_2PI_Z (z : Z) : cis (2 * PI * IZR z) = 1%C.
Proof.
  assert (Hs : sin (PI * IZR z) = 0).
  { apply sin_eq_0_1. exists z. ring. }
  replace (2 * PI * IZR z) with (2 * (PI * IZR z)) by ring.
  unfold cis. rewrite cos_2a_sin, sin_2a, Hs. apply C_eq; simpl; ring.
Qed.
Lemma cis_period t (z : Z) : cis (t + 2 * PI * IZR z) = cis t.
Proof. rewrite cis_plus, cis_2PI_Z. ring. Qed.
Lemma cis_eq_1_Z t : cis t = 1%C -> exists z : Z, t = 2 * PI * IZR z.
Proof.
  unfold cis; intros H; injection H; intros _ Hc.
  replace t with (2 * (t / 2)) in Hc by field.
  rewrite cos_2a_sin in Hc.
  assert (Hs : sin (t / 2) = 0) by nra.
  destruct (sin_eq_0_0 _ Hs) as [k Hk]. exists k. lra.
Qed.

Lemma cnorm2_ge_0 (z : C) : 0 <= cnorm2 z.
Proof. unfold cnorm2. nra. Qed.
Lemma cnorm2_mult a b : cnorm2 (a * b)%C = cnorm2 a * cnorm2 b.
Proof. unfold cnorm2, Cmult; simpl; ring. Qed.
Lemma cnorm2_conj (z : C) : cnorm2 (cconj z) = cnorm2 z.
Proof. unfold cnorm2, cconj; simpl; ring. Qed.
Lemma cnorm2_RtoC r : cnorm2 (RtoC r) = r ^ 2.
Proof. unfold cnorm2, RtoC; simpl; ring. Qed.
Lemma cnorm2_opp (z : C) : cnorm2 (- z)%C = cnorm2 z.
Proof. unfold cnorm2, Copp; simpl; ring. Qed.
Lemma cnorm2_0 : cnorm2 0%C = 0.
Proof. unfold cnorm2; simpl; ring. Qed.
Lemma cnorm2_eq_0 (z : C) : cnorm2 z = 0 -> z = 0%C.
Proof. unfold cnorm2; intros H. apply C_eq; simpl; nra. Qed.
Lemma cnorm2_Cmod (z : C) : cnorm2 z = Cmod z ^ 2.
Proof.
  unfold cnorm2, Cmod. replace (sqrt (fst z ^ 2 + snd z ^ 2) ^ 2) with
    (sqrt (fst z ^ 2 + snd z ^ 2) * sqrt (fst z ^ 2 + snd z ^ 2)) by ring.
  rewrite sqrt_sqrt; [reflexivity|nra].
Qed.
Lemma Cmod_sqrt_cnorm2 (z : C) : Cmod z = sqrt (cnorm2 z).
Proof. reflexivity. Qed.
Lemma Cmod_cis a : Cmod (cis a) = 1.
Proof. rewrite Cmod_sqrt_cnorm2, cnorm2_cis. apply sqrt_1. Qed.
Lemma cconj_mult a b : cconj (a * b)%C = (cconj a * cconj b)%C.
Proof. cring. Qed.
Lemma cconj_plus a b : cconj (a + b)%C = (cconj a + cconj b)%C.
Proof. cring. Qed.
Lemma cconj_conj a : cconj (cconj a) = a.
Proof. cring. Qed.
Lemma Cmod_cconj (z : C) : Cmod (cconj z) = Cmod z.
Proof. rewrite !Cmod_sqrt_cnorm2, cnorm2_conj; reflexivity. Qed.
Lemma mult_cconj (z : C) : (z * cconj z)%C = RtoC (cnorm2 z).
Proof. unfold cnorm2; cring. Qed.
Lemma cis_conj_cis a : (cis a * cconj (cis a))%C = 1%C.
Proof. rewrite mult_cconj, cnorm2_cis; reflexivity. Qed.

(** Range and polar form of [atan2]. *)
Lemma atan2_range y x : - PI < atan2 y x <= PI.
Proof.
  assert (HP := PI_RGT_0). unfold atan2.
  destruct (Rlt_dec 0 x) as [Hx|Hx].
  - generalize (atan_bound (y / x)); lra.
  - destruct (Rlt_dec x 0) as [Hx'|Hx'].
    + destruct (Rle_dec 0 y) as [Hy|Hy].
      * assert (y / x <= 0).
        { unfold Rdiv. assert (/ x < 0) by (apply Rinv_lt_0_compat; exact Hx'). nra. }
        assert (atan (y / x) <= 0).
        { rewrite <- atan_0. destruct H as [H|H]; [left; apply atan_increasing; exact H | rewrite H; right; reflexivity]. }
        generalize (atan_bound (y / x)); lra.
      * assert (0 < y / x).
        { unfold Rdiv. assert (/ x < 0) by (apply Rinv_lt_0_compat; exact Hx'). nra. }
        assert (0 < atan (y / x)).
        { rewrite <- atan_0. apply atan_increasing; exact H. }
        generalize (atan_bound (y / x)); lra.
    + destruct (Rlt_dec 0 y); [lra|]. destruct (Rlt_dec y 0); lra.
Qed.

Lemma sqrt_factor_pos x y : 0 < x -> sqrt (x ^ 2 + y ^ 2) = x * sqrt (1 + (y / x)²).
Proof.
  intros Hx. rewrite <- (sqrt_pow2 x) at 2 by lra. rewrite <- sqrt_mult.
  - f_equal. unfold Rsqr. field. lra.
  - nra.
  - generalize (Rle_0_sqr (y / x)); lra.
Qed.

Lemma atan2_cos y x : sqrt (x ^ 2 + y ^ 2) * cos (atan2 y x) = x.
Proof.
  assert (Hpos : forall x y, 0 < x -> sqrt (x ^ 2 + y ^ 2) * cos (atan (y / x)) = x).
  { clear. intros x y Hx. rewrite cos_atan, sqrt_factor_pos by exact Hx.
    field. apply Rgt_not_eq, sqrt_lt_R0. generalize (Rle_0_sqr (y / x)); lra. }
  assert (Hneg : forall x y, x < 0 -> sqrt (x ^ 2 + y ^ 2) * cos (atan (y / x)) = - x).
  { intros a b Ha. generalize (Hpos (- a) (- b) ltac:(lra)).
    replace ((- a) ^ 2 + (- b) ^ 2) with (a ^ 2 + b ^ 2) by ring.
    replace (- b / - a) with (b / a) by (field; lra). auto. }
  unfold atan2.
  destruct (Rlt_dec 0 x) as [Hx|Hx]; [apply Hpos, Hx|].
  destruct (Rlt_dec x 0) as [Hx'|Hx'].
  - destruct (Rle_dec 0 y) as [Hy|Hy].
    + rewrite neg_cos. generalize (Hneg x y Hx'); lra.
    + unfold Rminus. rewrite <- (cos_period _ 1).
      replace (atan (y / x) + - PI + 2 * INR 1 * PI) with (atan (y / x) + PI) by (simpl; ring).
      rewrite neg_cos. generalize (Hneg x y Hx'); lra.
  - assert (x = 0) by lra; subst x.
    destruct (Rlt_dec 0 y) as [Hy|Hy]; [rewrite cos_PI2; ring|].
    destruct (Rlt_dec y 0) as [Hy'|Hy']; [rewrite cos_neg, cos_PI2; ring|].
    assert (y = 0) by lra; subst y. replace (0 ^ 2 + 0 ^ 2) with 0 by ring. rewrite sqrt_0; ring.
Qed.

Lemma atan2_sin y x : sqrt (x ^ 2 + y ^ 2) * sin (atan2 y x) = y.
Proof.
  assert (Hpos : forall x y, 0 < x -> sqrt (x ^ 2 + y ^ 2) * sin (atan (y / x)) = y).
  { clear. intros x y Hx. rewrite sin_atan, sqrt_factor_pos by exact Hx.
    field. split; [lra|]. apply Rgt_not_eq, sqrt_lt_R0. generalize (Rle_0_sqr (y / x)); lra. }
  assert (Hneg : forall x y, x < 0 -> sqrt (x ^ 2 + y ^ 2) * sin (atan (y / x)) = - y).
  { intros a b Ha. generalize (Hpos (- a) (- b) ltac:(lra)).
    replace ((- a) ^ 2 + (- b) ^ 2) with (a ^ 2 + b ^ 2) by ring.
    replace (- b / - a) with (b / a) by (field; lra). auto. }
  unfold atan2.
  destruct (Rlt_dec 0 x) as [Hx|Hx]; [apply Hpos, Hx|].
  destruct (Rlt_dec x 0) as [Hx'|Hx'].
  - destruct (Rle_dec 0 y) as [Hy|Hy].
    + rewrite neg_sin. generalize (Hneg x y Hx'); lra.
    + unfold Rminus. rewrite <- (sin_period _ 1).
      replace (atan (y / x) + - PI + 2 * INR 1 * PI) with (atan (y / x) + PI) by (simpl; ring).
      rewrite neg_sin. generalize (Hneg x y Hx'); lra.
  - assert (x = 0) by lra; subst x.
    assert (H0 : 0 ^ 2 + y ^ 2 = y ^ 2) by ring. rewrite H0.
    destruct (Rlt_dec 0 y) as [Hy|Hy].
    { rewrite sin_PI2, sqrt_pow2; lra. }
    destruct (Rlt_dec y 0) as [Hy'|Hy'].
    { rewrite sin_neg, sin_PI2. replace (y ^ 2) with ((- y) ^ 2) by ring. rewrite sqrt_pow2; lra. }
    assert (y = 0) by lra; subst y. rewrite sin_0; ring.
Qed.

Lemma C_dec0 (z : C) : {z = 0%C} + {z <> 0%C}.
Proof.
  destruct z as [a b]. destruct (Req_EM_T a 0) as [->|Ha].
  - destruct (Req_EM_T b 0) as [->|Hb]; [left; reflexivity|right; intros H; injection H; auto].
  - right; intros H; injection H; auto.
Qed.

Lemma polar (z : C) : z = (RtoC (Cmod z) * cis (carg z))%C.
Proof.
  unfold carg. apply C_eq; unfold Cmult, RtoC, cis, Cmod; cbn [fst snd].
  - rewrite <- (atan2_cos (snd z) (fst z)) at 1. ring.
  - rewrite <- (atan2_sin (snd z) (fst z)) at 1. ring.
Qed.

Lemma cis_carg (z : C) : z <> 0%C -> cis (carg z) = (z / RtoC (Cmod z))%C.
Proof.
  intros Hz. assert (RtoC (Cmod z) <> 0%C).
  { intros H. apply Hz, Cmod_eq_0. injection H; auto. }
  rewrite (polar z) at 2. field. exact H.
Qed.

Lemma polar_unique (r t : R) (z : C) : 0 < r -> z = (RtoC r * cis t)%C -> Cmod z = r /\ cis (carg z) = cis t.
Proof.
  intros Hr ->. assert (Hm : Cmod (r * cis t)%C = r).
  { rewrite Cmod_mult, Cmod_cis, Cmod_R, Rabs_pos_eq; lra. }
  split; [exact Hm|]. rewrite cis_carg.
  - rewrite Hm. field. intros H; injection H; lra.
  - intros H. rewrite H, Cmod_0 in Hm. lra.
Qed.

Lemma carg_range (z : C) : - PI < carg z <= PI.
Proof. apply atan2_range. Qed.

Lemma cis_carg_scale (r : R) (z : C) : 0 < r -> cis (carg (RtoC r * z)%C) = cis (carg z).
Proof.
  intros Hr. destruct (C_dec0 z) as [->|Hz].
  - replace (RtoC r * RtoC 0)%C with (RtoC 0) by ring. reflexivity.
  - assert (Hm : 0 < Cmod z) by (apply Cmod_gt_0; exact Hz).
    apply (polar_unique (r * Cmod z)); [nra|].
    rewrite (polar z) at 1. rewrite RtoC_mult. ring.
Qed.

(** [cis] equality and periodicity on the principal range. *)
Lemma cis_inj_range a b : - PI < a <= PI -> - PI < b <= PI -> cis a = cis b -> a = b.
Proof.
  intros Ha Hb H.
  assert (Hd : cis (a - b) = 1%C).
  { rewrite cis_minus, H. apply cis_conj_cis. }
  destruct (cis_eq_1_Z _ Hd) as [z Hz]. assert (HP := PI_RGT_0).
  assert (IZR z = 0).
  { assert (-1 < IZR z < 1) by (split; nra). destruct H0 as [H1 H2].
    apply lt_IZR in H1. apply lt_IZR in H2. replace z with 0%Z by lia. reflexivity. }
  rewrite H0 in Hz. lra.
Qed.

Lemma carg_scale (r : R) (z : C) : 0 < r -> carg (RtoC r * z)%C = carg z.
Proof.
  intros Hr. apply cis_inj_range; try apply carg_range. apply cis_carg_scale; exact Hr.
Qed.

Lemma carg_pos_real r : 0 <= r -> carg (RtoC r) = 0.
Proof.
  intros Hr. unfold carg, atan2, RtoC; simpl.
  destruct (Rlt_dec 0 r).
  - unfold Rdiv. rewrite Rmult_0_l. apply atan_0.
  - destruct (Rlt_dec r 0); [lra|]. destruct (Rlt_dec 0 0); lra.
Qed.

Lemma cos_cis a : RtoC (cos a) = ((cis a + cis (- a)) / 2)%C.
Proof.
  unfold cis. rewrite cos_neg, sin_neg. apply C_eq; unfold Cdiv, Cinv, Cmult, Cplus, RtoC; simpl; field.
Qed.
