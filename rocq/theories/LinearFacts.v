(** First harmonic of a random grating at finite steepness (C107). *)
From Coq Require Import Reals Lra Psatz ZArith Arith List Bool Lia.
From Coquelicot Require Import Complex Coquelicot.
From Verif Require Import Cx Sums DFT PyBase ProfileModel SlmModel LibModel DmdModel SimSpec GridFacts DmdSpec DmdFacts DmdFacts2 DmdFacts3 RandomFacts.
Open Scope R_scope.

Lemma rint_scal (f : R -> R) a b k (l : R) : is_RInt f a b l -> is_RInt (fun t => k * f t) a b (k * l).
Proof. exact (is_RInt_scal (V := R_NormedModule) f a b k l). Qed.
Lemma rint_plus (f g : R -> R) a b (l m : R) : is_RInt f a b l -> is_RInt g a b m -> is_RInt (fun t => f t + g t) a b (l + m).
Proof. exact (is_RInt_plus (V := R_NormedModule) f g a b l m). Qed.
Lemma rint_minus (f g : R -> R) a b (l m : R) : is_RInt f a b l -> is_RInt g a b m -> is_RInt (fun t => f t - g t) a b (l - m).
Proof. exact (is_RInt_minus (V := R_NormedModule) f g a b l m). Qed.
Lemma rint_unique (f : R -> R) a b (l m : R) : is_RInt f a b l -> is_RInt f a b m -> l = m.
Proof. intros H K. apply (is_RInt_unique (V := R_CompleteNormedModule)) in H. apply (is_RInt_unique (V := R_CompleteNormedModule)) in K. congruence. Qed.
Lemma rint_exists (f : R -> R) a b : (forall x, continuous f x) -> exists l : R, is_RInt f a b l.
Proof. intros H. destruct (ex_RInt_continuous (V := R_CompleteNormedModule) f a b (fun x _ => H x)) as [l Hl]. exists l. exact Hl. Qed.
Lemma rint_shift (f : R -> R) a b v (l : R) : is_RInt f (a + v) (b + v) l -> is_RInt (fun t => f (t + v)) a b l.
Proof.
  intros H. assert (H' := is_RInt_comp_lin (V := R_NormedModule) f 1 v a b l). rewrite !Rmult_1_l in H'. specialize (H' H).
  apply (is_RInt_ext (V := R_NormedModule) _ (fun t => f (t + v))) in H'; [exact H'|]. intros x _. replace (1 * x + v) with (x + v) by ring. apply (scal_one (V := R_ModuleSpace)).
Qed.
Lemma rint_mirror (f : R -> R) a b (l : R) : is_RInt f (- a) (- b) l -> is_RInt (fun t => f (- t)) a b (- l).
Proof.
  intros H. assert (H' := is_RInt_comp_opp (V := R_NormedModule) f a b l H). apply (is_RInt_scal (V := R_NormedModule) _ _ _ (- (1))) in H'.
  apply (is_RInt_ext (V := R_NormedModule) _ (fun t => f (- t))) in H'; [|intros x _; unfold scal, opp; cbn; unfold mult; cbn; ring].
  replace (- l) with (scal (- (1)) l); [exact H'|]. unfold scal. cbn. unfold mult. cbn. ring.
Qed.
Lemma rint_swap (f : R -> R) a b (l : R) : is_RInt f a b l -> is_RInt f b a (- l).
Proof. exact (is_RInt_swap (V := R_NormedModule) f b a l). Qed.

Lemma tanh_derive x : is_derive tanh x (4 * exp (2 * x) / (exp (2 * x) + 1) ^ 2).
Proof.
  apply is_derive_ext with (fun x => 1 - 2 / (exp (2 * x) + 1)); [intros t; symmetry; apply tanh_alt|].
  assert (P := exp_pos (2 * x)). auto_derive; [lra|]. field. lra.
Qed.
Lemma tanh_continuous (f : R -> R) x : continuous f x -> continuous (fun t => tanh (f t)) x.
Proof.
  intros H. apply continuous_comp; [exact H|]. apply (ex_derive_continuous (V := R_NormedModule)). eexists. apply tanh_derive.
Qed.
Lemma lin_continuous r v x : continuous (fun t => r * (t + v)) x.
Proof. apply (ex_derive_continuous (V := R_NormedModule)). auto_derive. exact I. Qed.
Lemma tanh_lin_continuous r v x : continuous (fun t => tanh (r * (t + v))) x.
Proof. apply tanh_continuous. apply lin_continuous. Qed.
Lemma cos_shift_continuous v x : continuous (fun t => cos (t + v)) x.
Proof. apply (ex_derive_continuous (V := R_NormedModule)). auto_derive. exact I. Qed.
Lemma sin_shift_continuous v x : continuous (fun t => sin (t + v)) x.
Proof. apply (ex_derive_continuous (V := R_NormedModule)). auto_derive. exact I. Qed.
Lemma prod_continuous (f g : R -> R) x : continuous f x -> continuous g x -> continuous (fun t => f t * g t) x.
Proof. exact (continuous_mult (K := R_AbsRing) f g x). Qed.

Lemma tanh_tail x : 0 < 1 - tanh x <= 2 * exp (- (2 * x)).
Proof.
  assert (P := exp_pos (2 * x)). rewrite tanh_alt. replace (1 - (1 - 2 / (exp (2 * x) + 1))) with (2 / (exp (2 * x) + 1)) by ring. split; [apply Rdiv_lt_0_compat; lra|].
  rewrite exp_Ropp. unfold Rdiv. apply Rmult_le_compat_l; [lra|]. apply Rinv_le_contravar; lra.
Qed.

Section Steepness.
Variable r : R.
Hypothesis Hr : 0 < r.
(** Sine transform of the transition over one fringe. *)
Lemma T_exists : exists T : R, is_RInt (fun s => tanh (r * s) * sin s) (- PI) PI T.
Proof.
  apply rint_exists. intros x. apply prod_continuous.
  - apply (continuous_ext (fun s => tanh (r * (s + 0)))); [intros y; rewrite Rplus_0_r; reflexivity|apply tanh_lin_continuous].
  - apply (continuous_ext (fun s => sin (s + 0))); [intros y; rewrite Rplus_0_r; reflexivity|apply sin_shift_continuous].
Qed.
Lemma rt_continuous x : continuous (fun s => tanh (r * s)) x.
Proof. apply (continuous_ext (fun s => tanh (r * (s + 0)))); [intros y; rewrite Rplus_0_r; reflexivity|apply tanh_lin_continuous]. Qed.
Lemma odd_cos : is_RInt (fun s => tanh (r * s) * cos s) (- PI) PI 0.
Proof.
  destruct (rint_exists (fun s => tanh (r * s) * cos s) (- PI) PI) as [l Hl].
  { intros x. apply prod_continuous; [apply rt_continuous|]. apply (continuous_ext (fun s => cos (s + 0))); [intros y; rewrite Rplus_0_r; reflexivity|apply cos_shift_continuous]. }
  assert (M : is_RInt (fun s => tanh (r * s) * cos s) (- PI) PI (- l)).
  { assert (S := rint_swap _ _ _ _ Hl). replace PI with (- - PI) in S at 1 by ring. apply rint_mirror in S. rewrite Ropp_involutive in S.
    apply (rint_ext (fun t => -1 * (tanh (r * - t) * cos (- t)))); [assert (P := PI_RGT_0); lra| |].
    - intros x _. rewrite cos_neg. replace (r * - x) with (- (r * x)) by ring. rewrite tanh_odd. ring.
    - replace (- l) with (-1 * l) by ring. apply rint_scal. exact S. }
  assert (E := rint_unique _ _ _ _ _ Hl M). replace 0 with l by lra. exact Hl.
Qed.
Lemma T_bounds (T : R) : is_RInt (fun s => tanh (r * s) * sin s) (- PI) PI T -> 4 - / r ^ 2 <= T <= 4.
Proof.
  intros HT. assert (P := PI_RGT_0).
  destruct (rint_exists (fun s => tanh (r * s) * sin s) 0 PI) as [l Hl].
  { intros x. apply prod_continuous; [apply rt_continuous|]. apply (continuous_ext (fun s => sin (s + 0))); [intros y; rewrite Rplus_0_r; reflexivity|apply sin_shift_continuous]. }
  assert (M : is_RInt (fun s => tanh (r * s) * sin s) (- PI) 0 l).
  { assert (S := rint_swap _ _ _ _ Hl). replace PI with (- - PI) in S at 1 by ring. replace 0 with (- 0) in S by ring. apply rint_mirror in S. rewrite Ropp_involutive in S.
    replace (- 0) with 0 in S by ring.
    apply (rint_ext (fun t => tanh (r * - t) * sin (- t))); [lra| |exact S].
    intros x _. rewrite sin_neg. replace (r * - x) with (- (r * x)) by ring. rewrite tanh_odd. ring. }
  assert (ET : T = l + l) by (apply (rint_unique _ _ _ _ _ HT), (rint_chasles _ _ 0); assumption).
  assert (Is : is_RInt sin 0 PI 2).
  { replace 2 with (- cos PI - - cos 0) by (rewrite cos_PI, cos_0; ring). apply (is_RInt_derive (V := R_CompleteNormedModule) (fun x => - cos x) sin).
    - intros x _. auto_derive; [exact I|ring].
    - intros x _. apply (continuous_ext (fun s => sin (s + 0))); [intros y; rewrite Rplus_0_r; reflexivity|apply sin_shift_continuous]. }
  assert (Q : 0 < r * r) by nra.
  set (G := fun s => - (s / (2 * r) + / (4 * r ^ 2)) * exp (- (2 * (r * s)))).
  assert (Ig : is_RInt (fun s => s * exp (- (2 * (r * s)))) 0 PI (G PI - G 0)).
  { apply (is_RInt_derive (V := R_CompleteNormedModule) G).
    - intros x _. unfold G. auto_derive; [exact I|]. field. lra.
    - intros x _. apply (ex_derive_continuous (V := R_NormedModule)). auto_derive. exact I. }
  assert (BG : G PI - G 0 <= / (4 * r ^ 2)).
  { unfold G. replace (2 * (r * 0)) with 0 by ring. rewrite Ropp_0, exp_0. assert (Z := exp_pos (- (2 * (r * PI)))).
    assert (0 < PI / (2 * r)) by (apply Rdiv_lt_0_compat; lra). assert (0 < / (4 * r ^ 2)) by (apply Rinv_0_lt_compat; nra). nra. }
  assert (D := rint_minus _ _ _ _ _ _ Is Hl).
  assert (D2 := rint_scal _ _ _ 2 _ Ig).
  assert (L1 : 2 - l <= 2 * (G PI - G 0)).
  { apply (is_RInt_le _ _ 0 PI _ _ (Rlt_le _ _ P) D D2). intros x Hx. assert (B := tanh_tail (r * x)). assert (S0 : 0 < sin x) by (apply sin_gt_0; lra). assert (S1 : sin x <= x) by (apply Rlt_le, sin_lt_x; lra).
    assert (Z := exp_pos (- (2 * (r * x)))). nra. }
  assert (L2 : 0 <= 2 - l).
  { assert (Z := rint_const 0 PI 0). rewrite Rmult_0_r in Z. apply (is_RInt_le _ _ 0 PI _ _ (Rlt_le _ _ P) Z D).
    intros x Hx. assert (B := tanh_tail (r * x)). assert (S0 : 0 < sin x) by (apply sin_gt_0; lra). nra. }
  replace (/ r ^ 2) with (4 * / (4 * r ^ 2)) by (field; lra). lra.
Qed.

(** The transition shifted by w, seen through the cosine. *)
Lemma shifted_transition (T w : R) : is_RInt (fun s => tanh (r * s) * sin s) (- PI) PI T -> 0 <= w <= PI / 2 ->
  exists e, is_RInt (fun t => tanh (r * (t + w)) * cos t) (- PI) PI (sin w * (T - 2) + e) /\ Rabs e <= exp (- (PI * r)) / r.
Proof.
  intros HT Hw. assert (P := PI_RGT_0).
  set (f := fun s => tanh (r * s) * cos (s + - w)).
  assert (Cf : forall x, continuous f x) by (intros x; apply prod_continuous; [apply rt_continuous|apply cos_shift_continuous]).
  assert (I0 : is_RInt f (- PI) PI (sin w * T)).
  { replace (sin w * T) with (cos w * 0 + sin w * T) by ring.
    apply (rint_ext (fun s => cos w * (tanh (r * s) * cos s) + sin w * (tanh (r * s) * sin s))); [lra| |].
    - intros x _. unfold f. rewrite cos_plus, cos_neg, sin_neg. ring.
    - apply rint_plus; apply rint_scal; [apply odd_cos|exact HT]. }
  destruct (rint_exists f (- PI) (- PI + w) Cf) as [a Ha]. destruct (rint_exists f PI (PI + w) Cf) as [b Hb].
  assert (I1 : is_RInt f (- PI + w) (PI + w) (- a + (sin w * T + b))).
  { apply (rint_chasles _ _ (- PI)); [apply rint_swap; exact Ha|]. apply (rint_chasles _ _ PI); assumption. }
  set (g := fun s => tanh (r * (s + 2 * PI)) * cos (s + - w)).
  assert (Hg : is_RInt g (- PI) (- PI + w) b).
  { assert (Hb' : is_RInt f (- PI + 2 * PI) (- PI + w + 2 * PI) b) by (replace (- PI + 2 * PI) with PI by ring; replace (- PI + w + 2 * PI) with (PI + w) by ring; exact Hb).
    apply rint_shift in Hb'. apply (rint_ext (fun t => f (t + 2 * PI))); [lra| |exact Hb']. intros x _. unfold f, g. f_equal.
    replace (x + 2 * PI + - w) with (x + - w + 2 * PI) by ring. rewrite cos_plus, cos_2PI, sin_2PI. ring. }
  assert (Hc : is_RInt (fun s => cos (s + - w)) (- PI) (- PI + w) (- sin w)).
  { replace (- sin w) with (sin (- PI + w + - w) - sin (- PI + - w)).
    - apply (is_RInt_derive (V := R_CompleteNormedModule) (fun s => sin (s + - w)) (fun s => cos (s + - w))).
      + intros x _. auto_derive; [exact I|ring].
      + intros x _. apply cos_shift_continuous.
    - replace (- PI + w + - w) with (- PI) by ring. replace (- PI + - w) with (- (w + PI)) by ring. rewrite !sin_neg, neg_sin, sin_PI. ring. }
  set (e := b - a + 2 * sin w).
  exists e. split.
  - replace (sin w * (T - 2) + e) with (- a + (sin w * T + b)) by (unfold e; ring).
    apply rint_shift in I1. apply (rint_ext (fun t => f (t + w))); [lra| |exact I1]. intros x _. unfold f. f_equal. f_equal. ring.
  - assert (He : is_RInt (fun s => (g s - f s) - 2 * cos (s + - w)) (- PI) (- PI + w) e).
    { replace e with ((b - a) - 2 * - sin w) by (unfold e; ring). apply rint_minus; [apply rint_minus; assumption|]. apply rint_scal. exact Hc. }
    set (U := fun s => exp (2 * (r * s)) / r - exp (- (2 * (r * (s + 2 * PI)))) / r).
    assert (Hu : is_RInt (fun s => 2 * exp (2 * (r * s)) + 2 * exp (- (2 * (r * (s + 2 * PI))))) (- PI) (- PI + w) (U (- PI + w) - U (- PI))).
    { apply (is_RInt_derive (V := R_CompleteNormedModule) U).
      - intros x _. unfold U. auto_derive; [lra|]. field. lra.
      - intros x _. apply (ex_derive_continuous (V := R_NormedModule)). auto_derive. exact I. }
    assert (BU : U (- PI + w) - U (- PI) <= exp (- (PI * r)) / r).
    { unfold U. replace (- (2 * (r * (- PI + 2 * PI)))) with (2 * (r * - PI)) by ring.
      replace (exp (2 * (r * (- PI + w))) / r - exp (- (2 * (r * (- PI + w + 2 * PI)))) / r - (exp (2 * (r * - PI)) / r - exp (2 * (r * - PI)) / r)) with ((exp (2 * (r * (- PI + w))) - exp (- (2 * (r * (- PI + w + 2 * PI))))) / r) by (field; lra).
      unfold Rdiv. apply Rmult_le_compat_r; [left; apply Rinv_0_lt_compat; lra|]. assert (Z := exp_pos (- (2 * (r * (- PI + w + 2 * PI))))).
      assert (exp (2 * (r * (- PI + w))) <= exp (- (PI * r))); [|lra]. assert (L : 2 * (r * (- PI + w)) <= - (PI * r)) by nra. destruct L as [L|L]; [left; apply exp_increasing; exact L|rewrite L; right; reflexivity]. }
    assert (B : forall x, - (2 * exp (2 * (r * x)) + 2 * exp (- (2 * (r * (x + 2 * PI))))) <= g x - f x - 2 * cos (x + - w) <= 2 * exp (2 * (r * x)) + 2 * exp (- (2 * (r * (x + 2 * PI))))).
    { intros x. unfold g, f. assert (T1 := tanh_tail (r * (x + 2 * PI))). assert (T2 := tanh_tail (- (r * x))). rewrite tanh_odd in T2. replace (- (2 * - (r * x))) with (2 * (r * x)) in T2 by ring.
      assert (Cb := COS_bound (x + - w)). nra. }
    apply Rabs_le. split.
    + assert (L := is_RInt_le (fun s => -1 * (2 * exp (2 * (r * s)) + 2 * exp (- (2 * (r * (s + 2 * PI)))))) _ (- PI) (- PI + w) _ _ ltac:(lra) (rint_scal _ _ _ (-1) _ Hu) He).
      specialize (L ltac:(intros x _; specialize (B x); lra)). lra.
    + assert (L := is_RInt_le _ _ (- PI) (- PI + w) _ _ ltac:(lra) He Hu). specialize (L ltac:(intros x _; specialize (B x); lra)). lra.
Qed.
Lemma duty_even q A : duty r (- q) A = duty r q A.
Proof.
  unfold duty. replace (r * (- q + asin A)) with (- (r * (q - asin A))) by ring. replace (r * (- q - asin A)) with (- (r * (q + asin A))) by ring. rewrite !tanh_odd. field.
Qed.
Lemma duty_continuous A x : continuous (fun t => duty r t A) x.
Proof.
  apply (continuous_ext (fun t => / 2 * tanh (r * (t + asin A)) + - / 2 * tanh (r * (t + - asin A)))).
  - intros y. unfold duty. replace (y + - asin A) with (y - asin A) by ring. match goal with |- ?x = ?y => change (@eq R x y) end. field.
  - apply (continuous_plus (V := R_NormedModule) (fun t => / 2 * tanh (r * (t + asin A))) (fun t => - / 2 * tanh (r * (t + - asin A)))); apply prod_continuous; try apply continuous_const; apply tanh_lin_continuous.
Qed.
Lemma duty_harmonics (T A : R) : is_RInt (fun s => tanh (r * s) * sin s) (- PI) PI T -> 0 <= A <= 1 ->
  (exists H : R, is_RInt (fun t => duty r t A * cos t) (- PI) PI H /\ Rabs (H - (T - 2) * A) <= exp (- (PI * r)) / r) /\
  is_RInt (fun t => duty r t A * sin t) (- PI) PI 0.
Proof.
  intros HT HA. assert (P := PI_RGT_0). split.
  - destruct (shifted_transition T (asin A) HT (asin_ge_0 A HA)) as (e & He & Be). rewrite sin_asin in He by lra.
    exists (A * (T - 2) + e). split; [|replace (A * (T - 2) + e - (T - 2) * A) with e by ring; exact Be].
    assert (M : is_RInt (fun t => tanh (r * (t - asin A)) * cos t) (- PI) PI (-1 * (A * (T - 2) + e))).
    { assert (S := rint_swap _ _ _ _ He). replace PI with (- - PI) in S at 1 by ring. apply rint_mirror in S. rewrite Ropp_involutive in S.
      apply (rint_ext (fun t => -1 * (tanh (r * (- t + asin A)) * cos (- t)))); [lra| |apply rint_scal; exact S].
      intros x _. rewrite cos_neg. replace (r * (- x + asin A)) with (- (r * (x - asin A))) by ring. rewrite tanh_odd. ring. }
    replace (A * (T - 2) + e) with (/ 2 * ((A * (T - 2) + e) - -1 * (A * (T - 2) + e))) by field.
    apply (rint_ext (fun t => / 2 * (tanh (r * (t + asin A)) * cos t - tanh (r * (t - asin A)) * cos t))); [lra| |apply rint_scal, rint_minus; assumption].
    intros x _. unfold duty. field.
  - destruct (rint_exists (fun t => duty r t A * sin t) (- PI) PI) as [l Hl].
    { intros x. apply prod_continuous; [apply duty_continuous|]. apply (continuous_ext (fun s => sin (s + 0))); [intros y; rewrite Rplus_0_r; reflexivity|apply sin_shift_continuous]. }
    assert (M : is_RInt (fun t => duty r t A * sin t) (- PI) PI (-1 * l)).
    { assert (S := rint_swap _ _ _ _ Hl). replace PI with (- - PI) in S at 1 by ring. apply rint_mirror in S. rewrite Ropp_involutive in S.
      apply (rint_ext (fun t => -1 * (duty r (- t) A * sin (- t)))); [lra| |apply rint_scal; exact S]. intros x _. rewrite sin_neg, duty_even. ring. }
    assert (E := rint_unique _ _ _ _ _ Hl M). replace 0 with l by lra. exact Hl.
Qed.
End Steepness.

(** The mirrors: on-probability as a function of the fringe phase. *)
Lemma folded_inside t : - PI <= t <= PI -> acos (cos t) = Rabs t.
Proof.
  intros Ht. unfold Rabs. destruct (Rcase_abs t).
  - rewrite <- cos_neg. apply acos_cos. lra.
  - apply acos_cos. lra.
Qed.
Lemma random_first_harmonic r : 0 < r -> exists K, 2 - / r ^ 2 <= K <= 2 /\ forall A, 0 <= A <= 1 -> exists on : R -> R,
  (forall h d amp pin pout B Pi Po kw u i j, reads h (d_slm d) amp B -> reads h (d_slm d) pin Pi -> reads h (d_slm d) pout Po -> d_p d <> 0 ->
     dflt (k_r kw) 10 = r -> in_array d i j -> B i j = A ->
     cell_at (d_state (fst (set_dmd_grating_state h d amp pin pout MRandom kw u))) i j = CBool (if Rlt_dec (u i j) (on (carrier d i j - signed (d_neg d) (Po i j - Pi i j))) then true else false)) /\
  (forall t, 0 <= on t < 1) /\
  (exists H : R, is_RInt (fun t => on t * cos t) (- PI) PI H /\ Rabs (H - K * A) <= exp (- (PI * r)) / r) /\
  is_RInt (fun t => on t * sin t) (- PI) PI 0.
Proof.
  intros Hr. assert (P := PI_RGT_0). destruct (T_exists r) as [T HT]. exists (T - 2). assert (B := T_bounds r Hr T HT). split; [lra|]. intros A HA.
  exists (fun t => duty r (acos (cos t)) A). assert (W : forall t, - PI < t < PI -> duty r (acos (cos t)) A = duty r t A).
  { intros t Ht. rewrite folded_inside by lra. unfold Rabs. destruct (Rcase_abs t); [apply duty_even|reflexivity]. }
  destruct (duty_harmonics r Hr T A HT HA) as ((H & IH & BH) & IS). repeat split.
  - intros h d amp pin pout B' Pi Po kw u i j RA RI RO Hp Er [Hi Hj] EA.
    destruct (set_random_mirrors h d amp pin pout B' Pi Po kw u RA RI RO Hp) as (f & E & V). rewrite E. cbn [fst with_state d_state].
    destruct (V i j Hi Hj) as [V1 _]. destruct (V1 ltac:(rewrite EA; exact HA)) as (q & Fq & Vq). rewrite EA, Er in Vq.
    rewrite (folded_unique _ _ _ Fq (folded_acos _)) in Vq. cbn [cell_at].
    destruct (Rlt_dec _ _) as [L|L]; f_equal; [apply Vq; exact L|]. destruct (f i j); [exfalso; apply L, Vq; reflexivity|reflexivity].
  - apply duty_range; assumption.
  - apply duty_range; assumption.
  - exists H. split; [|exact BH]. apply (rint_ext (fun t => duty r t A * cos t)); [lra| |exact IH]. intros x Hx. rewrite W by lra. reflexivity.
  - apply (rint_ext (fun t => duty r t A * sin t)); [lra| |exact IS]. intros x Hx. rewrite W by lra. reflexivity.
Qed.
Lemma default_error : exp (- (PI * 10)) / 10 <= / 10 ^ 10.
Proof.
  assert (P : 3 < PI) by (assert (Q := PI2_3_2); lra).
  assert (E1 := exp_ineq1 1 ltac:(lra)). assert (En : forall n, exp (INR n) = exp 1 ^ n).
  { intros n. induction n as [|n IH]; [cbn; apply exp_0|]. rewrite S_INR, exp_plus, IH. cbn [pow]. ring. }
  assert (E30 : exp 30 = exp 1 ^ 30) by (rewrite <- En; f_equal; cbn; lra).
  assert (B : 2 ^ 30 <= exp 30) by (rewrite E30; apply pow_incr; lra).
  assert (L : exp (- (PI * 10)) <= exp (Ropp 30)) by (left; apply exp_increasing; lra).
  rewrite (exp_Ropp 30) in L. assert (I : / exp 30 <= / 2 ^ 30) by (apply Rinv_le_contravar; [apply pow_lt; lra|exact B]).
  assert (N : / 2 ^ 30 <= / 10 ^ 9) by (apply Rinv_le_contravar; lra). replace (/ 10 ^ 10) with (/ 10 ^ 9 / 10) by field. lra.
Qed.
