(** Sums of sampled Gaussians against their integrals, with explicit error bounds (C91, C92). *)
From Coq Require Import Reals Lra Psatz ZArith Arith List Bool Lia.
From Coquelicot Require Import Coquelicot.
From Verif Require Import Cx Sums GaussInt ErfInt.
Open Scope R_scope.

Definition ga (k phi t : R) : R := exp (- t ^ 2) * cos (k * t - phi).
Lemma ga_derive k phi t : is_derive (ga k phi) t (exp (- t ^ 2) * (- 2 * t * cos (k * t - phi) - k * sin (k * t - phi))).
Proof. unfold ga. auto_derive; [trivial|]. change (t * (t * 1)) with (t ^ 2). change (k * t + - phi) with (k * t - phi). ring. Qed.
Lemma ga_cont k phi t : continuous (ga k phi) t.
Proof. apply (ex_derive_continuous (ga k phi)). eexists. apply ga_derive. Qed.
Lemma ga_int k phi a b : ex_RInt (ga k phi) a b.
Proof. apply (ex_RInt_continuous (ga k phi)). intros; apply ga_cont. Qed.

(** *** Variation *)
Lemma slope_bound k phi t e : 0 <= t -> (e = 1 \/ e = -1) -> 0 <= 2 * t + Rabs k + e * (- 2 * t * cos (k * t - phi) - k * sin (k * t - phi)).
Proof.
  intros Ht He. set (x := k * t - phi). assert (B := COS_bound x). assert (B' := SIN_bound x).
  assert (K : forall s, -1 <= s <= 1 -> 0 <= Rabs k + k * s) by (intros s Hs; unfold Rabs; destruct (Rcase_abs k); nra).
  assert (K1 := K (- e * sin x) ltac:(destruct He as [-> | ->]; lra)). assert (K2 : 0 <= t * (1 - e * cos x)) by (apply Rmult_le_pos; [exact Ht|destruct He as [-> | ->]; lra]). nra.
Qed.
Lemma var_side k phi s t e : 0 <= s <= t -> (e = 1 \/ e = -1) -> e * (ga k phi s - ga k phi t) <= exp (- s ^ 2) - exp (- t ^ 2) + Rabs k * (I t - I s).
Proof.
  intros H He. set (U := fun t => - exp (- t ^ 2) + Rabs k * I t + e * ga k phi t).
  assert (D : forall x, is_derive U x (exp (- x ^ 2) * (2 * x + Rabs k + e * (- 2 * x * cos (k * x - phi) - k * sin (k * x - phi))))).
  { intros x. unfold U. assert (D1 : is_derive (fun t => - exp (- t ^ 2)) x (2 * x * exp (- x ^ 2))) by (auto_derive; [trivial|]; change (x * (x * 1)) with (x ^ 2); ring).
    assert (D2 := I_derive x). assert (D3 := ga_derive k phi x). evar_last.
    - apply (is_derive_plus (fun t => - exp (- t ^ 2) + Rabs k * I t) (fun t => e * ga k phi t)).
      + apply (is_derive_plus (fun t => - exp (- t ^ 2)) (fun t => Rabs k * I t)); [exact D1|]. exact (is_derive_scal I x (Rabs k) _ D2).
      + exact (is_derive_scal (ga k phi) x e _ D3).
    - unfold plus, g; cbn -[pow]. ring. }
  destruct (MVT_gen U s t (fun x => exp (- x ^ 2) * (2 * x + Rabs k + e * (- 2 * x * cos (k * x - phi) - k * sin (k * x - phi))))) as [c [Hc E]].
  - intros x _. apply D.
  - intros x _. apply continuity_pt_filterlim. apply (ex_derive_continuous U). eexists. apply D.
  - rewrite Rmin_left, Rmax_right in Hc by lra. assert (Q := slope_bound k phi c e ltac:(lra) He). assert (0 < exp (- c ^ 2)) by apply exp_pos.
    assert (0 <= U t - U s) by (rewrite E; apply Rmult_le_pos; [apply Rmult_le_pos; lra|lra]). unfold U in H1. lra.
Qed.
Lemma abs_of e1 x b : (forall e, e = 1 \/ e = -1 -> e * (x - e1) <= b) -> Rabs (e1 - x) <= b.
Proof. intros H. assert (A := H 1 (or_introl eq_refl)). assert (B := H (-1) (or_intror eq_refl)). apply Rabs_le. lra. Qed.
Lemma var_pos k phi s t : 0 <= s <= t -> Rabs (ga k phi t - ga k phi s) <= exp (- s ^ 2) - exp (- t ^ 2) + Rabs k * (I t - I s).
Proof. intros H. apply abs_of. intros e He. apply var_side; assumption. Qed.
Lemma ga_flip k phi t : ga k phi (- t) = ga (- k) phi t.
Proof. unfold ga. f_equal; f_equal; ring. Qed.
Lemma var_neg k phi s t : s <= t <= 0 -> Rabs (ga k phi t - ga k phi s) <= exp (- t ^ 2) - exp (- s ^ 2) + Rabs k * (I t - I s).
Proof.
  intros H. assert (A := var_pos (- k) phi (- t) (- s) ltac:(lra)). rewrite Rabs_Ropp, !I_odd in A. replace ((- t) ^ 2) with (t ^ 2) in A by ring. replace ((- s) ^ 2) with (s ^ 2) in A by ring.
  rewrite <- !ga_flip, !Ropp_involutive in A. rewrite Rabs_minus_sym. lra.
Qed.
Definition va (k t : R) : R := (if Rlt_dec t 0 then exp (- t ^ 2) - 1 else 1 - exp (- t ^ 2)) + Rabs k * I t.
Lemma I_0 : I 0 = 0.
Proof. unfold I. rewrite RInt_point. reflexivity. Qed.
Lemma var k phi s t : s <= t -> Rabs (ga k phi t - ga k phi s) <= va k t - va k s.
Proof.
  intros H. unfold va. destruct (Rlt_dec s 0) as [L|L], (Rlt_dec t 0) as [M|M].
  - assert (A := var_neg k phi s t ltac:(lra)). lra.
  - assert (A := var_neg k phi s 0 ltac:(lra)). assert (B := var_pos k phi 0 t ltac:(lra)). replace (- 0 ^ 2) with 0 in A, B by ring. rewrite exp_0, I_0 in A, B.
    replace (ga k phi t - ga k phi s) with ((ga k phi t - ga k phi 0) + (ga k phi 0 - ga k phi s)) by ring. eapply Rle_trans; [apply Rabs_triang|]. lra.
  - lra.
  - assert (A := var_pos k phi s t ltac:(lra)). lra.
Qed.
Lemma sqrtPI_pos : 0 < sqrt PI.
Proof. apply sqrt_lt_R0, PI_RGT_0. Qed.
Lemma sqrtPI_sq : (sqrt PI / 2) ^ 2 = PI / 4.
Proof. unfold Rdiv. rewrite Rpow_mult_distr. replace (sqrt PI ^ 2) with PI; [field|]. rewrite <- Rsqr_pow2. symmetry. apply Rsqr_sqrt. pose proof PI_RGT_0. lra. Qed.
Lemma I_le x : Rabs (I x) <= sqrt PI / 2.
Proof.
  assert (A := IJ x). assert (B := J_bound x). assert (S0 := sqrtPI_pos). assert (S1 := sqrtPI_sq). apply Rabs_le. split; nra.
Qed.
Lemma I_tail x : 0 <= x -> sqrt PI / 2 - I x <= 2 / sqrt PI * exp (- x ^ 2).
Proof.
  intros Hx. assert (HI := I_pos x Hx). assert (E := IJ x). assert (B := J_bound x). change (exp (- x ^ 2)) with (g x). assert (S0 := sqrtPI_pos). assert (S1 := sqrtPI_sq). set (s := sqrt PI / 2) in *.
  replace (2 / sqrt PI) with (/ s) by (unfold s; field; lra). assert (Hs : 0 < s) by (unfold s; lra).
  apply (Rmult_le_reg_r s); [exact Hs|]. replace (/ s * g x * s) with (g x) by (field; lra). nra.
Qed.
Lemma exp_sq_le t : 0 < exp (- t ^ 2) <= 1.
Proof. split; [apply exp_pos|]. rewrite <- exp_0. assert (0 <= t ^ 2) by apply pow2_ge_0. destruct (Req_dec (t ^ 2) 0) as [->|N]; [rewrite Ropp_0; lra|]. left. apply exp_increasing. lra. Qed.
Lemma va_bound k s t : va k t - va k s <= 2 + Rabs k * sqrt PI.
Proof.
  unfold va. assert (A := exp_sq_le s). assert (B := exp_sq_le t). assert (C1 := I_le s). assert (C2 := I_le t). apply Rabs_le_between in C1. apply Rabs_le_between in C2. assert (0 <= Rabs k) by apply Rabs_pos.
  assert (Rabs k * (I t - I s) <= Rabs k * sqrt PI) by (apply Rmult_le_compat_l; lra). destruct (Rlt_dec s 0), (Rlt_dec t 0); lra.
Qed.

(** *** Left Riemann sums *)
Lemma cell k phi s n : 0 < n -> Rabs (n * ga k phi s - RInt (ga k phi) s (s + n)) <= n * (va k (s + n) - va k s).
Proof.
  intros Hn. replace (n * ga k phi s - RInt (ga k phi) s (s + n)) with (RInt (fun t => minus (ga k phi s) (ga k phi t)) s (s + n)).
  - replace (n * (va k (s + n) - va k s)) with ((s + n - s) * (va k (s + n) - va k s)) by ring. apply abs_RInt_le_const; [lra| |].
    + apply (ex_RInt_minus (V := R_NormedModule)); [apply ex_RInt_const|apply ga_int].
    + intros t Ht. unfold minus, plus, opp; cbn. assert (A := var k phi s t ltac:(lra)). assert (B := var k phi t (s + n) ltac:(lra)). assert (0 <= va k (s + n) - va k t) by (eapply Rle_trans; [apply Rabs_pos|exact B]).
      replace (ga k phi s + - ga k phi t) with (- (ga k phi t - ga k phi s)) by ring. rewrite Rabs_Ropp. lra.
  - rewrite (RInt_minus (V := R_CompleteNormedModule)); [|apply ex_RInt_const|apply ga_int]. rewrite RInt_const. unfold minus, plus, opp, scal; cbn; unfold mult; cbn. match goal with |- ?x = ?y => change (@eq R x y) end. ring.
Qed.
Lemma cells k phi A n N : 0 < n -> Rabs (n * rsum N (fun j => ga k phi (A + INR j * n)) - RInt (ga k phi) A (A + INR N * n)) <= n * (va k (A + INR N * n) - va k A).
Proof.
  intros Hn. induction N as [|N IH].
  - cbn [rsum INR]. rewrite Rmult_0_l, Rplus_0_r, RInt_point. unfold zero; cbn. rewrite Rmult_0_r, Rminus_0_r, Rabs_R0. lra.
  - rewrite S_INR. cbn [rsum]. set (B := A + INR N * n) in *. replace (A + (INR N + 1) * n) with (B + n) by (unfold B; ring).
    assert (Ch : RInt (ga k phi) A (B + n) = RInt (ga k phi) A B + RInt (ga k phi) B (B + n)) by (symmetry; apply (RInt_Chasles (V := R_CompleteNormedModule)); apply ga_int).
    rewrite Ch. assert (C := cell k phi B n Hn). set (s := rsum N _) in *. generalize dependent (RInt (ga k phi) A B). generalize dependent (RInt (ga k phi) B (B + n)). cbn. intros r2 C r1 IH _.
    replace (n * (s + ga k phi B) - (r1 + r2)) with ((n * s - r1) + (n * ga k phi B - r2)) by ring. eapply Rle_trans; [apply Rabs_triang|]. lra.
Qed.

(** *** The integral over a finite interval, against the Gaussian *)
Lemma gk_derive phi t k : is_derive (fun u => ga u phi t) k (- t * exp (- t ^ 2) * sin (k * t - phi)).
Proof. unfold ga. auto_derive; [trivial|]. change (t * (t * 1)) with (t ^ 2). change (k * t + - phi) with (k * t - phi). ring. Qed.
Lemma gk_cont2 phi k t : continuity_2d_pt (fun u v => Derive (fun z => ga z phi v) u) k t.
Proof.
  apply continuity_2d_pt_filterlim. apply (continuous_ext (fun z : R * R => - snd z * exp (- snd z ^ 2) * sin (fst z * snd z - phi))).
  { intros [u v]. cbn [fst snd]. symmetry. apply is_derive_unique, gk_derive. }
  assert (Cf : forall z : R * R, continuous fst z) by (intros z; apply continuous_fst). assert (Cs : forall z : R * R, continuous snd z) by (intros z; apply continuous_snd).
  apply (continuous_mult (fun z : R * R => - snd z * exp (- snd z ^ 2)) (fun z : R * R => sin (fst z * snd z - phi))).
  - apply (continuous_comp snd (fun u => - u * exp (- u ^ 2))); [apply Cs|]. apply (ex_derive_continuous (fun u => - u * exp (- u ^ 2))). auto_derive. trivial.
  - apply (continuous_comp (fun z : R * R => fst z * snd z - phi) sin); [|apply (ex_derive_continuous sin); auto_derive; trivial].
    apply (continuous_minus (fun z : R * R => fst z * snd z) (fun _ => phi)); [|apply continuous_const].
    apply (continuous_mult (fun z : R * R => fst z) (fun z : R * R => snd z)); [apply Cf|apply Cs].
Qed.
Definition bd (phi A B k : R) : R := (exp (- B ^ 2) * sin (k * B - phi) - exp (- A ^ 2) * sin (k * A - phi)) / 2.
Lemma parts phi A B k : is_RInt (fun t => - t * exp (- t ^ 2) * sin (k * t - phi)) A B (bd phi A B k - k / 2 * RInt (ga k phi) A B).
Proof.
  set (h := fun t => exp (- t ^ 2) * sin (k * t - phi) / 2).
  assert (P : is_RInt (fun t => - t * exp (- t ^ 2) * sin (k * t - phi) + k / 2 * ga k phi t) A B (h B - h A)).
  { apply (is_RInt_derive h).
    - intros x _. unfold h, ga. auto_derive; [trivial|]. change (x * (x * 1)) with (x ^ 2). change (k * x + - phi) with (k * x - phi). field.
    - intros x _. apply (ex_derive_continuous (fun t => - t * exp (- t ^ 2) * sin (k * t - phi) + k / 2 * ga k phi t)). unfold ga. auto_derive. trivial. }
  assert (Q := is_RInt_scal (ga k phi) A B (k / 2) _ (RInt_correct (ga k phi) A B (ga_int k phi A B))).
  assert (M := is_RInt_minus _ _ _ _ _ _ P Q). replace (bd phi A B k - k / 2 * RInt (ga k phi) A B) with (minus (h B - h A) (scal (k / 2) (RInt (ga k phi) A B))).
  - eapply is_RInt_ext; [|exact M]. intros x _. unfold minus, plus, opp, scal; cbn -[pow]; unfold mult; cbn -[pow]. match goal with |- ?x = ?y => change (@eq R x y) end. ring.
  - unfold minus, plus, opp, scal; cbn -[pow RInt]; unfold mult; cbn -[pow RInt]. unfold bd, h. match goal with |- ?x = ?y => change (@eq R x y) end. field.
Qed.
Lemma R_derive phi A B k : is_derive (fun u => RInt (ga u phi) A B) k (bd phi A B k - k / 2 * RInt (ga k phi) A B).
Proof.
  assert (D : is_derive (fun u => RInt (ga u phi) A B) k (RInt (fun t => Derive (fun u => ga u phi t) k) A B)).
  { apply (is_derive_RInt_param (fun u t => ga u phi t) A B k).
    - exists posreal_one. intros y _ t _. eexists. apply gk_derive.
    - intros t _. apply gk_cont2.
    - exists posreal_one. intros y _. apply ga_int. }
  replace (bd phi A B k - k / 2 * RInt (ga k phi) A B) with (RInt (fun t => Derive (fun u => ga u phi t) k) A B); [exact D|].
  apply is_RInt_unique. eapply is_RInt_ext; [|apply parts]. intros t _. symmetry. apply is_derive_unique, gk_derive.
Qed.
Lemma bd_bound phi A B k : Rabs (bd phi A B k) <= (exp (- A ^ 2) + exp (- B ^ 2)) / 2.
Proof.
  unfold bd. assert (SA := SIN_bound (k * A - phi)). assert (SB := SIN_bound (k * B - phi)). assert (EA := exp_pos (- A ^ 2)). assert (EB := exp_pos (- B ^ 2)).
  apply Rabs_le. split; nra.
Qed.
Lemma R_0 phi A B : RInt (ga 0 phi) A B = cos phi * (I B - I A).
Proof.
  apply is_RInt_unique. apply (is_RInt_ext (fun t => scal (cos phi) (g t))).
  - intros t _. unfold scal; cbn -[pow]; unfold mult; cbn -[pow]. unfold ga, g. replace (0 * t - phi) with (- phi) by ring. rewrite cos_neg. match goal with |- ?x = ?y => change (@eq R x y) end. ring.
  - apply (is_RInt_scal g A B (cos phi) (I B - I A)). apply (is_RInt_derive I g); [intros; apply I_derive|intros; apply g_cont].
Qed.
Lemma fin_int phi A B k : Rabs (RInt (ga k phi) A B - exp (- (k ^ 2 / 4)) * (cos phi * (I B - I A))) <= Rabs k * ((exp (- A ^ 2) + exp (- B ^ 2)) / 2).
Proof.
  set (D := fun u => exp (u ^ 2 / 4) * RInt (ga u phi) A B).
  assert (HD : forall u, is_derive D u (exp (u ^ 2 / 4) * bd phi A B u)).
  { intros u. unfold D. evar_last.
    - apply (is_derive_mult (fun u => exp (u ^ 2 / 4)) (fun u => RInt (ga u phi) A B) u (u / 2 * exp (u ^ 2 / 4))); [|apply R_derive|intros; apply Rmult_comm]. auto_derive; [trivial|]. change (u * (u * 1)) with (u ^ 2). change (u ^ 2 * / 4) with (u ^ 2 / 4). field.
    - unfold plus, mult; cbn -[pow RInt]. match goal with |- ?x = ?y => change (@eq R x y) end. field. }
  destruct (MVT_gen D 0 k (fun u => exp (u ^ 2 / 4) * bd phi A B u)) as [c [Hc E]].
  - intros x _. apply HD.
  - intros x _. apply continuity_pt_filterlim. apply (ex_derive_continuous D). eexists. apply HD.
  - assert (C2 : c ^ 2 <= k ^ 2). { unfold Rmin, Rmax in Hc. destruct (Rle_dec 0 k); nra. }
    assert (X : exp (- (k ^ 2 / 4)) * exp (k ^ 2 / 4) = 1) by (rewrite <- exp_plus, Rplus_opp_l; apply exp_0).
    assert (Y : exp (- (k ^ 2 / 4)) * exp (c ^ 2 / 4) <= 1). { rewrite <- exp_plus, <- exp_0. destruct (Req_dec (c ^ 2) (k ^ 2)) as [->|N]; [rewrite Rplus_opp_l; lra|]. left. apply exp_increasing. lra. }
    assert (Y0 : 0 < exp (- (k ^ 2 / 4)) * exp (c ^ 2 / 4)) by (apply Rmult_lt_0_compat; apply exp_pos).
    unfold D in E. rewrite R_0 in E. replace (exp (0 ^ 2 / 4)) with 1 in E by (replace (0 ^ 2 / 4) with 0 by field; symmetry; apply exp_0). rewrite Rminus_0_r, Rmult_1_l in E.
    set (r := RInt (ga k phi) A B) in *. set (v := cos phi * (I B - I A)) in *. set (m := exp (- (k ^ 2 / 4))) in *. set (e := exp (k ^ 2 / 4)) in *. clearbody r.
    assert (Z : r - m * v = (m * exp (c ^ 2 / 4)) * (bd phi A B c * k)). { transitivity (m * (e * r - v)); [|rewrite E; ring]. transitivity ((m * e) * r - m * v); [rewrite X|]; ring. }
    rewrite Z, !Rabs_mult. rewrite (Rabs_pos_eq m) by (left; apply exp_pos). rewrite (Rabs_pos_eq (exp _)) by (left; apply exp_pos).
    assert (W := bd_bound phi A B c). set (q := Rabs (bd phi A B c)) in *. set (w := (exp (- A ^ 2) + exp (- B ^ 2)) / 2) in *. set (p := m * exp (c ^ 2 / 4)) in *.
    assert (0 <= q) by apply Rabs_pos. assert (0 <= Rabs k) by apply Rabs_pos.
    apply Rle_trans with (1 * (q * Rabs k)); [apply Rmult_le_compat_r; [apply Rmult_le_pos; assumption|lra]|]. rewrite Rmult_1_l, Rmult_comm. apply Rmult_le_compat_l; assumption.
Qed.
Lemma I_span A B : A <= 0 -> 0 <= B -> Rabs (I B - I A - sqrt PI) <= 2 / sqrt PI * (exp (- A ^ 2) + exp (- B ^ 2)).
Proof.
  intros HA HB. assert (T1 := I_tail B HB). assert (T2 := I_tail (- A) ltac:(lra)). rewrite I_odd in T2. replace ((- A) ^ 2) with (A ^ 2) in T2 by ring.
  assert (L1 := I_le B). assert (L2 := I_le A). apply Rabs_le_between in L1. apply Rabs_le_between in L2. apply Rabs_le. split; lra.
Qed.

(** *** The sampled sum against the Gaussian *)
Definition gerr (n A B k : R) : R := n * (2 + Rabs k * sqrt PI) + (exp (- A ^ 2) + exp (- B ^ 2)) * (2 / sqrt PI + Rabs k / 2).
Lemma sum_real phi A n N k : 0 < n -> A <= 0 -> 0 <= A + INR N * n ->
  Rabs (n * rsum N (fun j => ga k phi (A + INR j * n)) - exp (- (k ^ 2 / 4)) * (cos phi * sqrt PI)) <= gerr n A (A + INR N * n) k.
Proof.
  intros Hn HA HB. set (B := A + INR N * n) in *. assert (E1 := cells k phi A n N Hn). fold B in E1. assert (V := va_bound k A B). assert (E2 := fin_int phi A B k). assert (E3 := I_span A B HA HB).
  set (r := RInt (ga k phi) A B) in *. set (s := n * rsum N _) in *. set (m := exp (- (k ^ 2 / 4))) in *. clearbody s. cbn in r.
  assert (M : 0 < m <= 1). { unfold m. replace (k ^ 2 / 4) with ((k / 2) ^ 2) by field. apply exp_sq_le. }
  assert (E4 : Rabs (m * (cos phi * (I B - I A)) - m * (cos phi * sqrt PI)) <= 2 / sqrt PI * (exp (- A ^ 2) + exp (- B ^ 2))).
  { replace (m * (cos phi * (I B - I A)) - m * (cos phi * sqrt PI)) with (m * (cos phi * (I B - I A - sqrt PI))) by ring. rewrite !Rabs_mult, (Rabs_pos_eq m) by lra.
    assert (0 <= Rabs (cos phi) <= 1) by (split; [apply Rabs_pos|apply Rabs_le; apply COS_bound]). set (z := Rabs (I B - I A - sqrt PI)) in *. assert (0 <= z) by apply Rabs_pos. 
    apply Rle_trans with (1 * (1 * z)); [|lra]. apply Rmult_le_compat; [lra|apply Rmult_le_pos; lra|lra|]. apply Rmult_le_compat_r; lra. }
  assert (E5 : n * (va k B - va k A) <= n * (2 + Rabs k * sqrt PI)) by (apply Rmult_le_compat_l; lra).
  replace (s - m * (cos phi * sqrt PI)) with ((s - r) + ((r - m * (cos phi * (I B - I A))) + (m * (cos phi * (I B - I A)) - m * (cos phi * sqrt PI)))) by ring.
  eapply Rle_trans; [apply Rabs_triang|]. eapply Rle_trans; [apply Rplus_le_compat_l, Rabs_triang|]. unfold gerr. lra.
Qed.
Lemma re_scal (r : R) (z : C) : fst (RtoC r * z)%C = r * fst z.
Proof. cbn. ring. Qed.
Lemma sum_cx A n N k : 0 < n -> A <= 0 -> 0 <= A + INR N * n ->
  Cmod (RtoC n * csum N (fun j => RtoC (exp (- (A + INR j * n) ^ 2)) * cis (k * (A + INR j * n))) - RtoC (sqrt PI * exp (- (k ^ 2 / 4))))%C <= gerr n A (A + INR N * n) k.
Proof.
  intros Hn HA HB. match goal with |- Cmod ?z <= _ => set (d := z) end.
  assert (E : Cmod d = fst (d * cis (- carg d))%C).
  { rewrite (polar d) at 2. rewrite <- Cmult_assoc, <- cis_plus, Rplus_opp_r, cis_0. cbn. ring. }
  assert (P := sum_real (carg d) A n N k Hn HA HB). apply (Rle_trans _ (Rabs (Cmod d))); [apply Rle_abs|]. rewrite E.
  replace (fst (d * cis (- carg d))%C) with (n * rsum N (fun j => ga k (carg d) (A + INR j * n)) - exp (- (k ^ 2 / 4)) * (cos (carg d) * sqrt PI)); [exact P|].
  set (phi := carg d). unfold d.
  replace ((RtoC n * csum N (fun j => RtoC (exp (- (A + INR j * n) ^ 2)) * cis (k * (A + INR j * n))) - RtoC (sqrt PI * exp (- (k ^ 2 / 4)))) * cis (- phi))%C
    with (RtoC n * csum N (fun j => RtoC (exp (- (A + INR j * n) ^ 2)) * cis (k * (A + INR j * n) - phi)) - RtoC (sqrt PI * exp (- (k ^ 2 / 4))) * cis (- phi))%C.
  - unfold Cminus, Cplus, Copp. cbn [fst]. rewrite !re_scal, csum_fst. cbn [fst cis]. rewrite cos_neg.
    unfold Rminus at 1. f_equal; [|ring]. f_equal. apply rsum_ext. intros j _. rewrite re_scal. reflexivity.
  - unfold Cminus. rewrite Cmult_plus_distr_r. f_equal; [|ring]. rewrite <- Cmult_assoc, <- csum_scal_r. f_equal. apply csum_ext. intros j _. rewrite <- Cmult_assoc, <- cis_plus. do 2 f_equal.
Qed.
Lemma prod_err (S1 S2 T1 T2 : C) e1 e2 t : Cmod (S1 - T1)%C <= e1 -> Cmod (S2 - T2)%C <= e2 -> Cmod T1 <= t -> Cmod T2 <= t -> Cmod (S1 * S2 - T1 * T2)%C <= (t + e1) * (t + e2) - t ^ 2.
Proof.
  intros H1 H2 B1 B2. replace (S1 * S2 - T1 * T2)%C with ((S1 - T1) * (S2 - T2) + ((S1 - T1) * T2 + T1 * (S2 - T2)))%C by ring.
  eapply Rle_trans; [apply Cmod_triangle|]. eapply Rle_trans; [apply Rplus_le_compat_l, Cmod_triangle|]. rewrite !Cmod_mult.
  assert (P1 := Cmod_ge_0 (S1 - T1)%C). assert (P2 := Cmod_ge_0 (S2 - T2)%C). assert (P3 := Cmod_ge_0 T1). assert (P4 := Cmod_ge_0 T2).
  assert (Cmod (S1 - T1)%C * Cmod (S2 - T2)%C <= e1 * e2) by (apply Rmult_le_compat; assumption).
  assert (Cmod (S1 - T1)%C * Cmod T2 <= e1 * t) by (apply Rmult_le_compat; assumption).
  assert (Cmod T1 * Cmod (S2 - T2)%C <= t * e2) by (apply Rmult_le_compat; assumption). lra.
Qed.
