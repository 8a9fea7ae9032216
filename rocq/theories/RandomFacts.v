(** The random grating (C34). *)
From Coq Require Import Reals Lra ZArith Arith List Bool Lia.
From Coquelicot Require Import Complex Coquelicot.
From Verif Require Import Cx Sums DFT PyBase ProfileModel SlmModel LibModel DmdModel SimSpec GridFacts DmdSpec DmdFacts DmdFacts2 DmdFacts3.
Open Scope R_scope.

(** The documented duty: [q] folded carrier phase in [0, pi], [A] amplitude, [r] steepness. *)

Lemma folded_acos t : folded t (acos (cos t)).
Proof.
  split; [apply acos_bound|].
  set (q := acos (cos t)). assert (Hq : cos q = cos t) by (apply cos_acos; apply COS_bound).
  destruct (Req_dec (sin q) (sin t)) as [E|E].
  - assert (Hc : cis (t - q) = RtoC 1).
    { rewrite cis_minus. unfold cis. rewrite <- Hq, <- E. exact (cis_conj_cis q). }
    destruct (cis_eq_1_Z _ Hc) as [k Hk]. exists k. left. lra.
  - assert (E' : sin q = - sin t).
    { assert (P := sin2_cos2 q). assert (P' := sin2_cos2 t). unfold Rsqr in P, P'. rewrite Hq in P. nra. }
    assert (Hc : cis (t - - q) = RtoC 1).
    { rewrite cis_minus, cis_neg, cconj_conj. unfold cis. rewrite Hq, E'.
      replace (cos t, - sin t) with (cconj (cis t)) by reflexivity. exact (cis_conj_cis t). }
    destruct (cis_eq_1_Z _ Hc) as [k Hk]. exists k. right. lra.
Qed.
Lemma folded_unique t q q' : folded t q -> folded t q' -> q = q'.
Proof.
  assert (H : forall q, folded t q -> q = acos (cos t)).
  { intros p [Hp [k [->| ->]]].
    - replace (2 * PI * IZR k + p) with (p + 2 * PI * IZR k) by ring.
      assert (E := cis_period p k). unfold cis in E. injection E as -> _. symmetry. apply acos_cos. exact Hp.
    - replace (2 * PI * IZR k - p) with (- p + 2 * PI * IZR k) by ring.
      assert (E := cis_period (- p) k). unfold cis in E. injection E as -> _. rewrite cos_neg. symmetry. apply acos_cos. exact Hp. }
  intros H1 H2. rewrite (H _ H1), (H _ H2). reflexivity.
Qed.

Lemma asin_ge_0 A : 0 <= A <= 1 -> 0 <= asin A <= PI / 2.
Proof.
  intros H. split; [|apply asin_bound]. destruct (Rle_or_lt 0 (asin A)) as [P|P]; [exact P|exfalso].
  assert (B := asin_bound A). assert (S := sin_asin A ltac:(lra)).
  assert (sin (asin A) < 0); [|lra]. apply sin_lt_0_var; lra.
Qed.
Lemma asin_mono A B : - (1) <= A -> A <= B -> B <= 1 -> asin A <= asin B.
Proof.
  intros H1 H2 H3. destruct (Rle_or_lt (asin A) (asin B)) as [P|P]; [exact P|exfalso].
  assert (B1 := asin_bound A). assert (B2 := asin_bound B).
  assert (S := sin_increasing_1 (asin B) (asin A) ltac:(lra) ltac:(lra) ltac:(lra) ltac:(lra) P).
  rewrite !sin_asin in S by lra. lra.
Qed.
Lemma asin_lt A B : - (1) <= A -> A < B -> B <= 1 -> asin A < asin B.
Proof.
  intros H1 H2 H3. destruct (asin_mono A B H1 ltac:(lra) H3) as [P|P]; [exact P|exfalso].
  assert (sin (asin A) = sin (asin B)) by (rewrite P; reflexivity). rewrite !sin_asin in H by lra. lra.
Qed.
Lemma duty_range r q A : 0 < r -> 0 <= A <= 1 -> 0 <= duty r q A < 1.
Proof.
  intros Hr HA. unfold duty. assert (W := asin_ge_0 A HA).
  assert (M := tanh_mono (r * (q - asin A)) (r * (q + asin A)) ltac:(nra)).
  assert (B1 := tanh_bound (r * (q + asin A))). assert (B2 := tanh_bound (r * (q - asin A))). lra.
Qed.
Lemma duty_mono r q A B : 0 < r -> 0 <= A -> A < B -> B <= 1 -> duty r q A < duty r q B.
Proof.
  intros Hr HA HB H1. unfold duty. assert (W := asin_lt A B ltac:(lra) HB H1).
  assert (M := tanh_incr (r * (q + asin A)) (r * (q + asin B)) ltac:(nra)).
  assert (M' := tanh_incr (r * (q - asin B)) (r * (q - asin A)) ltac:(nra)). lra.
Qed.
Lemma duty_zero r q : duty r q 0 = 0.
Proof. unfold duty. rewrite asin_0, Rplus_0_r, Rminus_0_r. lra. Qed.

Lemma rint_chasles (f : R -> R) a b c l1 l2 : is_RInt f a b l1 -> is_RInt f b c l2 -> is_RInt f a c (l1 + l2).
Proof. exact (is_RInt_Chasles (V := R_NormedModule) f a b c l1 l2). Qed.
Lemma rint_const a b v : is_RInt (fun _ => v) a b ((b - a) * v).
Proof. exact (is_RInt_const (V := R_NormedModule) a b v). Qed.
Lemma rint_ext (f g : R -> R) a b l : a <= b -> (forall x, a < x < b -> f x = g x) -> is_RInt f a b l -> is_RInt g a b l.
Proof. intros H E. apply is_RInt_ext. intros x Hx. rewrite Rmin_left, Rmax_right in Hx by exact H. auto. Qed.
(** Uniform threshold: integral over u of the indicator of "on". *)
Lemma indicator_integral g : 0 <= g <= 1 -> is_RInt (fun u => if Rlt_dec u g then 1 else 0) 0 1 g.
Proof.
  intros H. assert (E : (g - 0) * 1 + (1 - g) * 0 = g) by ring.
  refine (eq_ind _ (fun z => is_RInt (fun u => if Rlt_dec u g then 1 else 0) 0 1 z) _ _ E). apply rint_chasles with g.
  - apply rint_ext with (fun _ => 1); [lra| |apply rint_const]. intros x Hx. cbn beta. destruct (Rlt_dec x g); [reflexivity|exfalso; lra].
  - apply rint_ext with (fun _ => 0); [lra| |apply rint_const]. intros x Hx. cbn beta. destruct (Rlt_dec x g); [exfalso; lra|reflexivity].
Qed.

(** Limit of a steep transition. *)
Lemma tanh_near_1 x : 0 <= x -> 0 < 1 - tanh x <= / (1 + x).
Proof.
  intros Hx. rewrite tanh_alt. assert (E := exp_ineq1_le (2 * x)). assert (P := exp_pos (2 * x)).
  replace (1 - (1 - 2 / (exp (2 * x) + 1))) with (2 / (exp (2 * x) + 1)) by ring. split; [apply Rdiv_lt_0_compat; lra|].
  apply Rmult_le_reg_r with (exp (2 * x) + 1); [lra|]. unfold Rdiv. rewrite Rmult_assoc, Rinv_l, Rmult_1_r by lra.
  apply Rmult_le_reg_l with (1 + x); [lra|]. rewrite <- Rmult_assoc, Rinv_r, Rmult_1_l by lra. lra.
Qed.
Lemma duty_limit r q A : 0 < r -> 0 <= q -> 0 <= A <= 1 -> q <> asin A ->
  Rabs (duty r q A - (if Rlt_dec q (asin A) then 1 else 0)) <= / (1 + r * Rabs (q - asin A)).
Proof.
  intros Hr Hq HA Hn. assert (W := asin_ge_0 A HA). unfold duty. set (w := asin A) in *.
  destruct (Rlt_dec q w) as [H|H].
  - assert (P : 0 < r * (w - q)) by nra.
    assert (T1 := tanh_near_1 (r * (w - q)) ltac:(lra)).
    assert (M := tanh_mono (r * (w - q)) (r * (q + w)) ltac:(nra)). assert (B := tanh_bound (r * (q + w))).
    replace (r * (q - w)) with (- (r * (w - q))) by ring. rewrite tanh_odd.
    replace (Rabs (q - w)) with (w - q) by (rewrite Rabs_left by lra; ring).
    rewrite Rabs_left1 by lra. lra.
  - assert (Hlt : w < q) by lra. assert (P : 0 < r * (q - w)) by nra.
    assert (T1 := tanh_near_1 (r * (q - w)) ltac:(lra)).
    assert (M := tanh_mono (r * (q - w)) (r * (q + w)) ltac:(nra)). assert (B := tanh_bound (r * (q + w))).
    rewrite (Rabs_pos_eq (q - w)) by lra. rewrite Rabs_pos_eq by lra. lra.
Qed.
(** First harmonic of the limiting pulse of half-width asin A. *)
Lemma pulse_integral (f F : R -> R) w : 0 <= w <= PI -> (forall x, is_derive F x (f x)) -> (forall x, continuous f x) ->
  is_RInt (fun t => (if Rlt_dec (Rabs t) w then 1 else 0) * f t) (- PI) PI (F w - F (- w)).
Proof.
  intros Hw HF Hf.
  replace (F w - F (- w)) with ((- w - - PI) * 0 + ((F w - F (- w)) + (PI - w) * 0)) by ring.
  apply rint_chasles with (- w); [|apply rint_chasles with w].
  - apply rint_ext with (fun _ => 0); [lra| |apply rint_const]. intros x Hx.
    destruct (Rlt_dec (Rabs x) w) as [H|H]; [|ring]. apply Rabs_def2 in H. lra.
  - apply rint_ext with f; [lra| |exact (is_RInt_derive F f (- w) w (fun x _ => HF x) (fun x _ => Hf x))]. intros x Hx.
    destruct (Rlt_dec (Rabs x) w) as [H|H]; [ring|]. exfalso. apply H. apply Rabs_def1; lra.
  - apply rint_ext with (fun _ => 0); [lra| |apply rint_const]. intros x Hx.
    destruct (Rlt_dec (Rabs x) w) as [H|H]; [|ring]. apply Rabs_def2 in H. lra.
Qed.
Lemma first_harmonic A : 0 <= A <= 1 ->
  is_RInt (fun t => (if Rlt_dec (Rabs t) (asin A) then 1 else 0) * cos t) (- PI) PI (2 * PI * (A / PI)) /\
  is_RInt (fun t => (if Rlt_dec (Rabs t) (asin A) then 1 else 0) * sin t) (- PI) PI 0.
Proof.
  intros HA. assert (W := asin_ge_0 A HA). assert (P := PI_RGT_0). split.
  - replace (2 * PI * (A / PI)) with (sin (asin A) - sin (- asin A)) by (rewrite sin_neg, sin_asin by lra; field; lra).
    apply (pulse_integral cos sin); [lra| |].
    + intros x. auto_derive; [exact I|ring].
    + intros x. apply continuity_pt_filterlim. apply continuity_cos.
  - assert (E : - cos (asin A) - - cos (- asin A) = 0) by (rewrite cos_neg; ring).
    refine (eq_ind _ (fun z => is_RInt (fun t => (if Rlt_dec (Rabs t) (asin A) then 1 else 0) * sin t) (- PI) PI z) _ _ E).
    apply (pulse_integral sin (fun x => - cos x)); [lra| |].
    + intros x. auto_derive; [exact I|ring].
    + intros x. apply continuity_pt_filterlim. apply continuity_sin.
Qed.

(** ** The mirrors *)
Lemma random_duty_in neg A pi po x y p th r : 0 <= A <= 1 ->
  random_duty neg (Fin A) pi po x y p th r = Fin (duty r (acos (cos (grating_phase x y th p - rel_phase neg pi po))) A).
Proof.
  intros H. unfold random_duty, xasin. destruct (Rle_dec (-1) A); [|lra]. destruct (Rle_dec A 1); [|lra].
  unfold duty. f_equal. lra.
Qed.
Lemma random_duty_out neg A pi po x y p th r : A < - (1) \/ 1 < A -> random_duty neg (Fin A) pi po x y p th r = NaN.
Proof.
  intros H. unfold random_duty, xasin. destruct (Rle_dec (-1) A); [|reflexivity]. destruct (Rle_dec A 1); [lra|reflexivity].
Qed.
Lemma set_random_mirrors h d amp pin pout A Pi Po kw u : reads h (d_slm d) amp A -> reads h (d_slm d) pin Pi -> reads h (d_slm d) pout Po ->
  d_p d <> 0 ->
  exists f, set_dmd_grating_state h d amp pin pout MRandom kw u = (with_state d (DBool (s_Ny (d_slm d)) (s_Nx (d_slm d)) f), Ok tt) /\
   forall i j, (i < s_Ny (d_slm d))%nat -> (j < s_Nx (d_slm d))%nat ->
    (0 <= A i j <= 1 -> exists q, folded (carrier d i j - signed (d_neg d) (Po i j - Pi i j)) q /\
       (f i j = true <-> u i j < duty (dflt (k_r kw) 10) q (A i j))) /\
    (A i j < - (1) \/ 1 < A i j -> f i j = false).
Proof.
  intros HA HI HO Hp. destruct (set_random h d amp pin pout A Pi Po HA HI HO Hp kw u) as (d' & f & E & -> & V).
  exists f. split; [exact E|]. intros i j Hi Hj. split.
  - intros Ha. eexists. split; [apply folded_acos|]. rewrite V, random_duty_in by assumption. rewrite carrier_phase, rel_phase_signed by exact Hp.
    cbn [xgtb]. match goal with |- context [Rlt_dec ?a ?b] => destruct (Rlt_dec a b) end; split; congruence || tauto.
  - intros Ha. rewrite V, random_duty_out by assumption. reflexivity.
Qed.

(** ** Plain thresholding of one fringe *)
Lemma acos_lt_iff t c : - PI < t < PI -> -1 <= c <= 1 -> (c < cos t <-> Rabs t < acos c).
Proof.
  intros Ht Hc. assert (B := acos_bound c). rewrite <- (cos_acos c Hc) at 1.
  assert (E : cos t = cos (Rabs t)) by (unfold Rabs; destruct (Rcase_abs t); [rewrite cos_neg|]; reflexivity). rewrite E.
  assert (Hr : 0 <= Rabs t <= PI) by (split; [apply Rabs_pos|apply Rabs_le; lra]).
  split; intros H.
  - destruct (Rlt_dec (Rabs t) (acos c)) as [L|L]; [exact L|]. exfalso.
    assert (M : cos (Rabs t) <= cos (acos c)) by (apply cos_decr_1; lra). lra.
  - apply cos_decreasing_1; lra.
Qed.
Lemma threshold_harmonic A : 0 <= A ->
  is_RInt (fun t => (if Rlt_dec (1 / 2) (A * (cos t / 2 + 1 / 2)) then 1 else 0) * cos t) (- PI) PI
    (if Rle_dec A (1 / 2) then 0 else 2 * sqrt (2 * A - 1) / A).
Proof.
  intros HA. assert (P := PI_RGT_0). destruct (Rle_dec A (1 / 2)) as [L|L].
  - assert (E0 : (PI - - PI) * 0 = 0) by ring.
    refine (eq_ind _ (fun z => is_RInt (fun t => (if Rlt_dec (1 / 2) (A * (cos t / 2 + 1 / 2)) then 1 else 0) * cos t) (- PI) PI z) _ _ E0).
    apply rint_ext with (fun _ => 0); [lra| |apply rint_const].
    intros x Hx. destruct (Rlt_dec _ _) as [H|H]; [|ring]. exfalso. assert (C := COS_bound x). nra.
  - apply Rnot_le_lt in L. set (c := 1 / A - 1).
    assert (Hc : -1 < c < 1).
    { unfold c. split.
      - assert (0 < 1 / A) by (apply Rdiv_lt_0_compat; lra). lra.
      - assert (1 / A < 2) by (apply Rmult_lt_reg_r with A; [lra|]; replace (1 / A * A) with 1 by (field; lra); lra). lra. }
    apply rint_ext with (fun t => (if Rlt_dec (Rabs t) (acos c) then 1 else 0) * cos t); [lra| |].
    + intros x Hx. f_equal.
      assert (Q : 1 / 2 < A * (cos x / 2 + 1 / 2) <-> c < cos x).
      { unfold c. split; intros H.
        - apply Rmult_lt_reg_l with A; [lra|]. replace (A * (1 / A - 1)) with (1 - A) by (field; lra). lra.
        - apply Rmult_lt_compat_l with (r := A) in H; [|lra]. replace (A * (1 / A - 1)) with (1 - A) in H by (field; lra). lra. }
      assert (Q' := acos_lt_iff x c ltac:(lra) ltac:(lra)).
      destruct (Rlt_dec _ _), (Rlt_dec _ _); try reflexivity; tauto.
    + assert (Es : 2 * sqrt (2 * A - 1) / A = sin (acos c) - sin (- acos c)).
      { rewrite sin_neg, sin_acos by lra.
        replace (1 - c²) with ((2 * A - 1) * (/ A) ^ 2) by (unfold c, Rsqr; field; lra).
        rewrite sqrt_mult by (first [lra|apply pow2_ge_0]). rewrite sqrt_pow2 by (left; apply Rinv_0_lt_compat; lra). field; lra. }
      rewrite Es. apply (pulse_integral cos sin); [apply acos_bound| |].
      * intros x. auto_derive; [exact I|ring].
      * intros x. apply continuity_pt_filterlim. apply continuity_cos.
Qed.
Lemma threshold_not_proportional : ~ exists k, k <> 0 /\ forall A, 0 <= A <= 1 ->
  is_RInt (fun t => (if Rlt_dec (1 / 2) (A * (cos t / 2 + 1 / 2)) then 1 else 0) * cos t) (- PI) PI (k * A).
Proof.
  intros (k & Hk & H). specialize (H (1 / 4) ltac:(lra)). assert (T := threshold_harmonic (1 / 4) ltac:(lra)).
  destruct (Rle_dec (1 / 4) (1 / 2)); [|lra]. apply (is_RInt_unique (V := R_CompleteNormedModule)) in H. apply (is_RInt_unique (V := R_CompleteNormedModule)) in T. rewrite H in T. apply Hk. lra.
Qed.
