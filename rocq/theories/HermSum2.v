(** Fourier integrals of Hermite functions over a finite interval, and the sampled sums (C113). *)
From Coq Require Import Reals Lra Psatz ZArith Arith List Bool Lia.
From Coquelicot Require Import Coquelicot.
From Verif Require Import Cx Sums ModeSpec ModeFacts GaussInt ErfInt GaussSum GaussSum2 HermSpec HermSum.
Open Scope R_scope.

Definition ha (n : nat) (k phi t : R) : R := hf n t * cos (k * t - phi).
Definition ha1 (n : nat) (k phi t : R) : R := hd n t * cos (k * t - phi) - k * (hf n t * sin (k * t - phi)).
Definition ha2 (n : nat) (k phi t : R) : R := hdd n t * cos (k * t - phi) - 2 * k * (hd n t * sin (k * t - phi)) - k ^ 2 * (hf n t * cos (k * t - phi)).
Lemma cos_derive k phi t : is_derive (fun t => cos (k * t - phi)) t (- k * sin (k * t - phi)).
Proof. auto_derive; [trivial|]. change (k * t + - phi) with (k * t - phi). ring. Qed.
Lemma sin_derive k phi t : is_derive (fun t => sin (k * t - phi)) t (k * cos (k * t - phi)).
Proof. auto_derive; [trivial|]. change (k * t + - phi) with (k * t - phi). ring. Qed.
Lemma ha_derive n k phi t : is_derive (ha n k phi) t (ha1 n k phi t).
Proof. unfold ha, ha1. evar_last; [apply (is_derive_mult _ _ _ _ _ (hf_derive n t) (cos_derive k phi t)); intros; apply Rmult_comm|]. unfold plus, mult; cbn -[hf hd]. req. ring. Qed.
Lemma ha1_derive n k phi t : is_derive (ha1 n k phi) t (ha2 n k phi t).
Proof.
  unfold ha1, ha2. evar_last.
  - apply (is_derive_minus (V := R_NormedModule)).
    + apply (is_derive_mult _ _ _ _ _ (hd_derive n t) (cos_derive k phi t)). intros; apply Rmult_comm.
    + apply (is_derive_scal (fun t => hf n t * sin (k * t - phi)) t k). apply (is_derive_mult _ _ _ _ _ (hf_derive n t) (sin_derive k phi t)). intros; apply Rmult_comm.
  - unfold minus, opp, plus, mult; cbn -[hf hd hdd pow]. req. ring.
Qed.
Lemma trig_le x : Rabs (cos x) <= 1 /\ Rabs (sin x) <= 1.
Proof. split; apply Rabs_le; [apply COS_bound|apply SIN_bound]. Qed.
Lemma times_le x c b : Rabs x <= b -> Rabs c <= 1 -> Rabs (x * c) <= b.
Proof. intros X Y. rewrite Rabs_mult. assert (0 <= Rabs x) by apply Rabs_pos. assert (0 <= Rabs c) by apply Rabs_pos. nra. Qed.
Lemma ha2_bound n k phi t : Rabs (ha2 n k phi t) <= sup2 n + 2 * Rabs k * sup1 n + k ^ 2 * sup0 n.
Proof.
  destruct (trig_le (k * t - phi)) as [Tc Ts]. unfold ha2, Rminus. eapply Rle_trans; [apply Rabs_triang|]. eapply Rle_trans; [apply Rplus_le_compat_r, Rabs_triang|]. rewrite !Rabs_Ropp.
  fold (k * t - phi). rewrite (Rabs_mult (2 * k)), (Rabs_mult 2 k), (Rabs_mult (k ^ 2)), (Rabs_pos_eq 2), (Rabs_pos_eq (k ^ 2)) by (try apply pow2_ge_0; lra).
  apply Rplus_le_compat; [apply Rplus_le_compat|].
  - apply times_le; [apply hdd_bound|exact Tc].
  - apply Rmult_le_compat_l; [pose proof (Rabs_pos k); lra|]. apply times_le; [apply hd_bound|exact Ts].
  - apply Rmult_le_compat_l; [apply pow2_ge_0|]. apply times_le; [apply hf_bound|exact Tc].
Qed.
Lemma ha_cont n k phi t : continuous (ha n k phi) t.
Proof. apply (ex_derive_continuous (ha n k phi)). eexists. apply ha_derive. Qed.
Lemma ha_int n k phi a b : ex_RInt (ha n k phi) a b.
Proof. apply (ex_RInt_continuous (V := R_CompleteNormedModule)). intros; apply ha_cont. Qed.
Definition hJ (n : nat) (k phi x : R) : R := RInt (ha n k phi) 0 x.
Lemma hJ_derive n k phi x : is_derive (hJ n k phi) x (ha n k phi x).
Proof.
  apply (is_derive_RInt (ha n k phi) (hJ n k phi) 0 x); [|apply ha_cont].
  exists posreal_one. intros y _. apply (RInt_correct (V := R_CompleteNormedModule)), ha_int.
Qed.
Definition G (n : nat) (A B k phi : R) : R := hJ n k phi B - hJ n k phi A.
(** Two antiderivatives differ by a constant. *)
Lemma same_rise (f F K : R -> R) a b : (forall x, is_derive F x (f x)) -> (forall x, is_derive K x (f x)) -> F b - F a = K b - K a.
Proof.
  intros DF DK. assert (D : forall x, is_derive (fun x => F x - K x) x 0).
  { intros x. evar_last; [apply (is_derive_minus (V := R_NormedModule)); [apply DF|apply DK]|]. unfold minus, plus, opp; cbn. req. ring. }
  destruct (MVT_gen (fun x => F x - K x) a b (fun _ => 0)) as [c [_ E]].
  - intros x _. apply D.
  - intros x _. apply continuity_pt_filterlim. apply (ex_derive_continuous (fun x => F x - K x)). eexists. apply D.
  - lra.
Qed.
Lemma G_0 A B k phi : G 0 A B k phi = RInt (ga k phi) A B.
Proof.
  unfold G. rewrite (same_rise (ha 0 k phi) (hJ 0 k phi) (fun x => RInt (ga k phi) A x) A B).
  - rewrite RInt_point. unfold zero; cbn. ring.
  - intros; apply hJ_derive.
  - intros x. replace (ha 0 k phi x) with (ga k phi x) by (unfold ha, hf, ga; rewrite H_0; ring).
    apply (is_derive_RInt (ga k phi) (fun x => RInt (ga k phi) A x) A x); [|apply ga_cont]. exists posreal_one. intros y _. apply (RInt_correct (V := R_CompleteNormedModule)), ga_int.
Qed.
Lemma shift_cos x phi : cos (x - (phi + PI / 2)) = sin (x - phi).
Proof. replace (x - (phi + PI / 2)) with (- (PI / 2 - (x - phi))) by ring. rewrite cos_neg. apply cos_shift. Qed.
(** Integration by parts. *)
Lemma G_step n A B k phi : G (S n) A B k phi =
  lower (fun j => G j A B k phi) n - sqrt 2 * (ha n k phi B - ha n k phi A) - sqrt 2 * k * G n A B k (phi + PI / 2).
Proof.
  assert (S0 := sqrt2_pos).
  assert (E := same_rise (ha (S n) k phi) (hJ (S n) k phi) (fun x => lower (fun j => hJ j k phi x) n - sqrt 2 * ha n k phi x - sqrt 2 * k * hJ n k (phi + PI / 2) x) A B).
  unfold G at 1. rewrite E.
  - unfold G. destruct n as [|n]; unfold lower; ring.
  - intros; apply hJ_derive.
  - intros x. evar_last.
    + apply (is_derive_minus (V := R_NormedModule)); [apply (is_derive_minus (V := R_NormedModule))|].
      * apply (low_derive (fun j x => hJ j k phi x) (fun j x => ha j k phi x)). intros j. apply hJ_derive.
      * apply (is_derive_scal (ha n k phi) x (sqrt 2)). apply ha_derive.
      * apply (is_derive_scal (hJ n k (phi + PI / 2)) x (sqrt 2 * k)). apply hJ_derive.
    + unfold minus, plus, opp; cbn -[ha ha1 lower]. req. unfold ha, ha1. rewrite shift_cos. unfold hd.
      assert (El : lower (fun j => hf j x * cos (k * x - phi)) n = lower (fun j => hf j x) n * cos (k * x - phi)) by (destruct n; unfold lower; ring). rewrite El. field. lra.
Qed.
(** The Fourier integral over the whole line. *)
Definition T (n : nat) (k phi : R) : R := sqrt PI * H n (k / sqrt 2) * exp (- (k ^ 2 / 4)) * cos (phi - INR n * (PI / 2)).
Lemma T_step n k phi : T (S n) k phi = lower (fun j => T j k phi) n - sqrt 2 * k * T n k (phi + PI / 2).
Proof.
  assert (S0 := sqrt2_pos). assert (S2 := sqrt2_sq). unfold T. rewrite H_rec.
  assert (C1 : cos (phi - INR (S n) * (PI / 2)) = sin (phi - INR n * (PI / 2))).
  { rewrite S_INR. replace (phi - (INR n + 1) * (PI / 2)) with (- (PI / 2 - (phi - INR n * (PI / 2)))) by ring. rewrite cos_neg. apply cos_shift. }
  assert (C2 : cos (phi + PI / 2 - INR n * (PI / 2)) = - sin (phi - INR n * (PI / 2))).
  { replace (phi + PI / 2 - INR n * (PI / 2)) with (PI / 2 + (phi - INR n * (PI / 2))) by ring. rewrite cos_plus, cos_PI2, sin_PI2. ring. }
  rewrite C1, C2. replace (2 * (k / sqrt 2)) with (sqrt 2 * k) by (rewrite <- S2 at 2; field; lra).
  destruct n as [|n]; unfold lower, dn; [ring|].
  assert (C3 : cos (phi - INR n * (PI / 2)) = - sin (phi - INR (S n) * (PI / 2))).
  { rewrite S_INR. replace (phi - (INR n + 1) * (PI / 2)) with (- (PI / 2 - (phi - INR n * (PI / 2)))) by ring. rewrite sin_neg, sin_shift. ring. }
  rewrite C3. ring.
Qed.
Lemma H_hermite n x : H n x = hermite n x.
Proof. symmetry. apply hermite_hpair. Qed.
Lemma ha_edge n A B k phi : Rabs (ha n k phi B - ha n k phi A) <= edge n A B.
Proof.
  unfold Rminus. eapply Rle_trans; [apply Rabs_triang|]. rewrite Rabs_Ropp, Rplus_comm. unfold edge, ha, hf. rewrite <- !H_hermite.
  rewrite <- (Rabs_pos_eq (exp (- A ^ 2))) at 2 by (left; apply exp_pos). rewrite <- (Rabs_pos_eq (exp (- B ^ 2))) at 2 by (left; apply exp_pos). rewrite <- !Rabs_mult.
  apply Rplus_le_compat; (apply times_le; [apply Rle_refl|apply trig_le]).
Qed.
Lemma base_error A B k phi : A <= 0 -> 0 <= B -> Rabs (G 0 A B k phi - T 0 k phi) <= (exp (- A ^ 2) + exp (- B ^ 2)) * (2 / sqrt PI + Rabs k / 2).
Proof.
  intros HA HB. rewrite G_0. assert (E2 := fin_int phi A B k). assert (E3 := I_span A B HA HB).
  replace (T 0 k phi) with (exp (- (k ^ 2 / 4)) * (cos phi * sqrt PI)) by (unfold T; rewrite H_0; cbn [INR]; replace (phi - 0 * (PI / 2)) with phi by ring; ring).
  set (r := RInt (ga k phi) A B) in *. set (m := exp (- (k ^ 2 / 4))) in *. cbn in r.
  assert (M : 0 < m <= 1). { unfold m. replace (k ^ 2 / 4) with ((k / 2) ^ 2) by field. apply exp_sq_le. }
  assert (E4 : Rabs (m * (cos phi * (I B - I A)) - m * (cos phi * sqrt PI)) <= 2 / sqrt PI * (exp (- A ^ 2) + exp (- B ^ 2))).
  { replace (m * (cos phi * (I B - I A)) - m * (cos phi * sqrt PI)) with ((I B - I A - sqrt PI) * (m * cos phi)) by ring. apply times_le; [exact E3|]. rewrite Rmult_comm.
    apply times_le; [apply trig_le|]. apply Rabs_le. lra. }
  replace (r - m * (cos phi * sqrt PI)) with ((r - m * (cos phi * (I B - I A))) + (m * (cos phi * (I B - I A)) - m * (cos phi * sqrt PI))) by ring.
  eapply Rle_trans; [apply Rabs_triang|]. lra.
Qed.
Lemma tail_error n A B k : A <= 0 -> 0 <= B ->
  (forall phi, Rabs (G n A B k phi - T n k phi) <= fst (tails A B k n)) /\ (forall phi, Rabs (G (S n) A B k phi - T (S n) k phi) <= snd (tails A B k n)).
Proof.
  intros HA HB. assert (S0 := sqrt2_pos).
  assert (St : forall n b d, (forall phi, Rabs (G n A B k phi - T n k phi) <= b) -> (forall phi, Rabs (lower (fun j => G j A B k phi) n - lower (fun j => T j k phi) n) <= d) ->
     forall phi, Rabs (G (S n) A B k phi - T (S n) k phi) <= d + sqrt 2 * Rabs k * b + sqrt 2 * edge n A B).
  { intros p b d Hb Hd phi. rewrite G_step, T_step.
    match goal with |- Rabs ?z <= _ => replace z with ((lower (fun j => G j A B k phi) p - lower (fun j => T j k phi) p) + - (sqrt 2 * k * (G p A B k (phi + PI / 2) - T p k (phi + PI / 2))) + - (sqrt 2 * (ha p k phi B - ha p k phi A))) by ring end.
    eapply Rle_trans; [apply Rabs_triang|]. eapply Rle_trans; [apply Rplus_le_compat_r, Rabs_triang|]. rewrite !Rabs_Ropp, !Rabs_mult, (Rabs_pos_eq (sqrt 2)) by lra.
    apply Rplus_le_compat; [apply Rplus_le_compat; [apply Hd|]|].
    - apply Rmult_le_compat_l; [apply Rmult_le_pos; [lra|apply Rabs_pos]|apply Hb].
    - apply Rmult_le_compat_l; [lra|apply ha_edge]. }
  induction n as [|n [IH1 IH2]].
  - cbn [tails fst snd]. assert (B0 : forall phi, Rabs (G 0 A B k phi - T 0 k phi) <= (exp (- A ^ 2) + exp (- B ^ 2)) * (2 / sqrt PI + Rabs k / 2)) by (intros; apply base_error; assumption).
    split; [exact B0|]. intros phi. eapply Rle_trans; [apply (St 0%nat _ 0 B0)|]; [intros; unfold lower; rewrite Rminus_0_r, Rabs_R0; lra|lra].
  - cbn [tails]. destruct (tails A B k n) as [a b]. cbn [fst snd] in *. split; [exact IH2|]. apply (St (S n) b (2 * (INR n + 1) * a) IH2).
    intros phi. unfold lower. rewrite <- Rmult_minus_distr_l, Rabs_mult. assert (P := pos_INR n). rewrite (Rabs_pos_eq (2 * _)) by lra. apply Rmult_le_compat_l; [lra|apply IH1].
Qed.
Lemma herm_sum_real q A n N k phi : 0 < n -> A <= 0 -> 0 <= A + INR N * n -> let B := A + INR N * n in
  Rabs (n * rsum N (fun j => ha q k phi (A + INR j * n)) - T q k phi) <= (B - A) * n ^ 2 / 12 * (sup2 q + 2 * Rabs k * sup1 q + k ^ 2 * sup0 q) + n / 2 * edge q A B + fst (tails A B k q).
Proof.
  intros Hn HA HB B. assert (Tr := trap_all (ha q k phi) (ha1 q k phi) (ha2 q k phi) (hJ q k phi) _ A n N (ha_derive q k phi) (ha1_derive q k phi) (hJ_derive q k phi) (ha2_bound q k phi) ltac:(lra)).
  fold B in Tr, HB. fold (G q A B k phi) in Tr. assert (Te := proj1 (tail_error q A B k HA HB) phi). assert (Ed := ha_edge q A B k phi).
  set (M := sup2 q + _ + _) in *. set (s := n * rsum N _) in *. clearbody s.
  replace (INR N * (n ^ 3 / 12 * M)) with ((B - A) * n ^ 2 / 12 * M) in Tr by (unfold B; field).
  replace (s - T q k phi) with ((s + n * (ha q k phi B - ha q k phi A) / 2 - G q A B k phi) + (- (n / 2 * (ha q k phi B - ha q k phi A)) + (G q A B k phi - T q k phi))) by field.
  eapply Rle_trans; [apply Rabs_triang|]. rewrite Rplus_assoc. apply Rplus_le_compat; [exact Tr|]. eapply Rle_trans; [apply Rabs_triang|]. apply Rplus_le_compat; [|exact Te].
  rewrite Rabs_Ropp, Rabs_mult, (Rabs_pos_eq (n / 2)) by lra. apply Rmult_le_compat_l; [lra|exact Ed].
Qed.
