(** C114: the thresholds rise to one half. *)
From Coq Require Import Reals Lra Psatz ZArith Arith List Bool Lia.
From Flocq Require Import Core Relative.
From Verif Require Import PyBase LibModel FloatModel FloatSpec FloatFacts FloatFacts4 ThreshModel.
Open Scope R_scope.

(** Ties go to even: just above one half. *)
Section Tie.
Variables (emin : Z) (p : nat).
Hypotheses (Hp : (2 <= p)%nat) (He : (emin < - Z.of_nat p)%Z).
Let prec := Z.of_nat p.
Let f := round radix2 (FLT_exp emin prec) ZnearestE.
Lemma tie_above_half : f (1 / 2 + / 2 ^ (p + 1)) = 1 / 2.
Proof.
  assert (P0 : 0 < / 2 ^ (p + 1)) by (apply Rinv_0_lt_compat, pow_lt; lra).
  assert (P1 : / 2 ^ (p + 1) <= / 2 ^ 2) by (apply Rinv_le_contravar; [apply pow_lt; lra|apply Rle_pow; [lra|lia]]).
  assert (G : mag radix2 (1 / 2 + / 2 ^ (p + 1)) = 0%Z :> Z).
  { apply mag_unique. rewrite Rabs_pos_eq by lra. change (bpow radix2 (0 - 1)) with (/ 2). change (bpow radix2 0) with 1. lra. }
  unfold f, round, F2R. cbn [Fnum Fexp]. assert (Cx : cexp radix2 (FLT_exp emin prec) (1 / 2 + / 2 ^ (p + 1)) = (- prec)%Z) by (unfold cexp, FLT_exp, prec in *; rewrite G; lia).
  unfold scaled_mantissa. rewrite Cx, Z.opp_involutive. unfold prec. rewrite bpow_opp, bpow_nat.
  destruct p as [|[|q]]; [lia|lia|]. set (k := (2 * 2 ^ Z.of_nat q)%Z).
  assert (Ek : 2 * 2 ^ q = IZR k) by (unfold k; rewrite mult_IZR, <- pow_IZR; reflexivity).
  assert (E : (1 / 2 + / 2 ^ (S (S q) + 1)) * 2 ^ S (S q) = IZR k + / 2).
  { rewrite <- Ek. replace (S (S q) + 1)%nat with (S (S (S q))) by lia. cbn [pow]. field. apply pow_nonzero. lra. }
  rewrite E. assert (F : Zfloor (IZR k + / 2) = k) by (apply Zfloor_imp; rewrite plus_IZR; lra).
  unfold Znearest. rewrite F. replace (IZR k + / 2 - IZR k) with (/ 2) by ring. rewrite Rcompare_Eq by reflexivity.
  replace (Z.even k) with true by (unfold k; rewrite Z.even_mul; reflexivity). cbn [negb]. rewrite <- Ek. cbn [pow]. field. apply pow_nonzero. lra.
Qed.
Lemma below_half : f (1 / 2 - / 2 ^ (p + 1)) = 1 / 2 - / 2 ^ (p + 1).
Proof.
  apply round_generic; [typeclasses eauto|]. apply generic_format_FLT. exists (Float radix2 (2 ^ Z.of_nat p - 1) (- Z.of_nat (p + 1))).
  - unfold F2R. cbn [Fnum Fexp]. rewrite bpow_opp, bpow_nat, minus_IZR, <- pow_IZR. rewrite pow_add. field. apply pow_nonzero. lra.
  - cbn [Fnum]. change (Zpower radix2 prec) with (2 ^ prec)%Z. unfold prec. assert (0 < 2 ^ Z.of_nat p)%Z by (apply Z.pow_pos_nonneg; lia). lia.
  - cbn [Fexp]. lia.
Qed.
Lemma normal_error x : / 2 ^ 30 <= x -> (emin + prec <= -31)%Z -> Rabs (f x - x) <= / 2 ^ p * x.
Proof.
  intros Hx Hm. assert (R := relative_error_N_FLT radix2 emin prec ltac:(unfold prec; lia) (fun x => negb (Z.even x)) x).
  assert (P30 : 0 < / 2 ^ 30) by (apply Rinv_0_lt_compat, pow_lt; lra). rewrite (Rabs_pos_eq x) in R by lra.
  rewrite (half_bpow p (- prec + 1)) in R by (unfold prec; lia). apply R. apply Rle_trans with (/ 2 ^ 30); [|exact Hx]. rewrite <- (bpow_nat 30), <- bpow_opp. apply bpow_le. lia.
Qed.
End Tie.

(** What the two formats have in common. *)
Record to_nearest (p : nat) (f : R -> R) : Prop := {
  tn_arith : exists eta, arithmetic (/ 2 ^ p) eta (2 ^ Z.of_nat p) f;
  tn_tie : f (1 / 2 + / 2 ^ (p + 1)) = 1 / 2;
  tn_below : f (1 / 2 - / 2 ^ (p + 1)) = 1 / 2 - / 2 ^ (p + 1);
  tn_error : forall x, / 2 ^ 30 <= x -> Rabs (f x - x) <= / 2 ^ p * x }.
Lemma double_nearest : to_nearest 53 binary64.
Proof.
  split.
  - exists (/ 2 ^ 1075). exact binary64_arithmetic.
  - exact (tie_above_half (-1074) 53 ltac:(lia) ltac:(lia)).
  - exact (below_half (-1074) 53 ltac:(lia) ltac:(lia)).
  - intros x H. exact (normal_error (-1074) 53 ltac:(lia) x H ltac:(lia)).
Qed.
Lemma single_nearest : to_nearest 24 binary32.
Proof.
  split.
  - exists (/ 2 ^ 150). exact binary32_arithmetic.
  - exact (tie_above_half (-149) 24 ltac:(lia) ltac:(lia)).
  - exact (below_half (-149) 24 ltac:(lia) ltac:(lia)).
  - intros x H. exact (normal_error (-149) 24 ltac:(lia) x H ltac:(lia)).
Qed.

Section Thresholds.
Variables (a : fpu) (p N : nat).
Hypotheses (Hf : to_nearest p (rnd a)) (Hp : (24 <= p)%nat) (HN : (1 <= N)%nat) (HN2 : (Z.of_nat N <= 2 ^ 20)%Z).
Let u := / 2 ^ p.
Lemma u_bound : 0 < u <= / 2 ^ 24.
Proof. unfold u. split; [apply Rinv_0_lt_compat, pow_lt; lra|]. apply Rinv_le_contravar; [apply pow_lt; lra|]. apply Rle_pow; [lra|lia]. Qed.
Lemma u_half : / 2 ^ (p + 1) = u / 2.
Proof. unfold u. rewrite pow_add. cbn [pow]. field. apply pow_nonzero. lra. Qed.
Lemma int_exact k : (0 <= k <= 2 ^ 20)%Z -> rnd a (IZR k) = IZR k.
Proof.
  intros Hk. destruct (tn_arith _ _ Hf) as (eta & A). apply (fl_int _ _ _ _ A). rewrite Z.abs_eq by lia.
  assert (2 ^ 20 <= 2 ^ Z.of_nat p)%Z by (apply Z.pow_le_mono_r; lia). lia.
Qed.
Lemma mono x y : x <= y -> rnd a x <= rnd a y.
Proof. destruct (tn_arith _ _ Hf) as (eta & A). apply (ar_monotone _ _ _ _ A). Qed.
Lemma half_exact : rnd a (1 / 2) = 1 / 2.
Proof.
  destruct (tn_arith _ _ Hf) as (eta & A). apply (fl_half _ _ _ _ A 1). assert (2 ^ 20 <= 2 ^ Z.of_nat p)%Z by (apply Z.pow_le_mono_r; lia). lia.
Qed.
Lemma one_exact : rnd a 1 = 1. Proof. apply (int_exact 1). lia. Qed.
Lemma N_bound : 1 <= INR N <= 2 ^ 20.
Proof. rewrite INR_IZR_INZ, (pow_IZR 2 20). change (2 ^ Z.of_nat 20)%Z with (2 ^ 20)%Z. split; apply IZR_le; lia. Qed.
Lemma step_near : Rabs (fl_step a N - 1 / 2 / INR N) <= u * (1 / 2 / INR N).
Proof.
  unfold fl_step. rewrite half_exact. rewrite (INR_IZR_INZ N), int_exact, <- INR_IZR_INZ by lia. apply (tn_error _ _ Hf).
  destruct N_bound. apply Rle_trans with (1 / 2 * / 2 ^ 20); [|unfold Rdiv; apply Rmult_le_compat_l; [lra|]; apply Rinv_le_contravar; lra].
  assert (/ 2 ^ 30 = / 2 ^ 20 * / 2 ^ 10) by (rewrite <- Rinv_mult, <- pow_add; reflexivity). assert (0 < / 2 ^ 20) by (apply Rinv_0_lt_compat, pow_lt; lra). assert (/ 2 ^ 10 <= 1 / 2) by lra. nra.
Qed.
Lemma threshold_is i : (i < N)%nat -> fl_threshold a N i = rnd a ((INR i + 1) * fl_step a N).
Proof.
  intros Hi. unfold fl_threshold. rewrite one_exact, (INR_IZR_INZ i), (int_exact (Z.of_nat i)) by lia. rewrite <- plus_IZR, int_exact by lia. reflexivity.
Qed.
Definition nominal (i : nat) : R := (INR i + 1) * (1 / 2 / INR N).
Lemma nominal_bound i : (i < N)%nat -> / 2 ^ 21 <= nominal i <= 1 / 2.
Proof.
  intros Hi. destruct N_bound. assert (0 <= INR i) by apply pos_INR. assert (Hi1 : INR i + 1 <= INR N) by (rewrite <- S_INR; apply le_INR; lia).
  assert (I1 : / 2 ^ 20 <= / INR N) by (apply Rinv_le_contravar; lra). assert (I0 : 0 < / INR N) by (apply Rinv_0_lt_compat; lra). unfold nominal. split.
  - assert (/ 2 ^ 21 = 1 / 2 * / 2 ^ 20) by (cbn [pow]; field). rewrite H2. unfold Rdiv. nra.
  - replace ((INR i + 1) * (1 / 2 / INR N)) with ((INR i + 1) * / INR N * (1 / 2)) by (field; lra). assert ((INR i + 1) * / INR N <= 1); [|lra]. apply (Rmult_le_reg_r (INR N)); [lra|]. rewrite Rmult_assoc, Rinv_l by lra. lra.
Qed.
Lemma before_rounding i : (i < N)%nat -> Rabs ((INR i + 1) * fl_step a N - nominal i) <= u * nominal i.
Proof.
  intros Hi. assert (0 <= INR i) by apply pos_INR. unfold nominal. replace ((INR i + 1) * fl_step a N - (INR i + 1) * (1 / 2 / INR N)) with ((INR i + 1) * (fl_step a N - 1 / 2 / INR N)) by ring.
  rewrite Rabs_mult, (Rabs_pos_eq (INR i + 1)) by lra. assert (S := step_near). nra.
Qed.
Lemma threshold_near i : (i < N)%nat -> Rabs (fl_threshold a N i - nominal i) <= (2 * u + u ^ 2) * nominal i.
Proof.
  intros Hi. rewrite threshold_is by exact Hi. assert (B := before_rounding i Hi). assert (M := nominal_bound i Hi). assert (U := u_bound).
  assert (P := Rabs_le_inv _ _ B). set (x := (INR i + 1) * fl_step a N) in *.
  assert (Hx : / 2 ^ 30 <= x). { assert (/ 2 ^ 30 = / 2 ^ 21 * / 2 ^ 9) by (rewrite <- Rinv_mult, <- pow_add; reflexivity). assert (0 < / 2 ^ 21) by (apply Rinv_0_lt_compat, pow_lt; lra). assert (u <= 1 / 2) by (apply Rle_trans with (/ 2 ^ 24); lra). assert (/ 2 ^ 9 <= 1 / 2) by lra. nra. }
  assert (R := tn_error _ _ Hf x Hx). fold u in R. replace (rnd a x - nominal i) with ((rnd a x - x) + (x - nominal i)) by ring.
  eapply Rle_trans; [apply Rabs_triang|]. assert (u * x <= u * ((1 + u) * nominal i)) by (apply Rmult_le_compat_l; lra). lra.
Qed.
Lemma threshold_le_half i : (i < N)%nat -> 0 < fl_threshold a N i <= 1 / 2.
Proof.
  intros Hi. assert (T := Rabs_le_inv _ _ (threshold_near i Hi)). assert (M := nominal_bound i Hi). assert (U := u_bound). assert (0 < / 2 ^ 21) by (apply Rinv_0_lt_compat, pow_lt; lra).
  assert (u <= / 8) by (apply Rle_trans with (/ 2 ^ 24); lra). split; [nra|].
  rewrite threshold_is by exact Hi. rewrite <- (tn_tie _ _ Hf). apply mono. rewrite u_half. assert (P := Rabs_le_inv _ _ (before_rounding i Hi)). nra.
Qed.
Lemma threshold_last : 1 / 2 - u / 2 <= fl_threshold a N (N - 1).
Proof.
  assert (Hi : (N - 1 < N)%nat) by lia. rewrite threshold_is by exact Hi. rewrite <- u_half, <- (tn_below _ _ Hf). apply mono. rewrite u_half.
  assert (P := Rabs_le_inv _ _ (before_rounding _ Hi)). assert (E : nominal (N - 1) = 1 / 2). { unfold nominal. rewrite minus_INR by lia. cbn [INR]. assert (M := N_bound). field. lra. }
  rewrite E in P. lra.
Qed.
Lemma threshold_rises i j : (i < j)%nat -> (j < N)%nat -> fl_threshold a N i < fl_threshold a N j.
Proof.
  intros Hij Hj. assert (T1 := Rabs_le_inv _ _ (threshold_near i ltac:(lia))). assert (T2 := Rabs_le_inv _ _ (threshold_near j Hj)).
  assert (M1 := nominal_bound i ltac:(lia)). assert (M2 := nominal_bound j Hj). assert (U := u_bound).
  assert (G : nominal i + / 2 ^ 21 <= nominal j).
  { unfold nominal. assert (INR i + 1 <= INR j) by (rewrite <- S_INR; apply le_INR; lia). assert (NB := N_bound). assert (/ 2 ^ 20 <= / INR N) by (apply Rinv_le_contravar; lra).
    assert (/ 2 ^ 21 = 1 / 2 * / 2 ^ 20) by (cbn [pow]; field). unfold Rdiv in *. nra. }
  assert (E : (2 * u + u ^ 2) * nominal i <= (2 * u + u ^ 2) * (1 / 2)) by (apply Rmult_le_compat_l; nra). assert (E' : (2 * u + u ^ 2) * nominal j <= (2 * u + u ^ 2) * (1 / 2)) by (apply Rmult_le_compat_l; nra).
  assert (u ^ 2 <= u * / 2 ^ 24) by nra. assert (/ 2 ^ 21 = 8 * / 2 ^ 24) by (cbn [pow]; field). assert (0 < / 2 ^ 24) by (apply Rinv_0_lt_compat, pow_lt; lra).
  assert (2 * u + u ^ 2 <= 3 * / 2 ^ 24). { assert (/ 2 ^ 24 <= 1) by lra. nra. } lra.
Qed.
Lemma upper_ge_half t : t <= 1 / 2 -> 1 / 2 <= fl_upper a t.
Proof. intros H. unfold fl_upper. rewrite one_exact, <- half_exact at 1. apply mono. lra. Qed.
Lemma upper_last t : 1 / 2 - u / 2 <= t -> fl_upper a t <= 1 / 2.
Proof. intros H. unfold fl_upper. rewrite one_exact. rewrite <- (tn_tie _ _ Hf). apply mono. rewrite u_half. lra. Qed.
Lemma thresholds :
  (forall i, (i < N)%nat -> 0 < fl_threshold a N i <= 1 / 2 /\ Rabs (fl_threshold a N i - (INR i + 1) * (1 / 2 / INR N)) <= (2 * u + u ^ 2) * ((INR i + 1) * (1 / 2 / INR N))) /\
  (forall i j, (i < j)%nat -> (j < N)%nat -> fl_threshold a N i < fl_threshold a N j) /\
  1 / 2 - u / 2 <= fl_threshold a N (N - 1) /\
  (forall i g, (i < N)%nat -> let t := fl_threshold a N i in t <= 1 / 2 <= fl_upper a t /\
     (g < t -> fl_binarize a t g = 0) /\ (t <= g <= fl_upper a t -> fl_binarize a t g = g) /\ (fl_upper a t < g -> fl_binarize a t g = 1)) /\
  (forall g, let b := fl_binarize a (fl_threshold a N (N - 1)) g in (b = 0 /\ g < 1 / 2) \/ (b = 1 /\ 1 / 2 < g) \/ (b = g /\ 1 / 2 - u / 2 <= g <= 1 / 2)).
Proof.
  split; [|split; [exact threshold_rises|split; [exact threshold_last|split]]].
  - intros i Hi. split; [apply threshold_le_half, Hi|exact (threshold_near i Hi)].
  - intros i g Hi t. destruct (threshold_le_half i Hi) as [T0 T1]. fold t in T0, T1. assert (V := upper_ge_half t T1). split; [split; assumption|].
    unfold fl_binarize. cbv zeta. rewrite one_exact. split; [|split]; intros H.
    + destruct (Rlt_dec g t); [reflexivity|lra].
    + destruct (Rlt_dec g t); [lra|]. destruct (Rlt_dec (fl_upper a t) g); [lra|reflexivity].
    + destruct (Rlt_dec g t); [lra|]. destruct (Rlt_dec (fl_upper a t) g); [reflexivity|lra].
  - intros g b. assert (Hi : (N - 1 < N)%nat) by lia. destruct (threshold_le_half _ Hi) as [T0 T1]. assert (L := threshold_last). set (t := fl_threshold a N (N - 1)) in *.
    assert (V := upper_ge_half t T1). assert (V' := upper_last t L). unfold b, fl_binarize. cbv zeta. rewrite one_exact.
    destruct (Rlt_dec g t); [left; split; [reflexivity|lra]|]. destruct (Rlt_dec (fl_upper a t) g); [right; left; split; [reflexivity|lra]|]. right; right. split; [reflexivity|lra].
Qed.
End Thresholds.

Lemma default_exact : fl_threshold double 200 199 = 1 / 2.
Proof.
  unfold fl_threshold, fl_step, double; cbn [rnd machine]. assert (A := binary64_arithmetic).
  rewrite (INR_IZR_INZ 199), (INR_IZR_INZ 200). change (Z.of_nat 199) with 199%Z. change (Z.of_nat 200) with 200%Z.
  rewrite (fl_int _ _ _ _ A 199), (fl_int _ _ _ _ A 200), (fl_int _ _ _ _ A 1), (fl_half _ _ _ _ A 1) by lia. rewrite <- plus_IZR, (fl_int _ _ _ _ A) by (cbn; lia). change (199 + 1)%Z with 200%Z.
  rewrite (rational64 (1 / 2 / 200) 1 400 5764607523034235 61) by (reflexivity || lia || lra).
  rewrite (rational64 (200 * (5764607523034235 / IZR (2 ^ 61))) (200 * 5764607523034235) (2 ^ 61) (2 ^ 52) 53); try (reflexivity || lia || (split; reflexivity)).
  - change (2 ^ 53)%Z with (2 * 2 ^ 52)%Z. rewrite mult_IZR. field. apply IZR_neq. discriminate.
  - rewrite mult_IZR. unfold Rdiv. ring.
Qed.
Lemma not_exact_49 : fl_threshold double 49 48 = 1 / 2 - / 2 ^ 54.
Proof.
  unfold fl_threshold, fl_step, double; cbn [rnd machine]. assert (A := binary64_arithmetic).
  rewrite (INR_IZR_INZ 48), (INR_IZR_INZ 49). change (Z.of_nat 48) with 48%Z. change (Z.of_nat 49) with 49%Z.
  rewrite (fl_int _ _ _ _ A 48), (fl_int _ _ _ _ A 49), (fl_int _ _ _ _ A 1), (fl_half _ _ _ _ A 1) by lia. rewrite <- plus_IZR, (fl_int _ _ _ _ A) by (cbn; lia). change (48 + 1)%Z with 49%Z.
  rewrite (rational64 (1 / 2 / 49) 1 98 5882252574524729 59) by (reflexivity || lia || lra).
  rewrite (rational64 (49 * (5882252574524729 / IZR (2 ^ 59))) (49 * 5882252574524729) (2 ^ 59) 9007199254740991 54); try (reflexivity || lia || (split; reflexivity)).
  - rewrite (pow_IZR 2 54). change (2 ^ Z.of_nat 54)%Z with (2 ^ 54)%Z. lra.
  - rewrite mult_IZR. unfold Rdiv. ring.
Qed.
Lemma thresholds_exact N i : fl_threshold exact N i = (INR i + 1) * (1 / 2 / INR N).
Proof. reflexivity. Qed.
Lemma binarize_exact t g : t <= 1 / 2 -> ifta_binarize (Some g) t = Some (fl_binarize exact t g).
Proof.
  intros H. unfold ifta_binarize, fl_binarize, fl_upper. cbn [rnd exact]. cbv zeta. destruct (Rlt_dec g t); [reflexivity|]. destruct (Rlt_dec (1 - t) g); reflexivity.
Qed.

(** ** The statements for C114. *)
Definition unit_roundoff (a : fpu) (u : R) : Prop := (a = double /\ u = / 2 ^ 53) \/ (a = single /\ u = / 2 ^ 24).
Lemma roundoff_case a u : unit_roundoff a u -> exists p, to_nearest p (rnd a) /\ (24 <= p)%nat /\ u = / 2 ^ p.
Proof.
  intros [(-> & ->)|(-> & ->)].
  - exists 53%nat. split; [exact double_nearest|]. split; [lia|reflexivity].
  - exists 24%nat. split; [exact single_nearest|]. split; [lia|reflexivity].
Qed.
Lemma thr_rise a u N : unit_roundoff a u -> (1 <= N)%nat -> (Z.of_nat N <= 2 ^ 20)%Z ->
  (forall i, (i < N)%nat -> 0 < fl_threshold a N i <= 1 / 2 /\
     Rabs (fl_threshold a N i - (INR i + 1) / (2 * INR N)) <= (2 * u + u ^ 2) * ((INR i + 1) / (2 * INR N))) /\
  (forall i j, (i < j)%nat -> (j < N)%nat -> fl_threshold a N i < fl_threshold a N j) /\
  1 / 2 - u / 2 <= fl_threshold a N (N - 1).
Proof.
  intros Ha H1 H2. destruct (roundoff_case a u Ha) as (p & Hf & Hp & ->). destruct (thresholds a p N Hf Hp H1 H2) as (A & B & C & _).
  split; [|split; assumption]. intros i Hi. destruct (A i Hi) as [A1 A2]. split; [exact A1|].
  replace ((INR i + 1) / (2 * INR N)) with ((INR i + 1) * (1 / 2 / INR N)); [exact A2|]. assert (0 < INR N) by (apply lt_0_INR; lia). field. lra.
Qed.
Lemma thr_sorts a u N : unit_roundoff a u -> (1 <= N)%nat -> (Z.of_nat N <= 2 ^ 20)%Z ->
  (forall i g, (i < N)%nat -> let t := fl_threshold a N i in exists top, t <= 1 / 2 <= top /\
     (g < t -> fl_binarize a t g = 0) /\ (t <= g <= top -> fl_binarize a t g = g) /\ (top < g -> fl_binarize a t g = 1)) /\
  (forall g, let b := fl_binarize a (fl_threshold a N (N - 1)) g in
     (b = 0 /\ g < 1 / 2) \/ (b = 1 /\ 1 / 2 < g) \/ (b = g /\ 1 / 2 - u / 2 <= g <= 1 / 2)).
Proof.
  intros Ha H1 H2. destruct (roundoff_case a u Ha) as (p & Hf & Hp & ->). destruct (thresholds a p N Hf Hp H1 H2) as (_ & _ & _ & A & B).
  split; [|exact B]. intros i g Hi t. exists (fl_upper a t). exact (A i g Hi).
Qed.
Lemma thr_no_rounding N : (0 < N)%nat -> (forall j, fl_threshold exact N j = (INR j + 1) * (0.5 / IZR (Z.of_nat N))) /\
  (forall t g, ifta_binarize (Some g) t = Some (fl_binarize exact t g)).
Proof.
  intros HN. split.
  - intros j. rewrite thresholds_exact, <- INR_IZR_INZ. assert (0 < INR N) by (apply lt_0_INR; lia). replace 0.5 with (1 / 2) by lra. reflexivity.
  - intros t g. unfold ifta_binarize, fl_binarize, fl_upper. cbn [rnd exact]. cbv zeta. destruct (Rlt_dec g t); [reflexivity|]. destruct (Rlt_dec (1 - t) g); reflexivity.
Qed.
