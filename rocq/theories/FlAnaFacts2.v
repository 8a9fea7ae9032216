(** Rounding errors of analysis.py: the aperture, the remainder, the decomposition. *)
From Coq Require Import Reals ZArith List Permutation Bool Lia Lra Psatz.
From Verif Require Import Cx Sums PyBase ProfileModel ZernSpec AnaSpec AnaFacts AnaThms AnsiFacts AnalysisModel FloatModel FloatSpec FloatFacts FlSimSpec FlAnaModel FlAnaSpec FlAnaFacts.
Import ListNotations.
Open Scope R_scope.

Section Aperture.
Variables (u eta : R) (B : Z) (q : numerics).
Hypothesis A : arithmetic u eta B (flt q).
Hypothesis HB : (2 ^ 44 <= B)%Z.
Lemma flt_half k : (Z.abs k <= 2 ^ 44)%Z -> flt q (IZR k / 2) = IZR k / 2.
Proof. intros H. pose proof (ar_exact _ _ _ _ A k 1) as E. replace (2 ^ 1) with 2 in E by ring. apply E; lia. Qed.
Lemma flt_quarter k : (Z.abs k <= 2 ^ 44)%Z -> flt q (IZR k / 4) = IZR k / 4.
Proof. intros H. pose proof (ar_exact _ _ _ _ A k 2) as E. replace (2 ^ 2) with 4 in E by ring. apply E; lia. Qed.
Lemma flt_int k : (Z.abs k <= 2 ^ 44)%Z -> flt q (IZR k) = IZR k.
Proof. intros H. pose proof (ar_exact _ _ _ _ A k 0) as E. cbn [pow] in E. unfold Rdiv in E. rewrite Rinv_1, Rmult_1_r in E. apply E; lia. Qed.
Lemma px_half nx j : px nx j = IZR (2 * Z.of_nat j - (Z.of_nat nx - 1)) / 2.
Proof. unfold px. rewrite !INR_IZR_INZ, !minus_IZR, mult_IZR. field. Qed.
Lemma py_half ny i : py ny i = IZR (Z.of_nat ny - 1 - 2 * Z.of_nat i) / 2.
Proof. unfold py. rewrite !INR_IZR_INZ, !minus_IZR, mult_IZR. field. Qed.
Lemma fl_x nx j : (Z.of_nat nx <= 2 ^ 20)%Z -> (j < nx)%nat -> fl_ana_x q nx j = px nx j.
Proof.
  intros Hn Hj. unfold fl_ana_x. rewrite !INR_IZR_INZ. rewrite <- minus_IZR. rewrite !flt_int by lia. rewrite flt_half by lia.
  replace (IZR (Z.of_nat j) - IZR (Z.of_nat nx - 1) / 2) with (px nx j) by (unfold px; rewrite !INR_IZR_INZ, !minus_IZR; reflexivity). rewrite px_half. apply flt_half. lia.
Qed.
Lemma fl_y ny i : (Z.of_nat ny <= 2 ^ 20)%Z -> (i < ny)%nat -> fl_ana_y q ny i = py ny i.
Proof.
  intros Hn Hi. unfold fl_ana_y. rewrite !INR_IZR_INZ. rewrite <- minus_IZR, <- plus_IZR. rewrite !flt_int by lia. rewrite flt_half by lia.
  replace (IZR (Z.of_nat ny - Z.of_nat i) - IZR (Z.of_nat ny + 1) / 2) with (py ny i) by (unfold py; rewrite !INR_IZR_INZ, !minus_IZR, plus_IZR; field). rewrite py_half. apply flt_half. lia.
Qed.
Lemma fl_dist ny nx i j : (Z.of_nat ny <= 2 ^ 20)%Z -> (Z.of_nat nx <= 2 ^ 20)%Z -> (i < ny)%nat -> (j < nx)%nat ->
  flt q (flt q (fl_ana_x q nx j ^ 2) + flt q (fl_ana_y q ny i ^ 2)) = dist_sq ny nx i j /\ flt q (dist_sq ny nx i j) = dist_sq ny nx i j.
Proof.
  intros Hy Hx Hi Hj. rewrite fl_x, fl_y by assumption. unfold dist_sq. rewrite px_half, py_half. set (a := (2 * Z.of_nat j - (Z.of_nat nx - 1))%Z). set (b := (Z.of_nat ny - 1 - 2 * Z.of_nat i)%Z).
  assert (Ha : (Z.abs a <= 2 ^ 20)%Z) by (unfold a; lia). assert (Hb : (Z.abs b <= 2 ^ 20)%Z) by (unfold b; lia).
  assert (Ea : (0 <= a * a <= 2 ^ 40)%Z). { rewrite <- (Z.abs_square a). split; [nia|]. change (2 ^ 40)%Z with (2 ^ 20 * 2 ^ 20)%Z. apply Z.mul_le_mono_nonneg; lia. }
  assert (Eb : (0 <= b * b <= 2 ^ 40)%Z). { rewrite <- (Z.abs_square b). split; [nia|]. change (2 ^ 40)%Z with (2 ^ 20 * 2 ^ 20)%Z. apply Z.mul_le_mono_nonneg; lia. }
  replace ((IZR a / 2) ^ 2) with (IZR (a * a) / 4) by (rewrite mult_IZR; field). replace ((IZR b / 2) ^ 2) with (IZR (b * b) / 4) by (rewrite mult_IZR; field).
  rewrite !flt_quarter by lia. replace (IZR (a * a) / 4 + IZR (b * b) / 4) with (IZR (a * a + b * b) / 4) by (rewrite plus_IZR; field). rewrite !flt_quarter by lia. split; reflexivity.
Qed.
Lemma aperture_rounded ny nx radius i j : (Z.of_nat ny <= 2 ^ 20)%Z -> (Z.of_nat nx <= 2 ^ 20)%Z -> (i < ny)%nat -> (j < nx)%nat ->
  fl_aperture q ny nx radius i j = true <-> dist_sq ny nx i j < radius ^ 2 /\ dist_sq ny nx i j <> flt q (radius ^ 2).
Proof.
  intros Hy Hx Hi Hj. destruct (fl_dist ny nx i j Hy Hx Hi Hj) as [E1 E2]. unfold fl_aperture, Rltb. rewrite E1. destruct (Rlt_dec _ _) as [L|L]; split; intros H; try discriminate; try reflexivity.
  - split; [|lra]. apply Rnot_le_lt. intros K. apply (ar_monotone _ _ _ _ A) in K. lra.
  - exfalso. destruct H as [H1 H2]. assert (K := ar_monotone _ _ _ _ A _ _ (Rlt_le _ _ H1)). lra.
Qed.
Lemma selected_inside ny nx radius : (Z.of_nat ny <= 2 ^ 20)%Z -> (Z.of_nat nx <= 2 ^ 20)%Z -> clear_radius q ny nx radius -> selected q ny nx radius = inside ny nx radius.
Proof.
  intros Hy Hx CR. unfold selected, inside. apply filter_ext_in. intros [i j] I. apply in_prod_iff in I. destruct I as [Ii Ij]. apply in_seq in Ii, Ij. cbn [fst snd].
  assert (W := aperture_rounded ny nx radius i j Hy Hx ltac:(lia) ltac:(lia)). destruct (Rlt_dec _ _) as [L|L].
  - apply W. split; [exact L|]. apply CR; [lia|lia|exact L].
  - apply not_true_is_false. intros K. apply W in K. lra.
Qed.
Lemma dyadic_radius ny nx (k : Z) n : (k * k <= B)%Z -> (2 * n <= 100)%nat -> clear_radius q ny nx (IZR k / 2 ^ n).
Proof.
  intros Hk Hn i j _ _ L E. assert (P2 : 0 < 2 ^ n) by (apply pow_lt; lra). replace ((IZR k / 2 ^ n) ^ 2) with (IZR (k * k) / 2 ^ (2 * n)) in * by (rewrite mult_IZR; replace (2 * n)%nat with (n + n)%nat by lia; rewrite pow_add; field; lra).
  rewrite (ar_exact _ _ _ _ A) in E by (try lia; nia). lra.
Qed.
End Aperture.

(** ** Bounds of the four trivial modes *)
Lemma disc_bound ny nx radius i j v M : 0 <= M -> (dist_sq ny nx i j <= radius ^ 2 -> Rabs v <= M) -> Rabs (disc ny nx radius i j v) <= M.
Proof. intros HM H. unfold disc. destruct (Rle_dec _ _); [apply H; assumption|rewrite Rabs_R0; exact HM]. Qed.
Lemma tilt_bound x y radius : 0 < radius -> x ^ 2 + y ^ 2 <= radius ^ 2 -> Rabs (2 * x / radius) <= 2.
Proof.
  intros HR H. assert (K : Rabs x <= radius) by (apply Rabs_le; split; nra). unfold Rdiv. rewrite !Rabs_mult, (Rabs_pos_eq 2) by lra. rewrite (Rabs_pos_eq (/ radius)) by (apply Rlt_le, Rinv_0_lt_compat, HR).
  apply (Rmult_le_reg_r radius); [exact HR|]. replace (2 * Rabs x * / radius * radius) with (2 * Rabs x) by (field; lra). lra.
Qed.
Lemma trivial_bound ny nx radius n m z : 0 < radius -> In (n, m) [(0, 0); (1, -1); (1, 1); (2, 0)]%Z -> samples_mode ny nx radius n m false z ->
  forall i j, (i < ny)%nat -> (j < nx)%nat -> Rabs (z i j) <= 2.
Proof.
  intros HR I SM i j Hi Hj. cbn [In] in I. destruct I as [I|[I|[I|[I|[]]]]]; injection I as <- <-.
  - rewrite (mode_00 _ _ _ _ HR SM) by assumption. apply disc_bound; [lra|]. intros _. rewrite Rabs_R1. lra.
  - rewrite (mode_1m _ _ _ _ HR SM) by assumption. apply disc_bound; [lra|]. unfold dist_sq. intros H. apply (tilt_bound _ (px nx j)); lra.
  - rewrite (mode_11 _ _ _ _ HR SM) by assumption. apply disc_bound; [lra|]. unfold dist_sq. intros H. apply (tilt_bound _ (py ny i)); lra.
  - rewrite (mode_20 _ _ _ _ HR SM) by assumption. apply disc_bound; [lra|]. intros H. set (s := dist_sq ny nx i j) in *.
    assert (s0 : 0 <= s) by (unfold s, dist_sq; nra). assert (R2 : 0 < radius ^ 2) by nra.
    assert (K : 0 <= s / radius ^ 2 <= 1). { split; [apply Rmult_le_pos; [exact s0|apply Rlt_le, Rinv_0_lt_compat, R2]|]. apply (Rmult_le_reg_r (radius ^ 2)); [exact R2|]. replace (s / radius ^ 2 * radius ^ 2) with s by (field; lra). lra. }
    replace (2 * s / radius ^ 2 - 1) with (2 * (s / radius ^ 2) - 1) by (field; lra). set (t := s / radius ^ 2) in *. rewrite Rabs_mult. rewrite (Rabs_pos_eq (sqrt 3)) by apply sqrt_pos.
    assert (sqrt 3 <= 2) by (rewrite <- (sqrt_square 2) by lra; apply sqrt_le_1; lra). assert (Rabs (2 * t - 1) <= 1) by (apply Rabs_le; lra). pose proof (sqrt_pos 3). pose proof (Rabs_pos (2 * t - 1)). nra.
Qed.
