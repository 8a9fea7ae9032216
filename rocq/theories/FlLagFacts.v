(** Rounding errors of Laguerre-Gauss modes. *)
From Coq Require Import Reals ZArith List Bool Lia Lra Psatz.
From Coquelicot Require Import Complex.
From Verif Require Import Cx Sums PyBase ProfileModel ModeSpec ModeFacts ModeThms FloatModel FloatSpec FloatFacts FlSimSpec FlSimFacts WideSpec FlAnaModel FlAnaFacts FlAnaThms FlZernModel FlZernSpec FlZernFacts FlZernFacts2 FlZernThms FlHermModel FlHermSpec FlHermFacts FlHermThms FlSupFacts FlLagModel FlLagSpec.
Import ListNotations.
Open Scope R_scope.

Lemma sq_le a b : 0 <= b -> a ^ 2 <= b ^ 2 -> a <= b.
Proof. intros Hb H. destruct (Rle_dec a b) as [L|L]; [exact L|]. exfalso. assert (b < a) by lra. assert (b * b < a * a) by nra. lra. Qed.
Lemma sqrt_err a a' c e : 0 <= a -> 0 <= a' -> 0 <= c <= 1 -> 0 <= e -> Rabs (a' - a) <= c * a + e ^ 2 -> Rabs (sqrt a' - sqrt a) <= c * sqrt a + e.
Proof.
  intros Ha Ha' Hc He H. apply Rcomplements.Rabs_le_between in H. pose proof (sqrt_pos a) as p. pose proof (sqrt_pos a') as p'. pose proof (sqrt_sqrt a Ha) as q. pose proof (sqrt_sqrt a' Ha') as q'. set (x := sqrt a) in *. set (y := sqrt a') in *.
  assert (cx : 0 <= c * x) by (apply Rmult_le_pos; lra). assert (xe : 0 <= x * e) by (apply Rmult_le_pos; lra). assert (ye : 0 <= y * e) by (apply Rmult_le_pos; lra). assert (ca : 0 <= c * a) by (apply Rmult_le_pos; lra). assert (cca : 0 <= c * (c * a)) by (apply Rmult_le_pos; lra). assert (cxe : 0 <= c * (x * e)) by (apply Rmult_le_pos; lra).
  assert (U : y <= (1 + c) * x + e). { apply sq_le; [lra|]. replace (y ^ 2) with (y * y) by ring. replace (((1 + c) * x + e) ^ 2) with ((1 + 2 * c) * (x * x) + c * (c * (x * x)) + e ^ 2 + 2 * (x * e) + 2 * (c * (x * e))) by ring. rewrite q, q'. lra. }
  assert (V : (1 - c) * x <= y + e). { apply sq_le; [lra|]. replace (((1 - c) * x) ^ 2) with ((1 - c) * (x * x) - (1 - c) * (c * (x * x))) by ring. replace ((y + e) ^ 2) with (y * y + 2 * (y * e) + e ^ 2) by ring. rewrite q, q'. assert (0 <= (1 - c) * (c * a)) by (apply Rmult_le_pos; lra). lra. }
  apply Rabs_le. lra.
Qed.
Lemma bernoulli v k : 0 <= v -> 1 + INR k * v <= (1 + v) ^ k.
Proof. intros H. induction k as [|k IH]; [cbn; lra|]. rewrite S_INR. cbn [pow]. pose proof (pos_INR k). assert (0 <= v * (INR k * v)) by (apply Rmult_le_pos; [|apply Rmult_le_pos]; lra). assert ((1 + v) * (1 + INR k * v) <= (1 + v) * (1 + v) ^ k) by (apply Rmult_le_compat_l; lra). lra. Qed.
(** The coefficients of a Laguerre polynomial alternate in sign. *)
Lemma laguerre_abs p al x : polyval (map Rabs (laguerre_coef p al)) x = laguerre p (INR al) (- x).
Proof.
  unfold laguerre_coef. rewrite map_map, map_rev, polyval_rev. rewrite eval_low_seq. rewrite laguerre_lsum. unfold lsum. apply rsum_ext. intros i Hi. unfold laguerre_c.
  assert (P : forall n, 0 < INR (fact n)) by (intros; apply lt_0_INR, lt_O_fact). assert (Q : 0 <= INR (fact (p + al)) / (INR (fact (p - i)) * INR (fact (al + i))) / INR (fact i)). { apply Rmult_le_pos; [apply Rmult_le_pos; [apply Rlt_le, P|]|]; apply Rlt_le, Rinv_0_lt_compat; [apply Rmult_lt_0_compat; apply P|apply P]. }
  replace ((-1) ^ i * (INR (fact (p + al)) / (INR (fact (p - i)) * INR (fact (al + i)))) / INR (fact i)) with ((-1) ^ i * (INR (fact (p + al)) / (INR (fact (p - i)) * INR (fact (al + i))) / INR (fact i))) by (unfold Rdiv; ring). set (t := INR (fact (p + al)) / _ / _) in *.
  rewrite Rabs_mult, pow_1_abs, Rmult_1_l, (Rabs_pos_eq t) by exact Q. replace (- x) with (-1 * x) by ring. rewrite Rpow_mult_distr. replace ((-1) ^ i * t * ((-1) ^ i * x ^ i)) with ((-1) ^ i * (-1) ^ i * (t * x ^ i)) by ring. rewrite m1_sq. ring.
Qed.
Lemma laguerre_head p al : exists cs, laguerre_coef p al = laguerre_c p al p :: cs /\ length cs = p /\ Rabs (laguerre_c p al p) = / INR (fact p).
Proof.
  exists (map (laguerre_c p al) (rev (seq 0 p))). unfold laguerre_coef. rewrite seq_S, rev_app_distr. cbn [rev app map]. split; [reflexivity|]. split; [rewrite map_length, rev_length, seq_length; reflexivity|].
  unfold laguerre_c. rewrite Nat.sub_diag. cbn [fact]. change (INR 1) with 1. rewrite (Nat.add_comm al p). pose proof (INR_fact_neq_0 (p + al)). pose proof (INR_fact_neq_0 p). replace ((-1) ^ p * (INR (fact (p + al)) / (1 * INR (fact (p + al)))) / INR (fact p)) with ((-1) ^ p * / INR (fact p)) by (field; split; assumption).
  rewrite Rabs_mult, pow_1_abs, Rmult_1_l. apply Rabs_pos_eq. apply Rlt_le, Rinv_0_lt_compat, lt_0_INR, lt_O_fact.
Qed.

Section Lag.
Variables (u eta : R) (B : Z) (l : zlib).
Hypothesis A : arithmetic u eta B (z_rnd l).
Hypothesis Hu : 0 <= u <= 1 / 1000.
Hypothesis He : 0 <= eta <= u.
Let Hu8 : 0 <= u <= 1 / 8. Proof. lra. Qed.
Let crnd := clo_rnd u eta B l A Hu8 He.
Let cmul := clo_mul u Hu8.
Let cweak := clo_weak u Hu8.
Let g1 := gp u Hu8.
Lemma rnd0 : z_rnd l 0 = 0. Proof. pose proof (ar_odd _ _ _ _ A 0) as O. rewrite Ropp_0 in O. lra. Qed.
Lemma rnd_pos t : 0 <= t -> 0 <= z_rnd l t. Proof. intros H. rewrite <- rnd0. apply (ar_monotone _ _ _ _ A), H. Qed.
Lemma horner_clo2 j X x x' : 1 <= X -> clo u j X x x' -> forall cs cs', Forall2 (near (4 * u) 0) cs cs' -> forall p p' P k, 0 < P -> eta <= u * P -> clo u k P p p' ->
  clo u (k + (j + 2) * length cs) (fold_left (fun P c => c + P * X) (map Rabs cs) P) (fold_left (fun p c => c + p * x) cs p) (fold_left (fun p c => z_rnd l (c + z_rnd l (p * x'))) cs' p').
Proof.
  intros HX Cx cs cs' F. induction F as [|c c' cs cs' Hc F IH]; intros p p' P k HP Ep Cp.
  - cbn [length map fold_left]. rewrite Nat.mul_0_r, Nat.add_0_r. assumption.
  - cbn [length map fold_left]. assert (PX : P <= P * X) by nra. pose proof (Rabs_pos c) as c0. assert (up : u * P <= u * (P * X)) by (apply Rmult_le_compat_l; lra). assert (uc : 0 <= u * Rabs c) by (apply Rmult_le_pos; lra).
    assert (Q : clo u (S (S (k + j))) (Rabs c + P * X) (c + p * x) (z_rnd l (c' + z_rnd l (p' * x')))).
    { apply crnd; [|right; lra]. apply clo_add; [apply (cweak 1%nat _ (Rabs c)); [lia|lra|apply clo_near, Hc]|]. apply crnd; [|right; lra]. apply cmul; assumption. }
    assert (P1 : 0 < Rabs c + P * X) by lra. specialize (IH _ _ _ _ P1 ltac:(lra) Q). replace (k + (j + 2) * S (length cs))%nat with (S (S (k + j)) + (j + 2) * length cs)%nat by lia. exact IH.
Qed.
Lemma laguerre_clo j X x x' p al h : 1 <= X -> clo u j X x x' -> stored_laguerre u p al h -> eta <= u / INR (fact p) -> clo u (1 + (j + 2) * p) (laguerre p (INR al) (- X)) (laguerre p (INR al) x) (fl_polyval l h x').
Proof.
  intros HX Cx F Ef. unfold stored_laguerre in F. rewrite <- laguerre_abs. assert (E : laguerre p (INR al) x = polyval (laguerre_coef p al) x) by (rewrite laguerre_coef_eval; apply laguerre_lsum). rewrite E.
  destruct (laguerre_head p al) as (cs & E1 & Le & Ab). rewrite E1 in *. destruct h as [|c' cs']; [inversion F|]. inversion F; subst. unfold polyval. cbn [map]. unfold fl_polyval. apply horner_clo2; try assumption.
  - rewrite Ab. apply Rinv_0_lt_compat, lt_0_INR, lt_O_fact.
  - rewrite Ab. exact Ef.
  - apply clo_near. assumption.
Qed.
Lemma pow_clo j M a a' k : clo u j M a a' -> clo u (j * k) (M ^ k) (a ^ k) (a' ^ k).
Proof.
  intros C. induction k as [|k IH]; [rewrite Nat.mul_0_r; cbn [pow]; pose proof (clo_exact u 1) as K; rewrite Rabs_R1 in K; exact K|]. cbn [pow]. replace (j * S k)%nat with (j + j * k)%nat by lia. apply cmul; assumption.
Qed.
Lemma ipow_clo f v kp j M a a' k : accurate_ipow f v eta -> 0 <= v <= 4 * u * INR kp -> 1 <= M -> clo u j M a a' -> clo u (j * k + kp + 1) (M ^ k) (a ^ k) (f a' k).
Proof.
  intros F Hv HM C. pose proof (pow_clo j M a a' k C) as D. pose proof (clo_abs _ _ _ _ _ D) as Da. destruct D as [D1 D2]. split; [exact D1|]. pose proof (F a' k) as Fa. rewrite RPow_abs in Fa.
  assert (M1 : 1 <= M ^ k) by (apply pow_R1_Rle, HM). set (m := M ^ k) in *. rewrite Nat.add_1_r. cbn [pow]. rewrite pow_add. pose proof (bernoulli (4 * u) kp ltac:(lra)) as Bn. pose proof (g1 (j * k)) as G. set (g := (1 + 4 * u) ^ (j * k)) in *. set (h := (1 + 4 * u) ^ kp) in *.
  assert (vv : v * Rabs (a' ^ k) <= v * (g * m)) by (apply Rmult_le_compat_l; lra). assert (gm : 1 <= g * m) by nra. assert (vg : (1 + v) * (g * m) <= h * (g * m)) by (apply Rmult_le_compat_r; lra). assert (um : u * 1 <= u * (h * (g * m))). { apply Rmult_le_compat_l; [lra|]. assert (1 <= h) by (pose proof (pos_INR kp); assert (0 <= INR kp * (4 * u)) by (apply Rmult_le_pos; lra); lra). nra. }
  replace (f a' k - a ^ k) with ((f a' k - a' ^ k) + (a' ^ k - a ^ k)) by ring. eapply Rle_trans; [apply Rabs_triang|]. lra.
Qed.

Variables (dx dy W Q : R).
Hypothesis HW : 0 < W.
Hypothesis EW : eta <= u * W.
Hypothesis EW2 : 4 * eta <= (u * W) ^ 2.
Hypothesis HQ : 1 <= Q.
Let s := dx ^ 2 + dy ^ 2.
Hypothesis HS : s <= (Q * W) ^ 2.
Let r2' := z_rnd l (z_rnd l (dx ^ 2) + z_rnd l (dy ^ 2)).
Let w2' := z_rnd l (W ^ 2).
Let s0 : 0 <= s. Proof. unfold s. pose proof (pow2_ge_0 dx). pose proof (pow2_ge_0 dy). lra. Qed.
Lemma r2_pos : 0 <= r2'.
Proof. apply rnd_pos. pose proof (rnd_pos (dx ^ 2) (pow2_ge_0 dx)). pose proof (rnd_pos (dy ^ 2) (pow2_ge_0 dy)). lra. Qed.
Lemma r2_err : Rabs (r2' - s) <= 3 * u * s + 4 * eta.
Proof.
  pose proof (ar_error _ _ _ _ A (dx ^ 2)) as Ea. pose proof (ar_error _ _ _ _ A (dy ^ 2)) as Eb. rewrite (Rabs_pos_eq (dx ^ 2)) in Ea by apply pow2_ge_0. rewrite (Rabs_pos_eq (dy ^ 2)) in Eb by apply pow2_ge_0.
  assert (E : Rabs (z_rnd l (dx ^ 2) + z_rnd l (dy ^ 2) - s) <= u * s + 2 * eta). { unfold s. apply Rcomplements.Rabs_le_between in Ea, Eb. apply Rabs_le. lra. }
  pose proof (rnd_err u eta B (z_rnd l) A ltac:(lra) _ _ _ E) as K. fold r2' in K. rewrite (Rabs_pos_eq s) in K by exact s0. eapply Rle_trans; [exact K|]. assert (u * (u * s) <= 1 / 1000 * (u * s)) by (apply Rmult_le_compat_r; [apply Rmult_le_pos; lra|lra]). assert (u * eta <= 1 / 1000 * eta) by (apply Rmult_le_compat_r; lra). assert (0 <= u * s) by (apply Rmult_le_pos; lra). lra.
Qed.
Lemma w2_small : eta <= u * W ^ 2.
Proof. assert (0 <= W ^ 2) by apply pow2_ge_0. replace ((u * W) ^ 2) with (u * (u * W ^ 2)) in EW2 by ring. assert (u * (u * W ^ 2) <= 1 / 1000 * (u * W ^ 2)) by (apply Rmult_le_compat_r; [apply Rmult_le_pos; lra|lra]). assert (0 <= u * W ^ 2) by (apply Rmult_le_pos; lra). lra. Qed.
Lemma r2_clo : clo u 2 (Q ^ 2 * W ^ 2) s r2'.
Proof.
  pose proof r2_err as E. pose proof w2_small as Ew. assert (HS' : s <= Q ^ 2 * W ^ 2) by (replace (Q ^ 2 * W ^ 2) with ((Q * W) ^ 2) by ring; exact HS). split; [rewrite Rabs_pos_eq by exact s0; exact HS'|]. eapply Rle_trans; [exact E|].
  assert (W0 : 0 <= W ^ 2) by apply pow2_ge_0. assert (Q2 : 1 * W ^ 2 <= Q ^ 2 * W ^ 2) by (apply Rmult_le_compat_r; [exact W0|nra]). set (m := Q ^ 2 * W ^ 2) in *. assert (u * s <= u * m) by (apply Rmult_le_compat_l; lra). assert (u * W ^ 2 <= u * m) by (apply Rmult_le_compat_l; lra).
  replace ((1 + 4 * u) ^ 2 - 1) with (8 * u + 16 * (u * u)) by ring. assert (0 <= u * u * m) by (apply Rmult_le_pos; [apply Rmult_le_pos|]; lra). lra.
Qed.
Lemma r_clo : clo u 2 (Q * W) (sqrt s) (z_rnd l (sqrt r2')).
Proof.
  assert (QW : W <= Q * W) by nra. assert (RS : sqrt s <= Q * W). { rewrite <- (sqrt_pow2 (Q * W)) by lra. apply sqrt_le_1; [exact s0|apply pow2_ge_0|exact HS]. } apply crnd. 2:{ right. assert (u * W <= u * (Q * W)) by (apply Rmult_le_compat_l; lra). lra. }
  pose proof (sqrt_pos s) as Sp. split; [rewrite Rabs_pos_eq; lra|]. assert (uW : 0 <= u * W) by (apply Rmult_le_pos; lra). pose proof r2_err as E. eapply Rle_trans; [apply (sqrt_err s r2' (3 * u) (u * W) s0 r2_pos); try lra|].
  assert (u * sqrt s <= u * (Q * W)) by (apply Rmult_le_compat_l; lra). assert (u * W <= u * (Q * W)) by (apply Rmult_le_compat_l; lra). cbn [pow]. lra.
Qed.
Lemma s_clo s2 : near (4 * u) 0 (sqrt 2) s2 -> clo u 5 (sqrt 2 * Q) (sqrt 2 * sqrt s / W) (z_rnd l (z_rnd l (s2 * z_rnd l (sqrt r2')) / W)) /\ 1 <= sqrt 2 * Q.
Proof.
  intros Hs. assert (S1 : 1 <= sqrt 2) by (rewrite <- sqrt_1 at 1; apply sqrt_le_1; lra). assert (M1 : 1 <= sqrt 2 * Q) by nra. split; [|exact M1]. apply crnd; [|left; exact M1].
  apply clo_near in Hs. rewrite Rabs_pos_eq in Hs by lra. pose proof (cmul _ _ _ _ _ _ _ _ Hs r_clo) as C. cbn [Nat.add] in C.
  assert (D : clo u 4 (sqrt 2 * (Q * W)) (sqrt 2 * sqrt s) (z_rnd l (s2 * z_rnd l (sqrt r2')))). { apply crnd; [exact C|]. right. assert (u * W * 1 <= u * W * (sqrt 2 * Q)) by (apply Rmult_le_compat_l; [apply Rmult_le_pos; lra|lra]). lra. }
  assert (I : 0 < / W) by (apply Rinv_0_lt_compat, HW). assert (J : clo u 0 (/ W) (/ W) (/ W)). { apply (cweak 0%nat 0%nat (Rabs (/ W))); [lia|rewrite Rabs_pos_eq; lra|apply clo_exact]. }
  pose proof (cmul _ _ _ _ _ _ _ _ D J) as K. replace (sqrt 2 * (Q * W) * / W) with (sqrt 2 * Q) in K by (field; lra). exact K.
Qed.
Lemma inv_clo : clo u 1 (/ W ^ 2) (/ W ^ 2) (/ w2') /\ 0 < w2'.
Proof.
  assert (W0 : 0 < W ^ 2) by (apply pow_lt, HW). pose proof w2_small as Ew. pose proof (ar_error _ _ _ _ A (W ^ 2)) as E. rewrite (Rabs_pos_eq (W ^ 2)) in E by lra. fold w2' in E. set (m := W ^ 2) in *. assert (um : u * m <= 1 / 1000 * m) by (apply Rmult_le_compat_r; lra). apply Rcomplements.Rabs_le_between in E. assert (P : 0 < w2') by lra. split; [|exact P].
  assert (I : 0 < / m) by (apply Rinv_0_lt_compat, W0). assert (I' : 0 < / w2') by (apply Rinv_0_lt_compat, P). split; [rewrite Rabs_pos_eq; lra|]. replace (/ w2' - / m) with ((m - w2') * (/ w2' * / m)) by (field; lra). rewrite Rabs_mult. rewrite (Rabs_pos_eq (/ w2' * / m)) by (apply Rmult_le_pos; lra). cbn [pow].
  assert (D : Rabs (m - w2') <= 2 * u * m) by (apply Rabs_le; lra). assert (D2 : 2 * u * m <= 4 * u * w2'). { assert (u * m <= u * (2 * w2')) by (apply Rmult_le_compat_l; lra). lra. }
  apply Rle_trans with (4 * u * w2' * (/ w2' * / m)); [apply Rmult_le_compat_r; [apply Rmult_le_pos; lra|lra]|]. right. field. lra.
Qed.
Lemma t_clo : clo u 5 (2 * Q ^ 2) (2 * s / W ^ 2) (z_rnd l (z_rnd l (2 * r2') / w2')).
Proof.
  assert (Q2 : 1 <= Q ^ 2) by nra. apply crnd; [|left; lra]. assert (T : clo u 0 2 2 2) by (apply (cweak 0%nat 0%nat (Rabs 2)); [lia|rewrite Rabs_pos_eq; lra|apply clo_exact]).
  pose proof (cmul _ _ _ _ _ _ _ _ T r2_clo) as C. cbn [Nat.add] in C. pose proof w2_small as Ew. assert (W0 : 0 < W ^ 2) by (apply pow_lt, HW).
  assert (D : clo u 3 (2 * (Q ^ 2 * W ^ 2)) (2 * s) (z_rnd l (2 * r2'))). { apply crnd; [exact C|]. right. assert (u * W ^ 2 * 1 <= u * W ^ 2 * (2 * Q ^ 2)) by (apply Rmult_le_compat_l; [apply Rmult_le_pos; lra|lra]). lra. }
  pose proof (cmul _ _ _ _ _ _ _ _ D (proj1 inv_clo)) as K. replace (2 * (Q ^ 2 * W ^ 2) * / W ^ 2) with (2 * Q ^ 2) in K by (field; lra). exact K.
Qed.
Lemma e_clo : clo u 4 (Q ^ 2) (s / W ^ 2) (z_rnd l (r2' / w2')) /\ 0 <= z_rnd l (r2' / w2').
Proof.
  assert (Q2 : 1 <= Q ^ 2) by nra. destruct inv_clo as [I P]. split; [|apply rnd_pos, Rmult_le_pos; [exact r2_pos|apply Rlt_le, Rinv_0_lt_compat, P]]. apply crnd; [|left; lra].
  pose proof (cmul _ _ _ _ _ _ _ _ r2_clo I) as K. replace (Q ^ 2 * W ^ 2 * / W ^ 2) with (Q ^ 2) in K by (field; lra). exact K.
Qed.
End Lag.
