(** The Euclidean norm of a field and relative-plus-absolute errors. *)
From Coq Require Import Reals Lra Lia.
From Coquelicot Require Import Complex.
From Verif Require Import Cx Sums DFT FlSimSpec.
Open Scope R_scope.

Lemma cauchy_schwarz ny nx a b : rsum2 ny nx (fun i j => a i j * b i j) ^ 2 <= rsum2 ny nx (fun i j => a i j ^ 2) * rsum2 ny nx (fun i j => b i j ^ 2).
Proof.
  assert (Q : forall t, 0 <= rsum2 ny nx (fun i j => a i j ^ 2) * t ^ 2 - 2 * rsum2 ny nx (fun i j => a i j * b i j) * t + rsum2 ny nx (fun i j => b i j ^ 2)).
  { intros t. replace (rsum2 ny nx (fun i j => a i j ^ 2) * t ^ 2 - 2 * rsum2 ny nx (fun i j => a i j * b i j) * t + rsum2 ny nx (fun i j => b i j ^ 2))
      with (rsum2 ny nx (fun i j => a i j ^ 2 * t ^ 2 - 2 * (a i j * b i j) * t + b i j ^ 2)).
    - apply rsum2_ge_0. intros i j _ _. replace (a i j ^ 2 * t ^ 2 - 2 * (a i j * b i j) * t + b i j ^ 2) with ((a i j * t - b i j) ^ 2) by ring. apply pow2_ge_0.
    - rewrite rsum2_plus, rsum2_minus, !rsum2_scal_r, rsum2_scal_l. reflexivity. }
  assert (QA : 0 <= rsum2 ny nx (fun i j => a i j ^ 2)) by (apply rsum2_ge_0; intros; apply pow2_ge_0).
  revert Q QA. generalize (rsum2 ny nx (fun i j => a i j ^ 2)) (rsum2 ny nx (fun i j => b i j ^ 2)) (rsum2 ny nx (fun i j => a i j * b i j)). intros A D B Q QA.
  destruct (Req_dec A 0) as [E|E].
  - subst A. destruct (Req_dec B 0) as [Z|Z]; [subst B; lra|]. specialize (Q ((D + 1) / (2 * B))). replace (0 * ((D + 1) / (2 * B)) ^ 2 - 2 * B * ((D + 1) / (2 * B)) + D) with (-1) in Q by (field; exact Z). lra.
  - specialize (Q (B / A)). assert (HA : 0 < A) by lra. replace (A * (B / A) ^ 2 - 2 * B * (B / A) + D) with ((A * D - B ^ 2) / A) in Q by (field; exact E).
    apply (Rmult_le_compat_r A) in Q; [|lra]. replace ((A * D - B ^ 2) / A * A) with (A * D - B ^ 2) in Q by (field; exact E). lra.
Qed.
Lemma norm_ge_0 ny nx f : 0 <= norm ny nx f. Proof. apply sqrt_pos. Qed.
Lemma sumsq_ge_0 ny nx (f : nat -> nat -> C) : 0 <= rsum2 ny nx (fun i j => Cmod (f i j) ^ 2).
Proof. apply rsum2_ge_0. intros. apply pow2_ge_0. Qed.
Lemma norm_sq ny nx f : norm ny nx f ^ 2 = rsum2 ny nx (fun i j => Cmod (f i j) ^ 2).
Proof. unfold norm. rewrite pow2_sqrt; [reflexivity|apply sumsq_ge_0]. Qed.
Lemma norm_le ny nx f b : 0 <= b -> rsum2 ny nx (fun i j => Cmod (f i j) ^ 2) <= b ^ 2 -> norm ny nx f <= b.
Proof. intros Hb H. unfold norm. rewrite <- (sqrt_pow2 b Hb). apply sqrt_le_1_alt, H. Qed.
Lemma norm_ext ny nx f g : (forall i j, (i < ny)%nat -> (j < nx)%nat -> f i j = g i j) -> norm ny nx f = norm ny nx g.
Proof. intros H. unfold norm. f_equal. apply rsum2_ext. intros i j Hi Hj. rewrite H by assumption. reflexivity. Qed.
Lemma norm_mod ny nx f (g : nat -> nat -> R) : (forall i j, (i < ny)%nat -> (j < nx)%nat -> Cmod (f i j) <= g i j) -> (forall i j, 0 <= g i j) -> norm ny nx f <= norm ny nx (fun i j => RtoC (g i j)).
Proof.
  intros H G. apply norm_le; [apply norm_ge_0|]. rewrite norm_sq. apply rsum2_le. intros i j Hi Hj. rewrite Cmod_R. rewrite (Rabs_pos_eq (g i j)) by apply G.
  assert (0 <= Cmod (f i j)) by apply Cmod_ge_0. specialize (H i j Hi Hj). nra.
Qed.
Lemma minkowski ny nx f g : norm ny nx (fun i j => f i j + g i j)%C <= norm ny nx f + norm ny nx g.
Proof.
  assert (Nf := norm_ge_0 ny nx f). assert (Ng := norm_ge_0 ny nx g). apply norm_le; [lra|].
  apply Rle_trans with (rsum2 ny nx (fun i j => Cmod (f i j) ^ 2 + 2 * (Cmod (f i j) * Cmod (g i j)) + Cmod (g i j) ^ 2)).
  - apply rsum2_le. intros i j _ _. assert (T := Cmod_triangle (f i j) (g i j)). assert (0 <= Cmod (f i j + g i j)%C) by apply Cmod_ge_0. nra.
  - rewrite !rsum2_plus, rsum2_scal_l. rewrite <- !norm_sq.
    assert (K := cauchy_schwarz ny nx (fun i j => Cmod (f i j)) (fun i j => Cmod (g i j))). cbv beta in K. rewrite <- !norm_sq in K.
    assert (rsum2 ny nx (fun i j => Cmod (f i j) * Cmod (g i j)) <= norm ny nx f * norm ny nx g).
    { apply Rsqr_incr_0_var; [rewrite !Rsqr_pow2, Rpow_mult_distr; exact K|nra]. }
    nra.
Qed.
Lemma norm_scal ny nx c f : norm ny nx (fun i j => f i j * RtoC c)%C = Rabs c * norm ny nx f.
Proof.
  unfold norm. rewrite <- sqrt_Rsqr_abs, <- sqrt_mult; [|apply Rle_0_sqr|apply sumsq_ge_0]. f_equal. rewrite <- rsum2_scal_l. apply rsum2_ext. intros i j _ _.
  rewrite Cmod_mult, Cmod_R. rewrite Rpow_mult_distr. rewrite <- (Rsqr_pow2 (Rabs c)), <- Rsqr_abs. ring.
Qed.
Lemma norm_const ny nx c : 0 <= c -> norm ny nx (fun _ _ => RtoC c) = sqrt (INR (ny * nx)) * c.
Proof.
  intros Hc. unfold norm. rewrite (rsum2_ext ny nx _ (fun _ _ => c ^ 2 * 1)) by (intros; rewrite Cmod_R, Rabs_pos_eq by exact Hc; ring). rewrite rsum2_scal_l.
  assert (E : rsum2 ny nx (fun _ _ => 1) = INR (ny * nx)).
  { unfold rsum2. rewrite (rsum_ext ny _ (fun _ => INR nx)); [rewrite rsum_const, mult_INR; ring|]. intros. rewrite rsum_const. ring. }
  rewrite E, Rmult_comm, sqrt_mult by (try apply pos_INR; apply pow2_ge_0). rewrite sqrt_pow2 by exact Hc. reflexivity.
Qed.

(** Nearness composes. *)
Lemma near_refl x : near 0 0 x x. Proof. unfold near. rewrite Rminus_diag_eq, Rabs_R0 by reflexivity. lra. Qed.
Lemma near_trans e1 d1 e2 d2 x y z : 0 <= e2 -> near e1 d1 x y -> near e2 d2 y z -> near ((1 + e1) * (1 + e2) - 1) (d1 * (1 + e2) + d2) x z.
Proof.
  unfold near. intros He H1 H2. assert (T : Rabs y <= Rabs x + Rabs (y - x)) by (replace y with (x + (y - x)) at 1 by ring; apply Rabs_triang).
  replace (z - x) with (z - y + (y - x)) by ring. eapply Rle_trans; [apply Rabs_triang|]. assert (e2 * Rabs y <= e2 * (Rabs x + Rabs (y - x))) by (apply Rmult_le_compat_l; assumption).
  assert (e2 * Rabs (y - x) <= e2 * (e1 * Rabs x + d1)) by (apply Rmult_le_compat_l; assumption). lra.
Qed.
Lemma near_weaken e d e' d' x y : e <= e' -> d <= d' -> near e d x y -> near e' d' x y.
Proof. unfold near. intros He Hd H. eapply Rle_trans; [exact H|]. assert (e * Rabs x <= e' * Rabs x) by (apply Rmult_le_compat_r; [apply Rabs_pos|exact He]). lra. Qed.
Lemma near_scal c e d x y : near e d x y -> near e (Rabs c * d) (c * x) (c * y).
Proof. unfold near. intros H. rewrite <- Rmult_minus_distr_l, !Rabs_mult. assert (Rabs c * Rabs (y - x) <= Rabs c * (e * Rabs x + d)) by (apply Rmult_le_compat_l; [apply Rabs_pos|exact H]). lra. Qed.
Lemma near_factor e x y z : near e 0 x y -> near e 0 (x * z) (y * z).
Proof. intros H. apply (near_scal z) in H. rewrite Rmult_0_r in H. rewrite (Rmult_comm x), (Rmult_comm y). exact H. Qed.
Lemma sqrt_sub_le x y : 0 <= x -> 0 <= y -> sqrt (x + y) <= sqrt x + sqrt y.
Proof.
  intros Hx Hy. assert (A := sqrt_pos x). assert (B := sqrt_pos y). rewrite <- (sqrt_pow2 (sqrt x + sqrt y)) by lra. apply sqrt_le_1_alt.
  assert (sqrt x ^ 2 = x) by (apply pow2_sqrt; exact Hx). assert (sqrt y ^ 2 = y) by (apply pow2_sqrt; exact Hy). nra.
Qed.
Lemma sqrt_1p e : 0 <= e -> sqrt (1 + e) <= 1 + e.
Proof. intros He. rewrite <- (sqrt_pow2 (1 + e)) at 2 by lra. apply sqrt_le_1_alt. nra. Qed.
Lemma near_sqrt e d x y : 0 <= e -> 0 <= d -> 0 <= x -> 0 <= y -> near e d x y -> near e (sqrt d) (sqrt x) (sqrt y).
Proof.
  unfold near. intros He Hd Hx Hy H. rewrite (Rabs_pos_eq x) in H by exact Hx. rewrite (Rabs_pos_eq (sqrt x)) by apply sqrt_pos.
  assert (A := sqrt_pos x). assert (B := sqrt_pos y). assert (D := sqrt_pos d). assert (U : y - x <= e * x + d) by (eapply Rle_trans; [apply Rle_abs|exact H]).
  assert (L : x - y <= e * x + d) by (rewrite <- Ropp_minus_distr; eapply Rle_trans; [apply Rle_abs|rewrite Rabs_Ropp; exact H]).
  assert (SX : sqrt x * sqrt x = x) by (apply sqrt_sqrt; exact Hx).
  apply Rabs_le. split.
  - destruct (Rle_lt_dec 1 e) as [G|G]; [nra|]. cut (sqrt x * (1 - e) <= sqrt y + sqrt d); [lra|].
    apply Rle_trans with (sqrt (x * (1 - e))).
    + rewrite sqrt_mult by lra. apply Rmult_le_compat_l; [exact A|]. assert (W := sqrt_pos (1 - e)). assert (sqrt (1 - e) * sqrt (1 - e) = 1 - e) by (apply sqrt_sqrt; lra). nra.
    + eapply Rle_trans; [|apply sqrt_sub_le; assumption]. apply sqrt_le_1_alt. lra.
  - cut (sqrt y <= sqrt x * (1 + e) + sqrt d); [lra|]. apply Rle_trans with (sqrt (x * (1 + e) + d)); [apply sqrt_le_1_alt; lra|].
    eapply Rle_trans; [apply sqrt_sub_le; [nra|exact Hd]|]. apply Rplus_le_compat_r. rewrite sqrt_mult by lra. apply Rmult_le_compat_l; [exact A|]. apply sqrt_1p, He.
Qed.
(** A field close to another has a norm close to its norm. *)
Lemma near_norm ny nx e d f g : norm ny nx (fun i j => g i j - f i j)%C <= e * norm ny nx f + d -> near e d (norm ny nx f) (norm ny nx g).
Proof.
  intros H. unfold near. rewrite (Rabs_pos_eq (norm ny nx f)) by apply norm_ge_0.
  assert (A := minkowski ny nx f (fun i j => g i j - f i j)%C). assert (B := minkowski ny nx g (fun i j => (g i j - f i j) * RtoC (-1))%C). cbv beta in A, B.
  rewrite norm_scal, (Rabs_left (-1)) in B by lra.
  rewrite (norm_ext ny nx (fun i j => f i j + (g i j - f i j))%C g) in A by (intros; ring).
  rewrite (norm_ext ny nx (fun i j => g i j + (g i j - f i j) * RtoC (-1))%C f) in B by (intros; apply injective_projections; unfold Cminus, RtoC, Cplus, Cmult, Copp; cbn [fst snd]; ring).
  apply Rabs_le. lra.
Qed.
