(** A mixed-radix FFT is accurate (C111). *)
From Coq Require Import Reals Lra Psatz ZArith Arith List Lia.
From Coquelicot Require Import Complex.
From Verif Require Import Cx Sums DFT SimFacts FloatModel FloatSpec FlSimSpec NormFacts FftModel FftSpec.
Import ListNotations.
Open Scope R_scope.

(** ** Norms *)
Lemma rsum2_one n (f : nat -> nat -> R) : rsum2 1 n f = rsum n (f 0%nat). Proof. unfold rsum2. cbn [rsum]. rewrite Rplus_0_l. reflexivity. Qed.
Lemma norm1_eq n f : norm1 n f = sqrt (rsum n (fun j => Cmod (f j) ^ 2)).
Proof. unfold norm1, norm. rewrite rsum2_one. reflexivity. Qed.
Lemma norm1_ge_0 n f : 0 <= norm1 n f. Proof. apply norm_ge_0. Qed.
Lemma norm_transpose n m f : norm n m f = norm m n (fun j i => f i j).
Proof. unfold norm. f_equal. unfold rsum2. apply rsum_swap. Qed.
Lemma norm_rows n m f : norm n m f = norm1 n (fun i => RtoC (norm1 m (f i))).
Proof.
  rewrite norm1_eq. unfold norm. f_equal. apply rsum_ext. intros i _. rewrite Cmod_R, pow2_abs, norm1_eq, pow2_sqrt; [reflexivity|].
  apply rsum_ge_0. intros. apply pow2_ge_0.
Qed.
Lemma norm1_ext n f g : (forall i, (i < n)%nat -> f i = g i) -> norm1 n f = norm1 n g.
Proof. intros H. apply norm_ext. intros i j _ Hj. apply H, Hj. Qed.
(** Three-term bounds. *)
Lemma norm_three n m G (f g : nat -> nat -> R) c c' d : 0 <= c -> 0 <= c' -> 0 <= d -> (forall i j, 0 <= f i j) -> (forall i j, 0 <= g i j) ->
  (forall i j, (i < n)%nat -> (j < m)%nat -> Cmod (G i j) <= c * f i j + c' * g i j + d) ->
  norm n m G <= c * norm n m (fun i j => RtoC (f i j)) + c' * norm n m (fun i j => RtoC (g i j)) + sqrt (INR (n * m)) * d.
Proof.
  intros Hc Hc' Hd Hf Hg H. eapply Rle_trans.
  - apply (norm_mod n m G (fun i j => c * f i j + c' * g i j + d)); [exact H|]. intros i j. specialize (Hf i j). specialize (Hg i j). nra.
  - rewrite (norm_ext n m _ (fun i j => (RtoC (f i j) * RtoC c + RtoC (g i j) * RtoC c') + RtoC d)%C) by (intros; rewrite <- !RtoC_mult, <- !RtoC_plus; f_equal; ring).
    eapply Rle_trans; [apply minkowski|]. rewrite norm_const by exact Hd. apply Rplus_le_compat_r. eapply Rle_trans; [apply minkowski|].
    rewrite !norm_scal, !Rabs_pos_eq by assumption. lra.
Qed.
Lemma norm_Cmod n m f : norm n m (fun i j => RtoC (Cmod (f i j))) = norm n m f.
Proof. unfold norm. f_equal. apply rsum2_ext. intros. rewrite Cmod_R, pow2_abs. reflexivity. Qed.
Lemma pointwise n m G f g c c' d : 0 <= c -> 0 <= c' -> 0 <= d ->
  (forall i j, (i < n)%nat -> (j < m)%nat -> Cmod (G i j) <= c * Cmod (f i j) + c' * Cmod (g i j) + d) ->
  norm n m G <= c * norm n m f + c' * norm n m g + sqrt (INR (n * m)) * d.
Proof.
  intros Hc Hc' Hd H. rewrite <- (norm_Cmod n m f), <- (norm_Cmod n m g). apply norm_three; try assumption; intros; apply Cmod_ge_0.
Qed.
Lemma rowwise n m G f g c c' d : 0 <= c -> 0 <= c' -> 0 <= d -> (forall i, (i < n)%nat -> norm1 m (G i) <= c * norm1 m (f i) + c' * norm1 m (g i) + d) ->
  norm n m G <= c * norm n m f + c' * norm n m g + sqrt (INR n) * d.
Proof.
  intros Hc Hc' Hd H. rewrite !(norm_rows n m). replace n with (1 * n)%nat at 4 by lia. unfold norm1 at 1 3 5.
  apply (norm_three 1 n _ (fun _ i => norm1 m (f i)) (fun _ i => norm1 m (g i))); try assumption; try (intros; apply norm1_ge_0).
  intros _ i _ Hi. rewrite Cmod_R, Rabs_pos_eq by apply norm1_ge_0. apply H, Hi.
Qed.
Lemma colwise n m G f g c c' d : 0 <= c -> 0 <= c' -> 0 <= d -> (forall j, (j < m)%nat -> norm1 n (fun i => G i j) <= c * norm1 n (fun i => f i j) + c' * norm1 n (fun i => g i j) + d) ->
  norm n m G <= c * norm n m f + c' * norm n m g + sqrt (INR m) * d.
Proof. intros Hc Hc' Hd H. rewrite !(norm_transpose n m). apply rowwise; assumption. Qed.
Lemma norm1_minkowski n f g : norm1 n (fun i => f i + g i)%C <= norm1 n f + norm1 n g.
Proof. apply (minkowski 1 n (fun _ => f) (fun _ => g)). Qed.
(** The exact triangle: a bound of y - x bounds y. *)
Lemma norm1_via n f g : norm1 n g <= norm1 n f + norm1 n (fun i => g i - f i)%C.
Proof. rewrite (norm1_ext n g (fun i => f i + (g i - f i))%C) by (intros; ring). apply norm1_minkowski. Qed.

(** ** Reindexing *)
Lemma rsum_blocks m : forall r g, rsum (r * m) g = rsum r (fun q => rsum m (fun k => g (k + m * q)%nat)).
Proof.
  induction r as [|r IH]; intros g; [reflexivity|]. cbn [rsum]. replace (S r * m)%nat with (r * m + m)%nat by lia. rewrite rsum_app, IH. f_equal.
  apply rsum_ext. intros k _. f_equal. lia.
Qed.
Lemma rsum_strided m r g : rsum (r * m) g = rsum r (fun p => rsum m (fun j => g (r * j + p)%nat)).
Proof. rewrite Nat.mul_comm, rsum_blocks, rsum_swap. apply rsum_ext. intros p _. apply rsum_ext. intros j _. f_equal. lia. Qed.
Lemma csum_blocks m : forall r g, csum (r * m) g = csum r (fun q => csum m (fun k => g (k + m * q)%nat)).
Proof.
  induction r as [|r IH]; intros g; [reflexivity|]. cbn [csum]. replace (S r * m)%nat with (r * m + m)%nat by lia. rewrite csum_app, IH. f_equal.
  apply csum_ext. intros k _. f_equal. lia.
Qed.
Lemma csum_strided m r g : csum (r * m) g = csum r (fun p => csum m (fun j => g (r * j + p)%nat)).
Proof. rewrite Nat.mul_comm, csum_blocks, csum_swap. apply csum_ext. intros p _. apply csum_ext. intros j _. f_equal. lia. Qed.
Lemma norm1_blocks r m f : norm1 (r * m) f = norm r m (fun q k => f (k + m * q)%nat).
Proof. rewrite norm1_eq. unfold norm. f_equal. rewrite rsum_blocks. reflexivity. Qed.
Lemma norm1_strided r m f : norm1 (r * m) f = norm r m (fun p j => f (r * j + p)%nat).
Proof. rewrite norm1_eq. unfold norm. f_equal. rewrite rsum_strided. reflexivity. Qed.

(** ** The exact transform *)
Lemma root_mod n k : Cmod (root n k) = 1. Proof. unfold root. apply Cmod_cis. Qed.
Lemma dft_minus n f g k : (dft n f k - dft n g k = dft n (fun j => f j - g j) k)%C.
Proof.
  unfold dft. replace (csum n (fun j => f j * root n (j * k)) - csum n (fun j => g j * root n (j * k)))%C with (csum n (fun j => f j * root n (j * k)) + (- csum n (fun j => g j * root n (j * k))))%C by ring.
  rewrite <- csum_opp, <- csum_plus. apply csum_ext. intros. ring.
Qed.
Lemma dft_ifft n f k : (0 < n)%nat -> dft n f k = (ifft2 1 n (fun _ => f) 0%nat k * RtoC (INR n))%C.
Proof.
  intros Hn. unfold ifft2, csum2. cbn [csum]. replace (1 * n)%nat with n by lia. assert (RtoC (INR n) <> RtoC 0) by (apply RtoC_neq_0, INR_neq_0, Hn).
  unfold dft. rewrite (csum_ext n _ (fun v => f v * cis (2 * PI * (INR (0 * 0) / INR 1 + INR (v * k) / INR n)))%C).
  - field. assumption.
  - intros j _. unfold root. f_equal. f_equal. cbn [Nat.mul INR]. field. apply INR_neq_0, Hn.
Qed.
Lemma dft_norm n f : norm1 n (dft n f) = sqrt (INR n) * norm1 n f.
Proof.
  destruct (Nat.eq_dec n 0) as [->|Hn]; [rewrite !norm1_eq; cbn [rsum INR]; rewrite sqrt_0; ring|].
  assert (P : 0 < INR n) by (apply lt_0_INR; lia).
  assert (E := ifft2_parseval 1 n (fun _ => f)). replace (1 * n)%nat with n in E by lia. rewrite !rsum2_one in E.
  rewrite !norm1_eq, <- sqrt_mult; [|lra|apply rsum_ge_0; intros; apply pow2_ge_0]. f_equal.
  rewrite (rsum_ext n _ (fun k => INR n ^ 2 * cnorm2 (ifft2 1 n (fun _ => f) 0%nat k))).
  - rewrite rsum_scal_l. rewrite (rsum_ext n (fun j => Cmod (f j) ^ 2) (fun j => cnorm2 (f j))) by (intros; symmetry; apply cnorm2_Cmod). rewrite <- E. ring.
  - intros k _. rewrite dft_ifft by lia. rewrite Cmod_mult, Cmod_R, Rabs_pos_eq by lra. rewrite cnorm2_Cmod. ring.
Qed.
(** Cooley and Tukey. *)
Lemma dft_split r m f k q : (0 < r)%nat -> (0 < m)%nat ->
  dft (r * m) f (k + m * q) = dft r (fun p => dft m (fun j => f (r * j + p)%nat) k * root (r * m) (p * k))%C q.
Proof.
  intros Hr Hm. unfold dft. rewrite csum_strided. apply csum_ext. intros p _. rewrite <- !csum_scal_r. apply csum_ext. intros j _.
  replace (f (r * j + p)%nat * root m (j * k) * root (r * m) (p * k) * root r (p * q))%C with (f (r * j + p)%nat * (root m (j * k) * root (r * m) (p * k) * root r (p * q)))%C by ring. f_equal.
  unfold root. rewrite <- !cis_plus. assert (Pr := INR_neq_0 r Hr). assert (Pm := INR_neq_0 m Hm).
  replace (2 * PI * (INR ((r * j + p) * (k + m * q)) / INR (r * m))) with ((2 * PI * (INR (j * k) / INR m) + 2 * PI * (INR (p * k) / INR (r * m)) + 2 * PI * (INR (p * q) / INR r)) + 2 * PI * IZR (Z.of_nat (j * q))).
  - rewrite cis_plus, cis_2PI_Z. ring.
  - rewrite <- INR_IZR_INZ, !mult_INR, !plus_INR, !mult_INR. field. auto.
Qed.

(** ** One stage *)
Lemma sqrt_mul m n : sqrt (INR (m * n)) = sqrt (INR m) * sqrt (INR n).
Proof. rewrite mult_INR. apply sqrt_mult; apply pos_INR. Qed.
Lemma Cmod_sub_via x y z : Cmod (x - z)%C <= Cmod (x - y)%C + Cmod (y - z)%C.
Proof. replace (x - z)%C with ((x - y) + (y - z))%C by ring. apply Cmod_triangle. Qed.
Lemma Cmod_via x y : Cmod y <= Cmod x + Cmod (y - x)%C.
Proof. replace y with (x + (y - x))%C at 1 by ring. apply Cmod_triangle. Qed.
Lemma stage r m G b (tw : nat -> nat -> C -> C) e1 d1 e2 d2 e3 d3 f : (0 < r)%nat -> (0 < m)%nat -> 0 <= e1 -> 0 <= d1 -> 0 <= e2 -> 0 <= d2 -> 0 <= e3 -> 0 <= d3 ->
  (forall f, norm1 m (fun k => G f k - dft m f k)%C <= e1 * (sqrt (INR m) * norm1 m f) + d1) ->
  good_butterfly e2 d2 b r ->
  (forall p k z, (p < r)%nat -> (k < m)%nat -> Cmod (tw p k z - z * root (r * m) (p * k))%C <= e3 * Cmod z + d3) ->
  norm1 (r * m) (fun k => b r (fun p => tw p (k mod m)%nat (G (fun j => f (r * j + p)%nat) (k mod m)%nat)) (k / m)%nat - dft (r * m) f k)%C <=
  ((1 + e1) * (1 + e3) * (1 + e2) - 1) * (sqrt (INR (r * m)) * norm1 (r * m) f) + (sqrt (INR r) * (1 + e2) * ((1 + e3) * (sqrt (INR r) * d1) + sqrt (INR (r * m)) * d3) + sqrt (INR m) * d2).
Proof.
  intros Hr Hm E1 D1 E2 D2 E3 D3 HG HH HT. set (fp := fun p j => f (r * j + p)%nat).
  set (Y := fun p k => dft m (fp p) k). set (Yh := fun p k => G (fp p) k).
  set (Z := fun p k => (Y p k * root (r * m) (p * k))%C). set (Zh := fun p k => tw p k (Yh p k)).
  assert (NF : norm1 (r * m) f = norm r m fp) by apply norm1_strided.
  assert (Sm := sqrt_pos (INR m)). assert (Sr := sqrt_pos (INR r)).
  (* the smaller transforms *)
  assert (NY : norm r m Y = sqrt (INR m) * norm r m fp).
  { rewrite !norm_rows. rewrite (norm1_ext r _ (fun i => RtoC (norm1 m (fp i)) * RtoC (sqrt (INR m)))%C).
    - unfold norm1 at 1. rewrite norm_scal, Rabs_pos_eq by exact Sm. reflexivity.
    - intros i _. unfold Y. rewrite dft_norm, RtoC_mult. ring. }
  assert (AY : norm r m (fun p k => Yh p k - Y p k)%C <= e1 * (sqrt (INR m) * norm r m fp) + sqrt (INR r) * d1).
  { assert (Q := rowwise r m (fun p k => Yh p k - Y p k)%C fp fp (e1 * sqrt (INR m)) 0 d1 ltac:(nra) ltac:(lra) D1). rewrite Rmult_0_l, Rplus_0_r, Rmult_assoc in Q. apply Q.
    intros i _. rewrite Rmult_0_l, Rplus_0_r, Rmult_assoc. apply HG. }
  (* roots of unity *)
  assert (NZ : norm r m Z = norm r m Y).
  { unfold norm. f_equal. apply rsum2_ext. intros i j _ _. unfold Z. rewrite Cmod_mult, root_mod, Rmult_1_r. reflexivity. }
  assert (AZ : norm r m (fun p k => Zh p k - Z p k)%C <= (1 + e3) * norm r m (fun p k => Yh p k - Y p k)%C + e3 * norm r m Y + sqrt (INR (r * m)) * d3).
  { apply pointwise; try lra. intros p k Hp Hk. unfold Zh, Z. eapply Rle_trans; [apply (Cmod_sub_via _ (Yh p k * root (r * m) (p * k))%C)|].
    replace (Yh p k * root (r * m) (p * k) - Y p k * root (r * m) (p * k))%C with ((Yh p k - Y p k) * root (r * m) (p * k))%C by ring. rewrite Cmod_mult, root_mod, Rmult_1_r.
    assert (Q := HT p k (Yh p k) Hp Hk). assert (V := Cmod_via (Y p k) (Yh p k)). assert (e3 * Cmod (Yh p k) <= e3 * (Cmod (Y p k) + Cmod (Yh p k - Y p k)%C)) by (apply Rmult_le_compat_l; assumption). lra. }
  (* butterflies *)
  rewrite norm1_blocks, NF.
  rewrite (norm_ext r m _ (fun q k => b r (fun p => Zh p k) q - dft r (fun p => Z p k) q)%C).
  2:{ intros q k Hq Hk. rewrite dft_split by assumption. replace ((k + m * q) mod m)%nat with k by (rewrite Nat.mul_comm, Nat.mod_add, Nat.mod_small; lia).
      replace ((k + m * q) / m)%nat with q by (rewrite Nat.mul_comm, Nat.div_add, Nat.div_small; lia). reflexivity. }
  assert (AX : norm r m (fun q k => b r (fun p => Zh p k) q - dft r (fun p => Z p k) q)%C <= (1 + e2) * sqrt (INR r) * norm r m (fun p k => Zh p k - Z p k)%C + e2 * sqrt (INR r) * norm r m Z + sqrt (INR m) * d2).
  { apply colwise; [apply Rmult_le_pos; lra|apply Rmult_le_pos; lra|exact D2|]. intros k Hk.
    rewrite (norm1_ext r _ (fun q => (b r (fun p => Zh p k) q - dft r (fun p => Zh p k) q) + dft r (fun p => Zh p k - Z p k) q)%C) by (intros; rewrite <- dft_minus; ring).
    eapply Rle_trans; [apply norm1_minkowski|]. rewrite dft_norm. assert (Q := HH (fun p => Zh p k)). assert (V := norm1_via r (fun p => Z p k) (fun p => Zh p k)).
    assert (e2 * (sqrt (INR r) * norm1 r (fun p => Zh p k)) <= e2 * (sqrt (INR r) * (norm1 r (fun p => Z p k) + norm1 r (fun p => Zh p k - Z p k)%C))).
    { apply Rmult_le_compat_l; [exact E2|]. apply Rmult_le_compat_l; assumption. }
    lra. }
  eapply Rle_trans; [exact AX|]. rewrite NZ. rewrite sqrt_mul in *. rewrite NY in *. set (A := norm r m (fun p k => Yh p k - Y p k)%C) in *. set (Bz := norm r m (fun p k => Zh p k - Z p k)%C) in *. set (F := norm r m fp) in *.
  clearbody A Bz F. clear NF NY NZ AX HG HH HT. set (sm := sqrt (INR m)) in *. set (sr := sqrt (INR r)) in *. clearbody sm sr.
  assert (B1 : Bz <= (1 + e3) * (e1 * (sm * F) + sr * d1) + e3 * (sm * F) + sr * sm * d3).
  { eapply Rle_trans; [exact AZ|]. assert ((1 + e3) * A <= (1 + e3) * (e1 * (sm * F) + sr * d1)) by (apply Rmult_le_compat_l; lra). lra. }
  assert (B2 : (1 + e2) * sr * Bz <= (1 + e2) * sr * ((1 + e3) * (e1 * (sm * F) + sr * d1) + e3 * (sm * F) + sr * sm * d3)).
  { apply Rmult_le_compat_l; [apply Rmult_le_pos; lra|exact B1]. }
  eapply Rle_trans; [apply Rplus_le_compat_r, Rplus_le_compat_r, B2|]. right. ring.
Qed.
