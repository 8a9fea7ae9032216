(** The radial Zernike polynomials are bounded by 1 on [0, 1].
    With c = rho, s = sqrt (1 - rho^2), u = c x + s y, v = - s x + c y the polynomial R_n^mu(rho) is the coefficient of
    x^a y^b in u^a v^b (a = (n + mu) / 2, b = (n - mu) / 2), and the rotation keeps the norm sum k! (n-k)! p_k^2. *)
From Coq Require Import Reals Lra Psatz ZArith Arith List Bool Lia.
From Verif Require Import Cx Sums PyBase ProfileModel ProfSpec ZernSpec NablaFacts ZernFacts.
Open Scope R_scope.

(** A homogeneous polynomial of degree n in x, y: [p k] is the coefficient of x^(n-k) y^k. *)
Definition prev (p : nat -> R) (k : nat) : R := match k with O => 0 | S j => p j end.
Definition mulp (al be : R) (p : nat -> R) (k : nat) : R := al * p k + be * prev p k.
Definition dirp (al be : R) (n : nat) (q : nat -> R) (k : nat) : R := al * (INR n - INR k) * q k + be * INR (S k) * q (S k).
Definition ipn (n : nat) (p q : nat -> R) : R := rsum (S n) (fun k => INR (fact k) * INR (fact (n - k)) * (p k * q k)).

Lemma ipn_adjoint al be n p q : (forall k, (n < k)%nat -> p k = 0) -> ipn (S n) (mulp al be p) q = ipn n p (dirp al be (S n) q).
Proof.
  intros Hp. unfold ipn, mulp, dirp.
  transitivity (rsum (S (S n)) (fun k => INR (fact k) * INR (fact (S n - k)) * (al * p k * q k))
              + rsum (S (S n)) (fun k => INR (fact k) * INR (fact (S n - k)) * (be * prev p k * q k))).
  { rewrite <- rsum_plus. apply rsum_ext; intros; ring. }
  rewrite (rsum_S (S n)). rewrite (Hp (S n)) by lia. rewrite (rsum_head (S n) (fun k => INR (fact k) * INR (fact (S n - k)) * (be * prev p k * q k))).
  cbn [prev].
  transitivity (rsum (S n) (fun k => INR (fact k) * INR (fact (S n - k)) * (al * p k * q k))
    + rsum (S n) (fun i => INR (fact (S i)) * INR (fact (S n - S i)) * (be * p i * q (S i)))); [ring|].
  rewrite <- rsum_plus. apply rsum_ext; intros k Hk.
  replace (S n - k)%nat with (S (n - k)) by lia. replace (S n - S k)%nat with (n - k)%nat by lia.
  rewrite !fact_simpl, !mult_INR. rewrite (S_INR (n - k)), minus_INR by lia. rewrite (S_INR n). ring.
Qed.
Lemma ipn_scal_r n p q a : ipn n p (fun k => a * q k) = a * ipn n p q.
Proof. unfold ipn. rewrite <- rsum_scal_l. apply rsum_ext; intros; ring. Qed.
Lemma ipn_ext n p q q' : (forall k, q k = q' k) -> ipn n p q = ipn n p q'.
Proof. intros H. unfold ipn. apply rsum_ext; intros. rewrite H. reflexivity. Qed.

Section Rot.
Variables c s : R.
Hypothesis unit_cs : c * c + s * s = 1.
Fixpoint vp (b : nat) : nat -> R := match b with O => fun k => match k with O => 1 | _ => 0 end | S b => mulp (- s) c (vp b) end.
Fixpoint up_ (a b : nat) : nat -> R := match a with O => vp b | S a => mulp c s (up_ a b) end.

Lemma dir_mulp_u n p k : dirp c s (S n) (mulp c s p) k = mulp c s (dirp c s n p) k + p k.
Proof.
  unfold dirp, mulp. destruct k as [|k]; cbn [prev]; rewrite ?S_INR; cbn [INR].
  - replace (p 0%nat) with ((c * c + s * s) * p 0%nat) at 4 by (rewrite unit_cs; ring). ring.
  - replace (p (S k)) with ((c * c + s * s) * p (S k)) at 5 by (rewrite unit_cs; ring). ring.
Qed.
Lemma dir_mulp_v n p k : dirp (- s) c (S n) (mulp (- s) c p) k = mulp (- s) c (dirp (- s) c n p) k + p k.
Proof.
  unfold dirp, mulp. destruct k as [|k]; cbn [prev]; rewrite ?S_INR; cbn [INR].
  - replace (p 0%nat) with ((c * c + s * s) * p 0%nat) at 4 by (rewrite unit_cs; ring). ring.
  - replace (p (S k)) with ((c * c + s * s) * p (S k)) at 5 by (rewrite unit_cs; ring). ring.
Qed.
Lemma dir_mulp_uv n p k : dirp c s (S n) (mulp (- s) c p) k = mulp (- s) c (dirp c s n p) k.
Proof. unfold dirp, mulp. destruct k as [|k]; cbn [prev]; rewrite ?S_INR; cbn [INR]; ring. Qed.
Lemma mulp_ext al be p q k : (forall j, p j = q j) -> mulp al be p k = mulp al be q k.
Proof. intros H. unfold mulp. rewrite H. destruct k; cbn [prev]; rewrite ?H; reflexivity. Qed.
Lemma dirp_ext al be n p q k : (forall j, p j = q j) -> dirp al be n p k = dirp al be n q k.
Proof. intros H. unfold dirp. rewrite !H. reflexivity. Qed.
Lemma dir_v b : forall k, dirp (- s) c b (vp b) k = INR b * (match b with O => 0 | S b' => vp b' k end).
Proof.
  induction b as [|b IH]; intros k.
  - unfold dirp. cbn. destruct k; cbn; ring.
  - cbn [vp]. rewrite dir_mulp_v. rewrite (mulp_ext _ _ _ _ k IH). rewrite S_INR. destruct b as [|b].
    + unfold mulp. destruct k; cbn; ring.
    + transitivity (INR (S b) * mulp (- s) c (vp b) k + vp (S b) k); [unfold mulp; destruct k; cbn [prev]; ring|]. cbn [vp]. ring.
Qed.
Lemma dir_uv b : forall k, dirp c s b (vp b) k = 0.
Proof.
  induction b as [|b IH]; intros k.
  - unfold dirp. cbn. destruct k; cbn; ring.
  - cbn [vp]. rewrite dir_mulp_uv. rewrite (mulp_ext _ _ _ (fun _ => 0) k IH). unfold mulp. destruct k; cbn; ring.
Qed.
Lemma dir_u a b : forall k, dirp c s (a + b) (up_ a b) k = INR a * (match a with O => 0 | S a' => up_ a' b k end).
Proof.
  induction a as [|a IH]; intros k.
  - cbn [up_ Nat.add INR]. rewrite dir_uv. ring.
  - cbn [up_ Nat.add]. rewrite dir_mulp_u. rewrite (mulp_ext _ _ _ _ k IH). rewrite S_INR. destruct a as [|a].
    + unfold mulp. destruct k; cbn; ring.
    + transitivity (INR (S a) * mulp c s (up_ a b) k + up_ (S a) b k); [unfold mulp; destruct k; cbn [prev]; ring|]. cbn [up_]. ring.
Qed.
Lemma vp_out b : forall k, (b < k)%nat -> vp b k = 0.
Proof.
  induction b as [|b IH]; intros k Hk; [destruct k; [lia|reflexivity]|]. cbn [vp]. unfold mulp. rewrite IH by lia.
  destruct k; cbn [prev]; [lia|]. rewrite IH by lia. ring.
Qed.
Lemma up_out a b : forall k, (a + b < k)%nat -> up_ a b k = 0.
Proof.
  induction a as [|a IH]; intros k Hk; [apply vp_out; exact Hk|]. cbn [up_]. unfold mulp. rewrite IH by lia.
  destruct k; cbn [prev]; [lia|]. rewrite IH by lia. ring.
Qed.
Lemma norm_v b : ipn b (vp b) (vp b) = INR (fact b).
Proof.
  induction b as [|b IH]; [unfold ipn; cbn; ring|].
  change (vp (S b)) with (mulp (- s) c (vp b)) at 1. rewrite ipn_adjoint by apply vp_out.
  rewrite (ipn_ext _ _ _ (fun k => INR (S b) * vp b k)) by (intros k; exact (dir_v (S b) k)).
  rewrite ipn_scal_r, IH, fact_simpl, mult_INR. reflexivity.
Qed.
Lemma norm_u a b : ipn (a + b) (up_ a b) (up_ a b) = INR (fact a) * INR (fact b).
Proof.
  induction a as [|a IH]; [cbn [up_ Nat.add fact INR]; rewrite norm_v; ring|].
  change (up_ (S a) b) with (mulp c s (up_ a b)) at 1. cbn [Nat.add]. rewrite ipn_adjoint by apply up_out.
  rewrite (ipn_ext _ _ _ (fun k => INR (S a) * up_ a b k)) by (intros k; exact (dir_u (S a) b k)).
  rewrite ipn_scal_r, IH, (fact_simpl a), mult_INR. ring.
Qed.
Lemma coef_bound a b : Rabs (up_ a b b) <= 1.
Proof.
  assert (H : INR (fact b) * INR (fact a) * (up_ a b b * up_ a b b) <= INR (fact a) * INR (fact b)).
  { rewrite <- (norm_u a b). unfold ipn.
    apply (Rle_trans _ (rsum (S (a + b)) (fun k => if Nat.eqb k b then INR (fact b) * INR (fact a) * (up_ a b b * up_ a b b) else 0))).
    - rewrite (rsum_single _ b) by (try lia; intros i _ Hi; apply Nat.eqb_neq in Hi; rewrite Hi; reflexivity). rewrite Nat.eqb_refl. lra.
    - apply rsum_le; intros k Hk. destruct (Nat.eqb_spec k b) as [->|_].
      + replace (a + b - b)%nat with a by lia. lra.
      + apply Rmult_le_pos; [apply Rmult_le_pos; apply pos_INR|apply Rle_0_sqr]. }
  assert (P : 0 < INR (fact a) * INR (fact b)) by (apply Rmult_lt_0_compat; apply INR_fact_lt_0).
  assert (Q : up_ a b b * up_ a b b <= 1) by (apply (Rmult_le_reg_l _ _ _ P); lra).
  apply Rabs_le. split; nra.
Qed.

(** The coefficients in closed form. *)
Definition sh (p : nat -> R) (l k : nat) : R := if Nat.leb k l then p (l - k)%nat else 0.
Lemma vp_binom b : forall j, vp b j = INR (bin b j) * (- s) ^ (b - j) * c ^ j.
Proof.
  induction b as [|b IH]; intros j; [destruct j; cbn; ring|].
  cbn [vp]. unfold mulp. rewrite IH. destruct j as [|j]; cbn [prev bin].
  - rewrite bin_0. cbn. rewrite Nat.sub_0_r. ring.
  - rewrite IH, plus_INR. replace (S b - S j)%nat with (b - j)%nat by lia.
    destruct (le_lt_dec (S j) b) as [H|H].
    + replace (b - j)%nat with (S (b - S j)) by lia. cbn [pow]. ring.
    + rewrite (bin_out b (S j)) by lia. cbn [pow INR]. ring.
Qed.
Lemma up_binom a b : forall l, up_ a b l = rsum (S a) (fun k => INR (bin a k) * c ^ (a - k) * s ^ k * sh (vp b) l k).
Proof.
  induction a as [|a IH]; intros l.
  - cbn [up_ rsum]. rewrite bin_0. unfold sh. cbn [Nat.leb]. cbn [INR Nat.sub pow]. replace (l - 0)%nat with l by lia. ring.
  - cbn [up_]. unfold mulp. rewrite IH.
    assert (E : prev (up_ a b) l = rsum (S a) (fun i => INR (bin a i) * c ^ (a - i) * s ^ i * sh (vp b) l (S i))).
    { destruct l as [|l]; cbn [prev]; [|rewrite IH]; [|apply rsum_ext; intros; reflexivity].
      transitivity (rsum (S a) (fun _ => 0)); [rewrite rsum_0; reflexivity|]. apply rsum_ext; intros. unfold sh. cbn [Nat.leb]. ring. }
    rewrite E. rewrite (rsum_head (S a)). rewrite bin_0.
    rewrite (rsum_ext (S a) (fun i => INR (bin (S a) (S i)) * c ^ (S a - S i) * s ^ S i * sh (vp b) l (S i))
       (fun i => s * (INR (bin a i) * c ^ (a - i) * s ^ i * sh (vp b) l (S i)) + INR (bin a (S i)) * c ^ (a - i) * s ^ S i * sh (vp b) l (S i))).
    2:{ intros i _. cbn [bin]. rewrite plus_INR. replace (S a - S i)%nat with (a - i)%nat by lia. cbn [pow]. ring. }
    rewrite rsum_plus, rsum_scal_l. rewrite (rsum_S a (fun i => INR (bin a (S i)) * c ^ (a - i) * s ^ S i * sh (vp b) l (S i))).
    rewrite (bin_out a (S a)) by lia. cbn [INR].
    rewrite (rsum_head a (fun k => INR (bin a k) * c ^ (a - k) * s ^ k * sh (vp b) l k)). rewrite bin_0.
    rewrite (rsum_ext a (fun i => INR (bin a (S i)) * c ^ (a - i) * s ^ S i * sh (vp b) l (S i)) (fun i => c * (INR (bin a (S i)) * c ^ (a - S i) * s ^ S i * sh (vp b) l (S i)))).
    2:{ intros i Hi. replace (a - i)%nat with (S (a - S i)) by lia. cbn [pow]. ring. }
    rewrite rsum_scal_l. rewrite !Nat.sub_0_r. cbn [pow INR]. ring.
Qed.
End Rot.

Lemma bin_sym n : forall k, (k <= n)%nat -> bin n (n - k) = bin n k.
Proof.
  intros k Hk. pose proof (bin_fact k (n - k)) as A. pose proof (bin_fact (n - k) k) as B.
  replace (k + (n - k))%nat with n in A by lia. replace (n - k + k)%nat with n in B by lia.
  pose proof (lt_O_fact k). pose proof (lt_O_fact (n - k)). assert (0 < fact k * fact (n - k))%nat by nia.
  assert (bin n (n - k) * (fact k * fact (n - k)) = bin n k * (fact k * fact (n - k)))%nat by nia. nia.
Qed.
Lemma bin_INR n k : (k <= n)%nat -> INR (bin n k) = INR (fact n) / (INR (fact k) * INR (fact (n - k))).
Proof.
  intros Hk. pose proof (bin_fact k (n - k)) as A. replace (k + (n - k))%nat with n in A by lia.
  rewrite <- A, !mult_INR. field. split; apply INR_fact_neq_0.
Qed.
Lemma bin_trinomial b k i : (i <= k)%nat -> (k <= b)%nat -> INR (bin b k) * INR (bin k i) = INR (bin b i) * INR (bin (b - i) (k - i)).
Proof.
  intros H1 H2. rewrite !bin_INR by lia. replace (b - i - (k - i))%nat with (b - k)%nat by lia.
  field. repeat split; apply INR_fact_neq_0.
Qed.
Lemma vandermonde a : forall d n, INR (bin (a + d) n) = rsum (S n) (fun k => INR (bin a k) * INR (bin d (n - k))).
Proof.
  induction a as [|a IH]; intros d n.
  - rewrite rsum_head. rewrite (rsum_ext n _ (fun _ => 0)) by (intros; cbn; ring). rewrite rsum_0. rewrite Nat.sub_0_r. cbn. ring.
  - destruct n as [|n].
    + cbn [rsum]. rewrite !bin_0. cbn. ring.
    + change (bin (S a + d) (S n)) with (bin (a + d) n + bin (a + d) (S n))%nat. rewrite plus_INR, !IH. rewrite (rsum_head (S n) (fun k => INR (bin a k) * INR (bin d (S n - k)))). rewrite (rsum_head (S n) (fun k => INR (bin (S a) k) * INR (bin d (S n - k)))).
      rewrite !bin_0. cbn [bin].
      rewrite (rsum_ext (S n) (fun i => INR (bin a i + bin a (S i)) * INR (bin d (S n - S i)))
        (fun i => INR (bin a i) * INR (bin d (n - i)) + INR (bin a (S i)) * INR (bin d (S n - S i)))).
      2:{ intros i _. rewrite plus_INR. replace (S n - S i)%nat with (n - i)%nat by lia. ring. }
      rewrite rsum_plus. ring.
Qed.
Lemma binom_one_minus t k : (1 - t) ^ k = rsum (S k) (fun i => INR (bin k i) * (- t) ^ (k - i)).
Proof.
  induction k as [|k IH]; [cbn; ring|].
  cbn [pow]. rewrite IH. rewrite (rsum_head (S k)). rewrite bin_0.
  rewrite (rsum_ext (S k) (fun i => INR (bin (S k) (S i)) * (- t) ^ (S k - S i))
     (fun i => INR (bin k i) * (- t) ^ (k - i) + INR (bin k (S i)) * (- t) ^ (k - i))).
  2:{ intros i _. cbn [bin]. rewrite plus_INR. replace (S k - S i)%nat with (k - i)%nat by lia. ring. }
  rewrite rsum_plus. rewrite (rsum_S k (fun i => INR (bin k (S i)) * (- t) ^ (k - i))). rewrite (bin_out k (S k)) by lia.
  rewrite (rsum_ext k (fun i => INR (bin k (S i)) * (- t) ^ (k - i)) (fun i => (- t) * (INR (bin k (S i)) * (- t) ^ (k - S i)))).
  2:{ intros i Hi. replace (k - i)%nat with (S (k - S i)) by lia. cbn [pow]. ring. }
  rewrite rsum_scal_l.
  assert (E : rsum (S k) (fun i => INR (bin k i) * (- t) ^ (k - i)) = (- t) ^ k + rsum k (fun i => INR (bin k (S i)) * (- t) ^ (k - S i))).
  { rewrite rsum_head, bin_0, Nat.sub_0_r. cbn [INR]. ring. }
  rewrite E at 1. cbn [INR]. rewrite Nat.sub_0_r. cbn [pow]. rewrite E. ring.
Qed.

Lemma pow_sqr_s c s k : c * c + s * s = 1 -> s ^ k * (- s) ^ k = (-1) ^ k * (1 - c ^ 2) ^ k.
Proof.
  intros H. rewrite <- !Rpow_mult_distr. f_equal. cbn [pow]. replace (s * - s) with (- (s * s)) by ring. replace (s * s) with (1 - c * c) by lra. ring.
Qed.
Lemma neg1_pow_double k i : (i <= k)%nat -> (-1) ^ k * (-1) ^ (k - i) = (-1) ^ i.
Proof.
  intros H. rewrite <- pow_add. replace (k + (k - i))%nat with (i + 2 * (k - i))%nat by lia. rewrite pow_add.
  replace ((-1) ^ (2 * (k - i))) with 1; [ring|]. rewrite pow_mult. replace ((-1) ^ 2) with 1 by ring. rewrite pow1. reflexivity.
Qed.
Lemma radial_is_coef c s mu b : c * c + s * s = 1 -> radial (mu + 2 * b) mu c = up_ c s (mu + b) b b.
Proof.
  intros H. rewrite up_binom, radial_sum. set (a := (mu + b)%nat).
  (* the sum over k stops at b *)
  transitivity (rsum (S b) (fun k => INR (bin a k) * INR (bin b k) * (c ^ (a - k) * c ^ (b - k)) * ((-1) ^ k * (1 - c ^ 2) ^ k))).
  - (* expand and exchange *)
    transitivity (rsum (S b) (fun k => rsum (S b) (fun i => if Nat.leb i k then (-1) ^ i * (INR (bin a k) * (INR (bin b i) * INR (bin (b - i) (b - k)))) * c ^ (mu + 2 * (b - i)) else 0))).
    + rewrite rsum_swap. apply rsum_ext; intros i Hi.
      transitivity ((-1) ^ i * INR (bin b i) * c ^ (mu + 2 * (b - i)) * rsum (S b) (fun k => INR (bin a k) * INR (bin (b - i) (b - k)))).
      * rewrite <- vandermonde. unfold rc. fold a. rewrite !bin_INR by (subst a; lia).
        replace (a + (b - i) - b)%nat with (a - i)%nat by (subst a; lia). replace (mu + 2 * b - i)%nat with (a + (b - i))%nat by (subst a; lia).
        field. repeat split; apply INR_fact_neq_0.
      * rewrite <- rsum_scal_l. apply rsum_ext; intros k Hk. destruct (Nat.leb_spec i k) as [L|L]; [ring|].
        rewrite (bin_out (b - i) (b - k)) by lia. cbn [INR]. ring.
    + apply rsum_ext; intros k Hk. rewrite binom_one_minus.
      replace (S b) with (S k + (b - k))%nat by lia. rewrite rsum_app.
      rewrite (rsum_ext (b - k) _ (fun _ => 0)).
      2:{ intros i Hi. destruct (Nat.leb_spec (S k + i) k) as [L|L]; [lia|reflexivity]. }
      rewrite rsum_0, Rplus_0_r, <- !rsum_scal_l. apply rsum_ext; intros i Hi.
      destruct (Nat.leb_spec i k) as [L|L]; [|lia].
      rewrite <- (bin_sym (b - i) (b - k)) by lia. replace (b - i - (b - k))%nat with (k - i)%nat by lia.
      rewrite <- bin_trinomial by lia. rewrite <- (neg1_pow_double k i L).
      replace (- c ^ 2) with ((-1) * c ^ 2) by ring. rewrite Rpow_mult_distr.
      replace (c ^ (mu + 2 * (b - i))) with (c ^ (a - k) * c ^ (b - k) * (c ^ 2) ^ (k - i)).
      2:{ rewrite <- pow_mult, <- !pow_add. f_equal. subst a. lia. }
      ring.
  - symmetry. replace (S a) with (S b + mu)%nat by (subst a; lia). rewrite rsum_app.
    rewrite (rsum_ext mu _ (fun _ => 0)).
    2:{ intros i Hi. unfold sh. destruct (Nat.leb_spec (S b + i) b) as [L|L]; [lia|ring]. }
    rewrite rsum_0, Rplus_0_r. apply rsum_ext; intros k Hk. unfold sh. destruct (Nat.leb_spec k b) as [L|L]; [|lia].
    rewrite vp_binom. rewrite bin_sym by lia. replace (b - (b - k))%nat with k by lia.
    rewrite <- (pow_sqr_s c s k H). ring.
Qed.
Lemma radial_bound mu b rho : 0 <= rho <= 1 -> Rabs (radial (mu + 2 * b) mu rho) <= 1.
Proof.
  intros H. set (s := sqrt (1 - rho * rho)).
  assert (E : rho * rho + s * s = 1) by (unfold s; rewrite sqrt_sqrt by nra; ring).
  rewrite (radial_is_coef rho s mu b E). apply coef_bound. exact E.
Qed.
