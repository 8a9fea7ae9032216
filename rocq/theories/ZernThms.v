(** Zernike profiles: evaluation, orthonormality, accepted index pairs. *)
From Coq Require Import Reals Lra Psatz ZArith Arith List Bool Lia.
From Coquelicot Require Import Complex Coquelicot.
From Verif Require Import Cx Sums PyBase ProfileModel ProfSpec ProfFacts ProfFacts2 ModeFacts ModeThms ZernSpec NablaFacts ZernFacts.
Import ListNotations.
Open Scope R_scope.

(** ** The coefficient list *)
Lemma eval_low_cons c l x : eval_low (c :: l) x = c + eval_low l x * x. Proof. reflexivity. Qed.
Lemma upd_length l : forall i v, length (upd l i v) = length l.
Proof. induction l as [|c l IH]; intros [|i] v; cbn; auto. Qed.
Lemma upd_nth l : forall i v j, nth j (upd l i v) 0 = if Nat.eqb j i then (if (i <? length l)%nat then v else 0) else nth j l 0.
Proof.
  induction l as [|c l IH]; intros i v j; [cbn; destruct i, j; cbn; try reflexivity; destruct (Nat.eqb j i); reflexivity|]. destruct i as [|i], j as [|j]; cbn [upd nth Nat.eqb length]; try reflexivity. rewrite IH. destruct (Nat.eqb j i); [|reflexivity].
  change (S i <? S (length l))%nat with (i <? length l)%nat. reflexivity.
Qed.
Lemma upd_eval l : forall i v x, (i < length l)%nat -> eval_low (upd l i v) x = eval_low l x + (v - nth i l 0) * x ^ i.
Proof.
  induction l as [|c l IH]; intros i v x H; [cbn in H; lia|]. destruct i as [|i]; cbn [upd nth pow]; rewrite !eval_low_cons; [ring|]. rewrite IH by (cbn in H; lia). ring.
Qed.
Fixpoint lsumf (ks : list nat) (f : nat -> R) : R := match ks with [] => 0 | k :: r => f k + lsumf r f end.
Lemma lsumf_seq f n : forall a, lsumf (seq a n) f = rsum n (fun i => f (a + i)%nat).
Proof.
  induction n as [|n IH]; intros a; [reflexivity|]. rewrite rsum_head. cbn [seq lsumf]. rewrite IH, Nat.add_0_r. f_equal. apply rsum_ext. intros i _. f_equal. lia.
Qed.
Lemma fill_eval n mabs x ks : forall l, NoDup ks -> (forall k, In k ks -> (2 * k <= n)%nat) -> length l = S n -> (forall k, In k ks -> nth (n - 2 * k) l 0 = 0) ->
  eval_low (zern_fill (Z.of_nat n) mabs ks l) x = eval_low l x + lsumf ks (fun k => zern_entry (Z.of_nat n) mabs (Z.of_nat k) * x ^ (n - 2 * k)).
Proof.
  induction ks as [|k ks IH]; intros l ND B L Z0; [cbn [zern_fill lsumf]; ring|]. cbn [zern_fill lsumf]. inversion ND as [|? ? NI ND']; subst.
  replace (Z.to_nat (Z.of_nat n - 2 * Z.of_nat k)) with (n - 2 * k)%nat by (pose proof (B k (or_introl eq_refl)); lia).
  rewrite IH; [|exact ND'|intros; apply B; right; assumption|rewrite upd_length; exact L|].
  - rewrite upd_eval by (rewrite L; lia). rewrite (Z0 k (or_introl eq_refl)). ring.
  - intros k' Hk'. rewrite upd_nth. destruct (Nat.eqb_spec (n - 2 * k') (n - 2 * k)) as [E|E].
    + exfalso. assert (k' = k). { pose proof (B k (or_introl eq_refl)). pose proof (B k' (or_intror Hk')). lia. } subst. contradiction.
    + apply Z0. right. exact Hk'.
Qed.
Lemma eval_low_zeros n x : eval_low (repeat 0 n) x = 0.
Proof. induction n as [|n IH]; [reflexivity|]. cbn [repeat]. rewrite eval_low_cons, IH. ring. Qed.
Lemma nth_zeros n i : nth i (repeat 0 n) 0 = 0.
Proof. revert i. induction n as [|n IH]; intros [|i]; cbn; auto. Qed.
Lemma coef_eval mu s m x : Z.abs m = Z.of_nat mu -> polyval (zern_coef (Z.of_nat (mu + 2 * s)) m) x = radial (mu + 2 * s) mu x.
Proof.
  intros Hm. unfold zern_coef. rewrite Hm, polyval_rev.
  replace ((Z.of_nat (mu + 2 * s) - Z.of_nat mu) / 2 + 1)%Z with (Z.of_nat (S s)) by (replace (Z.of_nat (mu + 2 * s) - Z.of_nat mu)%Z with (Z.of_nat s * 2)%Z by lia; rewrite Z.div_mul; lia).
  rewrite Nat2Z.id. replace (Z.to_nat (Z.of_nat (mu + 2 * s) + 1)) with (S (mu + 2 * s)) by lia. rewrite fill_eval.
  - rewrite eval_low_zeros, lsumf_seq, Rplus_0_l, radial_sum. apply rsum_ext. intros k Hk. cbn [Nat.add]. replace (mu + 2 * s - 2 * k)%nat with (mu + 2 * (s - k))%nat by lia. f_equal.
    unfold zern_entry, rc. rewrite Nat2Z.id. replace (Z.to_nat (Z.of_nat (mu + 2 * s) - Z.of_nat k)) with (mu + 2 * s - k)%nat by lia.
    replace ((Z.of_nat (mu + 2 * s) + Z.of_nat mu) / 2)%Z with (Z.of_nat (mu + s)) by (replace (Z.of_nat (mu + 2 * s) + Z.of_nat mu)%Z with (Z.of_nat (mu + s) * 2)%Z by lia; rewrite Z.div_mul; lia).
    replace ((Z.of_nat (mu + 2 * s) - Z.of_nat mu) / 2)%Z with (Z.of_nat s) by (replace (Z.of_nat (mu + 2 * s) - Z.of_nat mu)%Z with (Z.of_nat s * 2)%Z by lia; rewrite Z.div_mul; lia).
    replace (Z.to_nat (Z.of_nat (mu + s) - Z.of_nat k)) with (mu + s - k)%nat by lia. replace (Z.to_nat (Z.of_nat s - Z.of_nat k)) with (s - k)%nat by lia. reflexivity.
  - apply seq_NoDup.
  - intros k Hk. apply in_seq in Hk. lia.
  - apply repeat_length.
  - intros k _. apply nth_zeros.
Qed.
Lemma zvalid_split n m : zvalid n m -> exists mu s, n = Z.of_nat (mu + 2 * s) /\ Z.abs m = Z.of_nat mu /\ Z.abs_nat m = mu /\ Z.to_nat n = (mu + 2 * s)%nat.
Proof.
  intros [H1 H2]. apply Z.even_spec in H2. destruct H2 as [q Hq]. exists (Z.abs_nat m), (Z.to_nat ((n - Z.abs m) / 2)).
  assert (E : exists t, (n - Z.abs m = t * 2)%Z). { destruct (Z.abs_spec m) as [[_ ->]|[_ ->]]; [exists q; lia|exists (q + m)%Z; lia]. }
  destruct E as [t Ht]. rewrite Ht, Z.div_mul by lia. repeat split; lia.
Qed.
Lemma radial_at_0 mu s : (0 < mu)%nat -> radial (mu + 2 * s) mu 0 = 0.
Proof. intros H. rewrite radial_sum. rewrite (rsum_ext (S s) _ (fun _ => 0)), rsum_0; [reflexivity|]. intros k _. rewrite pow_i by lia. ring. Qed.
Lemma radial_00 x : radial 0 0 x = 1.
Proof. unfold radial. cbn. field. Qed.
(** ** Evaluation *)
Lemma zern_value_mode a radius n m (nz e : bool) r phi : zvalid n m -> 0 < radius -> 0 <= r ->
  zern_value a radius n m (if nz then Some (if (m =? 0)%Z then sqrt (IZR (n + 1)) else sqrt (IZR (2 * n + 2))) else None) e (zern_coef n m) (r * cos phi) (r * sin phi) =
  if (e || if Rle_dec r radius then true else false)%bool then zmode a radius n m nz r phi else 0.
Proof.
  intros V HR Hr. unfold zern_value. destruct (zvalid_split n m V) as (mu & s & En & Em & Em' & En').
  replace ((r * cos phi) ^ 2 + (r * sin phi) ^ 2) with (r ^ 2).
  2:{ pose proof (sin2_cos2 phi) as H. unfold Rsqr in H. replace (r ^ 2) with (r ^ 2 * (sin phi * sin phi + cos phi * cos phi)) by (rewrite H; ring). ring. }
  rewrite sqrt_pow2 by exact Hr.
  assert (C1 : polyval (zern_coef n m) (r / radius) = radial (Z.to_nat n) (Z.abs_nat m) (r / radius)) by (rewrite En at 1; rewrite (coef_eval mu s m) by exact Em; rewrite En', Em'; reflexivity).
  assert (N : forall u, (match (if nz then Some (if (m =? 0)%Z then sqrt (IZR (n + 1)) else sqrt (IZR (2 * n + 2))) else None) with Some c => c * u | None => u end) = znorm n m nz * u).
  { intros u. unfold znorm. destruct nz; [|ring]. destruct (m =? 0)%Z; [rewrite plus_IZR|rewrite plus_IZR, mult_IZR]; reflexivity. }
  rewrite N. rewrite C1.
  assert (A : (if (n =? 0)%Z && (m =? 0)%Z then a else
     if (m =? 0)%Z then a * radial (Z.to_nat n) (Z.abs_nat m) (r / radius)
     else if (0 <? m)%Z then a * radial (Z.to_nat n) (Z.abs_nat m) (r / radius) * cos (IZR m * atan2 (r * sin phi) (r * cos phi))
     else a * radial (Z.to_nat n) (Z.abs_nat m) (r / radius) * sin (- IZR m * atan2 (r * sin phi) (r * cos phi))) =
     a * radial (Z.to_nat n) (Z.abs_nat m) (r / radius) * angular m phi).
  { unfold angular. destruct (Z.eqb_spec m 0) as [->|Hm].
    - destruct (Z.eqb_spec n 0) as [->|Hn]; cbn [andb]; change (0 <=? 0)%Z with true; cbn match; rewrite Rmult_0_l, cos_0; [cbn [Z.to_nat Z.abs_nat]; rewrite radial_00; ring|ring].
    - rewrite andb_false_r. assert (Hmu : (0 < mu)%nat) by lia.
      destruct (Req_EM_T r 0) as [->|Hr0].
      { replace (0 / radius) with 0 by (field; lra). rewrite En', Em', radial_at_0 by exact Hmu. destruct (0 <? m)%Z, (0 <=? m)%Z; ring. }
      assert (E : cis (atan2 (r * sin phi) (r * cos phi)) = cis phi). { destruct (polar_unique r phi (r * cos phi, r * sin phi)) as [_ H]; [lra| |exact H]. apply C_eq; cbn; ring. }
      destruct (Z.ltb_spec 0 m) as [Hp|Hp].
      + rewrite (proj2 (Z.leb_le 0 m)) by lia. pose proof (cis_eq_mult (- m) _ _ E) as F. rewrite opp_IZR, Ropp_involutive in F. injection F as F1 _. rewrite F1. reflexivity.
      + rewrite (proj2 (Z.leb_gt 0 m)) by lia. pose proof (cis_eq_mult m _ _ E) as F. injection F as _ F2. rewrite F2. replace (IZR (Z.abs m)) with (- IZR m) by (rewrite <- opp_IZR; f_equal; lia). reflexivity. }
  rewrite A. replace (znorm n m nz * (a * radial (Z.to_nat n) (Z.abs_nat m) (r / radius) * angular m phi)) with (zmode a radius n m nz r phi) by (unfold zmode; ring).
  destruct e; cbn [orb]; [reflexivity|]. destruct (Rlt_dec 1 (r / radius)) as [H|H], (Rle_dec r radius) as [G|G]; try reflexivity; exfalso.
  - apply (Rmult_lt_compat_r radius) in H; [|lra]. replace (r / radius * radius) with r in H by (field; lra). lra.
  - apply H. apply (Rmult_lt_reg_r radius); [lra|]. replace (r / radius * radius) with r by (field; lra). lra.
Qed.
Lemma zern_norm_valid n m (nz : bool) : zvalid n m -> zern_norm n m nz = Ok (if nz then Some (if (m =? 0)%Z then sqrt (IZR (n + 1)) else sqrt (IZR (2 * n + 2))) else None).
Proof.
  intros [H _]. unfold zern_norm. destruct nz; [|reflexivity]. destruct (m =? 0)%Z.
  - destruct (Z.ltb_spec (n + 1) 0); [lia|reflexivity].
  - destruct (Z.ltb_spec (2 * n + 2) 0); [lia|reflexivity].
Qed.
Lemma zern_evaluates h a radius n m (nz e : bool) : zvalid n m -> 0 < radius -> exists h1 p, zernike_new h a radius n m nz e = Ok (h1, p) /\ keeps h h1 /\ lives h1 p /\
  forall r phi, 0 <= r -> gives h1 p (r * cos phi) (r * sin phi) (RtoC (if (e || if Rle_dec r radius then true else false)%bool then zmode a radius n m nz r phi else 0)) false.
Proof.
  intros V HR. assert (E : exists h1 p, zernike_new h a radius n m nz e = Ok (h1, p) /\ getR h1 (h_next h) = a /\
     p = PZern (h_next h) radius n m (if nz then Some (if (m =? 0)%Z then sqrt (IZR (n + 1)) else sqrt (IZR (2 * n + 2))) else None) e (zern_coef n m)).
  { unfold zernike_new. pose proof V as [V1 V2]. apply Z.even_spec in V2. destruct V2 as [q Hq].
    rewrite (proj2 (Z.leb_le m n)) by lia. rewrite Hq, Z.mul_comm, Z.mod_mul by lia. cbn [negb Z.eqb]. rewrite zern_norm_valid by exact V. cbn [rbind h_alloc]. do 2 eexists. split; [reflexivity|]. split; [|reflexivity].
    unfold getR. cbn [h_val]. rewrite Nat.eqb_refl. reflexivity. }
  destruct E as (h1 & p & E & Ga & Ep). exists h1, p. destruct (create_keeps (NewZernike a radius n m nz e) h h1 p E) as [K L]. split; [exact E|]. split; [exact K|]. split; [exact L|].
  intros r phi Hr. subst p. eexists. split; [|split].
  - cbn [func]. destruct (Req_EM_T radius 0); [exfalso; lra|]. rewrite Ga, zern_value_mode by assumption. reflexivity.
  - reflexivity.
  - reflexivity.
Qed.
(** ** Angular integrals *)
Lemma ftc F f a b (v : R) : (forall x, is_derive F x (f x)) -> (forall x, ex_derive f x) -> F b - F a = v -> is_RInt f a b v.
Proof. intros D C E. rewrite <- E. apply (is_RInt_derive F f); [intros; apply D|intros; apply (ex_derive_continuous f), C]. Qed.
Lemma int_zero a b : is_RInt (fun _ => 0) a b 0.
Proof. apply (ftc (fun _ => 0)); [intros x; auto_derive; [trivial|reflexivity]|intros x; auto_derive; trivial|ring]. Qed.
Lemma int_cos k : is_RInt (fun t => cos (IZR k * t)) (- PI) PI (if (k =? 0)%Z then 2 * PI else 0).
Proof.
  destruct (Z.eqb_spec k 0) as [->|H].
  - apply (ftc (fun t => t)); [intros x; auto_derive; [trivial|rewrite Rmult_0_l, cos_0; reflexivity]|intros x; auto_derive; trivial|ring].
  - assert (Hk : IZR k <> 0) by (apply not_0_IZR, H). apply (ftc (fun t => sin (IZR k * t) / IZR k)).
    + intros x. auto_derive; [trivial|]. field. exact Hk.
    + intros x. auto_derive. trivial.
    + replace (IZR k * - PI) with (IZR (- k) * PI) by (rewrite opp_IZR; ring). rewrite (sin_eq_0_1 (IZR k * PI)), (sin_eq_0_1 (IZR (- k) * PI)) by (eexists; reflexivity). unfold Rdiv. ring.
Qed.
Lemma int_sin k : is_RInt (fun t => sin (IZR k * t)) (- PI) PI 0.
Proof.
  destruct (Z.eqb_spec k 0) as [->|H].
  - apply (is_RInt_ext (fun _ => 0)); [intros; rewrite Rmult_0_l, sin_0; reflexivity|]. apply int_zero.
  - assert (Hk : IZR k <> 0) by (apply not_0_IZR, H). apply (ftc (fun t => - cos (IZR k * t) / IZR k)).
    + intros x. auto_derive; [trivial|]. field. exact Hk.
    + intros x. auto_derive. trivial.
    + replace (IZR k * - PI) with (- (IZR k * PI)) by ring. rewrite cos_neg. unfold Rdiv. ring.
Qed.
Lemma int_half f g u v a b : is_RInt f a b u -> is_RInt g a b v -> is_RInt (fun t => (f t + g t) / 2) a b ((u + v) / 2).
Proof.
  intros F G. pose proof (is_RInt_scal _ a b (/ 2) _ (is_RInt_plus f g a b u v F G)) as S.
  apply (is_RInt_ext (fun t => scal (/ 2) (plus (f t) (g t)))); [intros; unfold scal, plus; cbn; unfold mult; cbn; unfold Rdiv; ring|].
  match type of S with is_RInt _ _ _ ?w => replace ((u + v) / 2) with w; [exact S|] end. unfold scal, plus; cbn; unfold mult; cbn; unfold Rdiv; ring.
Qed.
Lemma int_scal f (k v : R) a b : is_RInt f a b v -> is_RInt (fun t => k * f t) a b (k * v).
Proof. exact (is_RInt_scal f a b k v). Qed.
Lemma int_eq f (u v : R) a b : u = v -> is_RInt f a b u -> is_RInt f a b v.
Proof. intros ->. exact (fun H => H). Qed.
Lemma int_opp f u a b : is_RInt f a b u -> is_RInt (fun t => - f t) a b (- u).
Proof. exact (is_RInt_opp f a b u). Qed.
Ltac realeq := intros; match goal with |- @eq _ ?a ?b => change (@eq R a b) end.
Lemma int_angular m m' : is_RInt (fun t => angular m t * angular m' t) (- PI) PI (if (m =? m')%Z then (if (m =? 0)%Z then 2 * PI else PI) else 0).
Proof.
  unfold angular. destruct (Z.leb_spec 0 m) as [H|H], (Z.leb_spec 0 m') as [H'|H'].
  - apply (is_RInt_ext (fun t => (cos (IZR (m - m') * t) + cos (IZR (m + m') * t)) / 2)).
    { realeq. rewrite minus_IZR, plus_IZR. replace ((IZR m - IZR m') * x) with (IZR m * x - IZR m' * x) by ring. replace ((IZR m + IZR m') * x) with (IZR m * x + IZR m' * x) by ring. rewrite cos_minus, cos_plus. field. }
    replace (if (m =? m')%Z then _ else _) with (((if (m - m' =? 0)%Z then 2 * PI else 0) + (if (m + m' =? 0)%Z then 2 * PI else 0)) / 2).
    + apply int_half; apply int_cos.
    + destruct (Z.eqb_spec m m'), (Z.eqb_spec m 0), (Z.eqb_spec (m - m') 0), (Z.eqb_spec (m + m') 0); try lia; field.
  - rewrite (proj2 (Z.eqb_neq m m')) by lia. apply (is_RInt_ext (fun t => (sin (IZR (Z.abs m' + m) * t) + sin (IZR (Z.abs m' - m) * t)) / 2)).
    { realeq. rewrite minus_IZR, plus_IZR. replace ((IZR (Z.abs m') - IZR m) * x) with (IZR (Z.abs m') * x - IZR m * x) by ring. replace ((IZR (Z.abs m') + IZR m) * x) with (IZR (Z.abs m') * x + IZR m * x) by ring. rewrite sin_minus, sin_plus. field. }
    replace 0 with ((0 + 0) / 2) by field. apply int_half; apply int_sin.
  - rewrite (proj2 (Z.eqb_neq m m')) by lia. apply (is_RInt_ext (fun t => (sin (IZR (Z.abs m + m') * t) + sin (IZR (Z.abs m - m') * t)) / 2)).
    { realeq. rewrite minus_IZR, plus_IZR. replace ((IZR (Z.abs m) - IZR m') * x) with (IZR (Z.abs m) * x - IZR m' * x) by ring. replace ((IZR (Z.abs m) + IZR m') * x) with (IZR (Z.abs m) * x + IZR m' * x) by ring. rewrite sin_minus, sin_plus. field. }
    replace 0 with ((0 + 0) / 2) by field. apply int_half; apply int_sin.
  - apply (is_RInt_ext (fun t => (cos (IZR (Z.abs m - Z.abs m') * t) + - cos (IZR (Z.abs m + Z.abs m') * t)) / 2)).
    { realeq. rewrite minus_IZR, plus_IZR. replace ((IZR (Z.abs m) - IZR (Z.abs m')) * x) with (IZR (Z.abs m) * x - IZR (Z.abs m') * x) by ring. replace ((IZR (Z.abs m) + IZR (Z.abs m')) * x) with (IZR (Z.abs m) * x + IZR (Z.abs m') * x) by ring. rewrite cos_minus, cos_plus. field. }
    replace (if (m =? m')%Z then _ else _) with (((if (Z.abs m - Z.abs m' =? 0)%Z then 2 * PI else 0) + - (if (Z.abs m + Z.abs m' =? 0)%Z then 2 * PI else 0)) / 2).
    + apply int_half; [apply int_cos|apply int_opp, int_cos].
    + destruct (Z.eqb_spec m m'), (Z.eqb_spec m 0), (Z.eqb_spec (Z.abs m - Z.abs m') 0), (Z.eqb_spec (Z.abs m + Z.abs m') 0); try lia; field.
Qed.
(** ** Orthonormality *)
Lemma gives_fun h p x y u v k k' : gives h p x y (RtoC u) k -> gives h p x y (RtoC v) k' -> u = v.
Proof. intros [w [E [H _]]] [w' [E' [H' _]]]. rewrite E in E'. injection E' as <-. rewrite H in H'. apply RtoC_inj, H'. Qed.
Lemma zern_orthonormal h1 h2 a b radius n m n' m' e e' h1' p h2' q (Z1 Z2 : R -> R -> R) : zvalid n m -> zvalid n' m' -> 0 < radius ->
  zernike_new h1 a radius n m true e = Ok (h1', p) -> zernike_new h2 b radius n' m' true e' = Ok (h2', q) ->
  (forall x y, gives h1' p x y (RtoC (Z1 x y)) false) -> (forall x y, gives h2' q x y (RtoC (Z2 x y)) false) ->
  disc_integral (fun x y => Z1 x y * Z2 x y) radius (if ((n =? n') && (m =? m'))%Z then a * b * (PI * radius ^ 2) else 0).
Proof.
  intros V V' HR E1 E2 G1 G2. destruct (zern_evaluates h1 a radius n m true e V HR) as (h1a & pa & E1' & _ & _ & F1). destruct (zern_evaluates h2 b radius n' m' true e' V' HR) as (h2a & qa & E2' & _ & _ & F2).
  rewrite E1 in E1'. injection E1' as <- <-. rewrite E2 in E2'. injection E2' as <- <-.
  set (K := znorm n m true * znorm n' m' true * (if (m =? m')%Z then (if (m =? 0)%Z then 2 * PI else PI) else 0)).
  set (rad := fun r => radial (Z.to_nat n) (Z.abs_nat m) (r / radius) * radial (Z.to_nat n') (Z.abs_nat m') (r / radius)).
  exists (fun r => a * b * K * (rad r * r)). split.
  - intros r Hr. pose proof (int_scal _ (a * b * (znorm n m true * znorm n' m' true) * (rad r * r)) _ _ _ (int_angular m m')) as S.
    eapply int_eq; [|eapply is_RInt_ext; [|exact S]]; [cbv beta; unfold K; destruct (m =? m')%Z, (m =? 0)%Z; ring|]. intros t _. match goal with |- @eq _ ?a ?b => change (@eq R a b) end.
    pose proof (gives_fun _ _ _ _ _ _ _ _ (G1 (r * cos t) (r * sin t)) (F1 r t (proj1 Hr))) as ->. pose proof (gives_fun _ _ _ _ _ _ _ _ (G2 (r * cos t) (r * sin t)) (F2 r t (proj1 Hr))) as ->.
    destruct (Rle_dec r radius); [|lra]. rewrite !orb_true_r. unfold zmode, rad. ring.
  - destruct (zvalid_split n m V) as (mu & s & En & Em & Em' & En'). destruct (zvalid_split n' m' V') as (mu' & s' & Fn & Fm & Fm' & Fn').
    destruct (Z.eqb_spec m m') as [Hm|Hm].
    2:{ rewrite andb_false_r. apply (is_RInt_ext (fun _ => 0)); [realeq; unfold K; ring|]. apply int_zero. }
    assert (HH : mu' = mu) by (rewrite <- Em', <- Fm', Hm; reflexivity). rewrite HH in *. clear HH mu'.
    pose proof (int_radial mu s s') as I. 
    pose proof (is_RInt_comp_lin (fun x => radial (mu + 2 * s) mu x * radial (mu + 2 * s') mu x * x) (/ radius) 0 0 radius) as L.
    replace (/ radius * 0 + 0) with 0 in L by ring. replace (/ radius * radius + 0) with 1 in L by (field; lra). specialize (L _ I).
    pose proof (int_scal _ (a * b * K * radius ^ 2) _ _ _ L) as S. eapply int_eq; [|eapply is_RInt_ext; [|exact S]]; swap 1 2.
    + intros x _. match goal with |- @eq _ ?a ?b => change (@eq R a b) end. change (scal (/ radius) ?z) with (/ radius * z). unfold rad. rewrite Em', En', Fm', Fn'.
      replace (/ radius * x + 0) with (x / radius) by (field; lra). field. lra.
    + rewrite andb_true_r. destruct (Nat.eqb_spec s s') as [<-|Hs].
      * rewrite (proj2 (Z.eqb_eq n n')) by lia. unfold K. unfold znorm. rewrite <- Hm. assert (n' = n) by lia. subst n'.
        assert (Hn : IZR n = INR (mu + 2 * s)) by (rewrite En, <- INR_IZR_INZ; reflexivity). pose proof (pos_INR (mu + 2 * s)) as Hp. rewrite (plus_INR (mu + 2 * s) 1). change (INR 1) with 1. rewrite <- Hn in *.
        destruct (Z.eqb_spec m 0).
        -- rewrite <- ?En; rewrite sqrt_sqrt by lra. field. lra.
        -- rewrite <- ?En; rewrite sqrt_sqrt by lra. field. lra.
      * destruct (Z.eqb_spec n n'); [exfalso; apply Hs; lia|]. ring.
Qed.
(** ** Which index pairs are accepted *)
Lemma zern_rejects h a radius n m nz e : (n < m)%Z \/ Z.even (n - m) = false -> zernike_new h a radius n m nz e = Err ValueError.
Proof.
  intros H. unfold zernike_new. destruct (Z.leb_spec m n) as [L|L]; [|reflexivity]. cbn [negb]. destruct H as [H|H]; [lia|].
  rewrite Zmod_even, H. reflexivity.
Qed.
Lemma zern_accepts h a radius n m nz e : (exists r, zernike_new h a radius n m nz e = Ok r) <-> ((m <= n)%Z /\ Z.even (n - m) = true /\ (nz = true -> (-1 <= n)%Z)).
Proof.
  unfold zernike_new. rewrite Zmod_even. split.
  - intros [r E]. destruct (Z.leb_spec m n) as [L|L]; [|discriminate]. cbn [negb] in E. destruct (Z.even (n - m)) eqn:Ev; [|discriminate]. cbn [negb Z.eqb] in E. split; [exact L|]. split; [reflexivity|].
    intros ->. unfold zern_norm in E. destruct (m =? 0)%Z; [destruct (Z.ltb_spec (n + 1) 0)|destruct (Z.ltb_spec (2 * n + 2) 0)]; try discriminate; lia.
  - intros (L & Ev & Hn). rewrite (proj2 (Z.leb_le _ _) L), Ev. cbn [negb Z.eqb]. unfold zern_norm. destruct nz; [|cbn; eexists; reflexivity]. specialize (Hn eq_refl).
    destruct (m =? 0)%Z; [destruct (Z.ltb_spec (n + 1) 0)|destruct (Z.ltb_spec (2 * n + 2) 0)]; try lia; cbn; eexists; reflexivity.
Qed.
Lemma coef_invalid n m x : (n < Z.abs m)%Z -> polyval (zern_coef n m) x = 0.
Proof.
  intros H. unfold zern_coef. rewrite polyval_rev. replace (Z.to_nat ((n - Z.abs m) / 2 + 1)) with 0%nat; [apply eval_low_zeros|].
  assert ((n - Z.abs m) / 2 < 0)%Z by (apply Z.div_lt_upper_bound; lia). lia.
Qed.
Lemma zern_invalid_zero h a radius n m nz e h1 p : zernike_new h a radius n m nz e = Ok (h1, p) -> ~ zvalid n m -> radius <> 0 -> forall x y, gives h1 p x y (RtoC 0) false.
Proof.
  intros E NV HR x y. destruct (proj1 (zern_accepts h a radius n m nz e) (ex_intro _ _ E)) as (L & Ev & _).
  assert (Hm : (n < Z.abs m)%Z). { destruct (Z.lt_ge_cases n (Z.abs m)); [assumption|]. exfalso. apply NV. split; assumption. }
  unfold zernike_new in E. destruct (negb _); [discriminate|]. destruct (negb _); [discriminate|]. destruct (zern_norm n m nz) as [nr|]; [|discriminate]. cbn [rbind h_alloc] in E. injection E as <- <-.
  eexists. split; [cbn [func]; destruct (Req_EM_T radius 0); [contradiction|]; reflexivity|]. split; [|reflexivity]. cbn [to_c]. f_equal. unfold zern_value.
  rewrite coef_invalid by exact Hm. replace ((n =? 0)%Z && (m =? 0)%Z) with false by (symmetry; apply andb_false_iff; destruct (Z.eqb_spec n 0), (Z.eqb_spec m 0); try (left; reflexivity); try (right; reflexivity); lia).
  assert (S : forall z, z = 0 -> (match nr with Some c => c * z | None => z end) = 0) by (intros z ->; destruct nr; ring).
  destruct (m =? 0)%Z; [|destruct (0 <? m)%Z]; (rewrite S; [destruct e; [reflexivity|]; destruct (Rlt_dec _ _); reflexivity|ring]).
Qed.
Lemma zern_rim h a radius n m e h1 p phi : zvalid n m -> 0 < radius -> zernike_new h a radius n m false e = Ok (h1, p) -> gives h1 p (radius * cos phi) (radius * sin phi) (RtoC (a * angular m phi)) false.
Proof.
  intros V HR E. destruct (zern_evaluates h a radius n m false e V HR) as (h1a & pa & E' & _ & _ & F). rewrite E in E'. injection E' as <- <-. specialize (F radius phi (Rlt_le _ _ HR)).
  destruct (Rle_dec radius radius); [|lra]. rewrite orb_true_r in F. unfold zmode in F. destruct (zvalid_split n m V) as (mu & s & En & Em & Em' & En'). rewrite En', Em' in F. replace (radius / radius) with 1 in F by (field; lra). rewrite radial_one in F. unfold znorm in F. rewrite !Rmult_1_r in F. exact F.
Qed.
Lemma zern_outside h a radius n m nz h1 p r phi : zvalid n m -> 0 < radius -> zernike_new h a radius n m nz false = Ok (h1, p) -> radius < r -> gives h1 p (r * cos phi) (r * sin phi) (RtoC 0) false.
Proof.
  intros V HR E Hr. destruct (zern_evaluates h a radius n m nz false V HR) as (h1a & pa & E' & _ & _ & F). rewrite E in E'. injection E' as <- <-. assert (Hr0 : 0 <= r) by lra. specialize (F r phi Hr0).
  destruct (Rle_dec r radius); [lra|]. exact F.
Qed.
Lemma zern_invalid_accepted : ~ (forall h a radius n m nz e, ~ zvalid n m -> zernike_new h a radius n m nz e = Err ValueError).
Proof.
  intros H. specialize (H heap0 1 1 0%Z (-2)%Z true true). unfold zernike_new, zern_norm in H. cbn in H. discriminate H. intros [V _]. lia.
Qed.
Lemma disc_area radius : 0 < radius -> disc_integral (fun _ _ => 1) radius (PI * radius ^ 2).
Proof.
  intros HR. exists (fun r => 2 * PI * r). split.
  - intros r Hr. apply (ftc (fun t => r * t)); [intros x; auto_derive; [trivial|ring]|intros x; auto_derive; trivial|ring].
  - apply (ftc (fun r => PI * r ^ 2)); [intros x; auto_derive; [trivial|ring]|intros x; auto_derive; trivial|ring].
Qed.
Lemma zern_real h a radius n m nz e h1 p : radius <> 0 -> zernike_new h a radius n m nz e = Ok (h1, p) -> exists Z1 : R -> R -> R, forall x y, gives h1 p x y (RtoC (Z1 x y)) false.
Proof.
  intros HR E. unfold zernike_new in E. destruct (negb _); [discriminate|]. destruct (negb _); [discriminate|]. destruct (zern_norm n m nz) as [nr|]; [|discriminate]. cbn [rbind h_alloc] in E. injection E as <- <-.
  eexists. intros x y. eexists. split; [cbn [func]; destruct (Req_EM_T radius 0); [contradiction|]; reflexivity|]. split; reflexivity.
Qed.
Lemma C17_case : zvalid 4 2 /\ zvalid 2 2 /\ exists (h1' h2' : heap) (p q : prof), zernike_new heap0 1 1 4 2 true false = Ok (h1', p) /\ zernike_new heap0 1 1 2 2 true true = Ok (h2', q) /\
  (exists Z1 : R -> R -> R, forall x y, gives h1' p x y (RtoC (Z1 x y)) false) /\ (exists Z2 : R -> R -> R, forall x y, gives h2' q x y (RtoC (Z2 x y)) false).
Proof.
  split; [split; [lia|reflexivity]|]. split; [split; [lia|reflexivity]|].
  destruct (zern_evaluates heap0 1 1 4 2 true false) as (h1 & p & E & _); [split; [lia|reflexivity]|lra|]. destruct (zern_evaluates heap0 1 1 2 2 true true) as (h2 & q & E2 & _); [split; [lia|reflexivity]|lra|].
  exists h1, h2, p, q. split; [exact E|]. split; [exact E2|]. split; [apply (zern_real _ _ _ _ _ _ _ _ _ R1_neq_R0 E)|apply (zern_real _ _ _ _ _ _ _ _ _ R1_neq_R0 E2)].
Qed.
