(** Proofs of the beam-mode and window properties. *)
From Coq Require Import Reals Lra Psatz ZArith Arith List Bool Lia FunctionalExtensionality.
From Coquelicot Require Import Complex Coquelicot.
From Verif Require Import Cx Sums PyBase ProfileModel ProfSpec ProfFacts ProfFacts2 ModeSpec ModeFacts.
Import ListNotations.
Open Scope R_scope.

(** Parameters of a freshly constructed object. *)
Lemma params h l : forall k r, nth_error l k = Some r -> getR (fst (alloc_reals h l)) (snd (alloc_reals h l) + k)%nat = r.
Proof. intros k r H. unfold getR. cbn [snd alloc_reals]. rewrite (alloc_reals_get _ _ _ _ H). reflexivity. Qed.
Lemma params0 h l r : nth_error l 0 = Some r -> getR (fst (alloc_reals h l)) (snd (alloc_reals h l)) = r.
Proof. intros H. rewrite <- (Nat.add_0_r (snd (alloc_reals h l))). apply params. exact H. Qed.

(** ** Hermite-Gauss *)
Lemma hg_value_mode x0 y0 a w n m x y : w <> 0 -> hg_value x0 y0 a w n m x y = hg_mode x0 y0 a w n m x y.
Proof.
  intros Hw. unfold hg_value, hg_mode. rewrite !hermite_coef_eval, !hermite_hpair.
  replace (sqrt 2 * ((x - x0) / w)) with (sqrt 2 * (x - x0) / w) by (field; exact Hw). replace (sqrt 2 * ((y - y0) / w)) with (sqrt 2 * (y - y0) / w) by (field; exact Hw).
  replace (- (((x - x0) / w) ^ 2 + ((y - y0) / w) ^ 2)) with (- ((x - x0) ^ 2 + (y - y0) ^ 2) / w ^ 2) by (field; exact Hw). reflexivity.
Qed.
Lemma hg_evaluates h x0 y0 a w n m : w <> 0 -> exists h1 p, hg_new h x0 y0 a w (Z.of_nat n) (Z.of_nat m) = Ok (h1, p) /\ keeps h h1 /\ lives h1 p /\
  forall x y, gives h1 p x y (RtoC (hg_mode x0 y0 a w n m x y)) false.
Proof.
  intros Hw. destruct (hg_new h x0 y0 a w (Z.of_nat n) (Z.of_nat m)) as [[h1 p]|e] eqn:E.
  - exists h1, p. destruct (create_keeps (NewHG x0 y0 a w (Z.of_nat n) (Z.of_nat m)) h h1 p E) as [K L]. split; [reflexivity|]. split; [exact K|]. split; [exact L|].
    intros x y. unfold hg_new in E. replace (Z.of_nat n <? 0)%Z with false in E by (symmetry; apply Z.ltb_ge; lia). replace (Z.of_nat m <? 0)%Z with false in E by (symmetry; apply Z.ltb_ge; lia).
    cbn [orb] in E. pose proof (params h [x0; y0; a; w]) as P. pose proof (params0 h [x0; y0; a; w]) as P0. destruct (alloc_reals h [x0; y0; a; w]) as [h2 l]. cbn [fst snd] in P, P0.
    apply ok_pair in E. destruct E as [-> <-]. eexists. split; [|split]. 
    + cbn [func]. rewrite (P 3%nat w eq_refl), (P 2%nat a eq_refl), (P 1%nat y0 eq_refl), (P0 x0 eq_refl). destruct (Req_EM_T w 0); [contradiction|]. reflexivity.
    + cbn [to_c]. rewrite !Nat2Z.id, hg_value_mode by exact Hw. reflexivity.
    + reflexivity.
  - exfalso. unfold hg_new in E. replace (Z.of_nat n <? 0)%Z with false in E by (symmetry; apply Z.ltb_ge; lia). replace (Z.of_nat m <? 0)%Z with false in E by (symmetry; apply Z.ltb_ge; lia). discriminate.
Qed.
Lemma hg_rejects h x0 y0 a w n m : ((n < 0)%Z \/ (m < 0)%Z) -> hg_new h x0 y0 a w n m = Err ValueError.
Proof. intros H. unfold hg_new. replace ((n <? 0)%Z || (m <? 0)%Z) with true; [reflexivity|]. symmetry. apply orb_true_iff. destruct H; [left|right]; apply Z.ltb_lt; assumption. Qed.
Lemma hg_parity x0 y0 a w n m u v : w <> 0 ->
  hg_mode x0 y0 a w n m (x0 - u) (y0 + v) = (-1) ^ n * hg_mode x0 y0 a w n m (x0 + u) (y0 + v) /\
  hg_mode x0 y0 a w n m (x0 + u) (y0 - v) = (-1) ^ m * hg_mode x0 y0 a w n m (x0 + u) (y0 + v).
Proof.
  intros Hw. unfold hg_mode. split.
  - replace (sqrt 2 * (x0 - u - x0) / w) with (- (sqrt 2 * (x0 + u - x0) / w)) by (field; exact Hw). rewrite hermite_parity.
    replace ((x0 - u - x0) ^ 2) with ((x0 + u - x0) ^ 2) by ring. ring.
  - replace (sqrt 2 * (y0 - v - y0) / w) with (- (sqrt 2 * (y0 + v - y0) / w)) by (field; exact Hw). rewrite hermite_parity.
    replace ((y0 - v - y0) ^ 2) with ((y0 + v - y0) ^ 2) by ring. ring.
Qed.
(** Values of the lowest polynomials. *)
Lemma hermite_low_orders x : hermite 0 x = 1 /\ hermite 1 x = 2 * x /\ hermite 2 x = 4 * x ^ 2 - 2 /\ hermite 3 x = 8 * x ^ 3 - 12 * x.
Proof. rewrite !hermite_hpair. cbn. repeat split; ring. Qed.

(** ** Laguerre-Gauss *)
Lemma cis_eq_mult l a b : cis a = cis b -> cis (- IZR l * a) = cis (- IZR l * b).
Proof.
  intros H. assert (H1 : cis (a - b) = 1%C). { rewrite cis_minus, H. apply cis_conj_cis. }
  destruct (cis_eq_1_Z _ H1) as [z Hz]. replace (- IZR l * a) with (- IZR l * b + 2 * PI * IZR (- l * z)). 
  - apply cis_period.
  - rewrite mult_IZR, opp_IZR. replace a with (b + (a - b)) by ring. rewrite Hz. ring.
Qed.
Lemma lg_value_mode x0 y0 a w l p r phi : w <> 0 -> 0 <= r -> lg_value x0 y0 a w l p (x0 + r * cos phi) (y0 + r * sin phi) = lg_mode a w l p r phi.
Proof.
  intros Hw Hr. unfold lg_value, lg_mode. 
  replace (x0 + r * cos phi - x0) with (r * cos phi) by ring. replace (y0 + r * sin phi - y0) with (r * sin phi) by ring.
  replace ((r * cos phi) ^ 2 + (r * sin phi) ^ 2) with (r ^ 2).
  2:{ pose proof (sin2_cos2 phi) as H. unfold Rsqr in H. replace (r ^ 2) with (r ^ 2 * (sin phi * sin phi + cos phi * cos phi)) by (rewrite H; ring). ring. }
  rewrite sqrt_pow2 by exact Hr. rewrite laguerre_coef_eval, <- laguerre_lsum.
  replace (a * (sqrt 2 * r / w) ^ Z.abs_nat l * exp (- r ^ 2 / w ^ 2) * laguerre p (INR (Z.abs_nat l)) (2 * r ^ 2 / w ^ 2)) with
    (a * (sqrt 2 * r / w) ^ Z.abs_nat l * laguerre p (INR (Z.abs_nat l)) (2 * r ^ 2 / w ^ 2) * exp (- r ^ 2 / w ^ 2)) by ring.
  destruct (Req_EM_T r 0) as [->|Hr0].
  - destruct (Z.eq_dec l 0) as [->|Hl].
    + rewrite !Ropp_0, !Rmult_0_l. reflexivity.
    + replace (sqrt 2 * 0 / w) with 0 by (field; exact Hw). rewrite (pow_ne_zero (Z.abs_nat l)) by lia. rewrite !Rmult_0_r, !Rmult_0_l. apply C_eq; cbn; ring.
  - f_equal. apply cis_eq_mult. destruct (polar_unique r phi (r * cos phi, r * sin phi)) as [_ H]; [lra| |exact H]. apply C_eq; cbn; ring.
Qed.
Lemma to_polar x0 y0 x y : exists r phi, 0 <= r /\ x = x0 + r * cos phi /\ y = y0 + r * sin phi.
Proof.
  exists (sqrt ((x - x0) ^ 2 + (y - y0) ^ 2)), (atan2 (y - y0) (x - x0)). split; [apply sqrt_pos|]. rewrite atan2_cos, atan2_sin. split; ring.
Qed.
Lemma lg_evaluates h x0 y0 a w l p : w <> 0 -> exists h1 q, lg_new h x0 y0 a w l (Z.of_nat p) = Ok (h1, q) /\ keeps h h1 /\ lives h1 q /\
  forall r phi, 0 <= r -> gives h1 q (x0 + r * cos phi) (y0 + r * sin phi) (lg_mode a w l p r phi) true.
Proof.
  intros Hw. unfold lg_new. replace (Z.of_nat p <? 0)%Z with false by (symmetry; apply Z.ltb_ge; lia).
  pose proof (params h [x0; y0; a; w]) as P. pose proof (params0 h [x0; y0; a; w]) as P0.
  pose proof (alloc_reals_next [x0; y0; a; w] h) as N. pose proof (alloc_reals_old [x0; y0; a; w] h) as O.
  assert (S0 : snd (alloc_reals h [x0; y0; a; w]) = h_next h) by reflexivity.
  destruct (alloc_reals h [x0; y0; a; w]) as [h2 k]. cbn [fst snd length] in *. exists h2. eexists. split; [reflexivity|]. split; [|split].
  - intros q Hq. split; [intros i Hi; specialize (Hq i Hi); lia|]. apply func_agree. intros i Hi. symmetry. apply O. apply Hq, Hi.
  - intros i Hi. cbn [locs In] in Hi. lia.
  - intros r phi Hr. eexists. split; [|split].
    + cbn [func]. rewrite (P 3%nat w eq_refl), (P 2%nat a eq_refl), (P 1%nat y0 eq_refl), (P0 x0 eq_refl). destruct (Req_EM_T w 0); [contradiction|]. reflexivity.
    + cbn [to_c]. rewrite Nat2Z.id. apply lg_value_mode; assumption.
    + reflexivity.
Qed.
Lemma lg_rejects h x0 y0 a w l p : (p < 0)%Z -> lg_new h x0 y0 a w l p = Err ValueError.
Proof. intros H. unfold lg_new. rewrite (proj2 (Z.ltb_lt _ _) H). reflexivity. Qed.
(** Vortex: an extra angle multiplies by a phase; the modulus depends on r only. *)
Lemma lg_turn a w l p r phi t : lg_mode a w l p r (phi + t) = (lg_mode a w l p r phi * cis (- IZR l * t))%C.
Proof. unfold lg_mode. replace (- IZR l * (phi + t)) with (- IZR l * phi + - IZR l * t) by ring. rewrite cis_plus. ring. Qed.
Lemma lg_rotate h a w l p h1 q t x y : lg_new h 0 0 a w l (Z.of_nat p) = Ok (h1, q) -> w <> 0 ->
  exists z, gives h1 q x y z true /\ gives h1 (p_rotate q t) x y (z * cis (- IZR l * t))%C true.
Proof.
  intros E Hw. destruct (lg_evaluates h 0 0 a w l p Hw) as [h1' [q' [E' [_ [_ G]]]]]. rewrite E in E'. injection E' as <- <-.
  destruct (to_polar 0 0 x y) as [r [phi [Hr [-> ->]]]]. exists (lg_mode a w l p r phi). split; [apply G, Hr|].
  destruct (G r (phi + t) Hr) as [v [E2 [Hv Hk]]]. exists v. split; [|split; [|exact Hk]].
  - rewrite !Rplus_0_l in *. rewrite rotate_polar. exact E2.
  - rewrite Hv. apply lg_turn.
Qed.
Lemma lg_modulus a w l p r phi phi' : Cmod (lg_mode a w l p r phi) = Cmod (lg_mode a w l p r phi').
Proof. unfold lg_mode. rewrite !Cmod_mult, !Cmod_cis. reflexivity. Qed.
(** Special cases. *)
Lemma lg_gaussian a w r phi x0 y0 : 0 <= r -> w <> 0 ->
  lg_mode a w 0 0 r phi = RtoC (hg_mode x0 y0 a w 0 0 (x0 + r * cos phi) (y0 + r * sin phi)).
Proof.
  intros Hr Hw. unfold lg_mode, hg_mode. destruct (hermite_low_orders 0) as [_ _]. rewrite !(proj1 (hermite_low_orders _)). unfold laguerre. cbn [laguerre_pair fst Z.abs_nat pow].
  rewrite Ropp_0, Rmult_0_l, cis_0. replace (x0 + r * cos phi - x0) with (r * cos phi) by ring. replace (y0 + r * sin phi - y0) with (r * sin phi) by ring.
  replace (r * cos phi * (r * cos phi * 1) + r * sin phi * (r * sin phi * 1)) with (r * (r * 1)).
  2:{ pose proof (sin2_cos2 phi) as H. unfold Rsqr in H. replace (r * (r * 1)) with (r ^ 2 * (sin phi * sin phi + cos phi * cos phi)) by (rewrite H; ring). ring. }
  apply C_eq; cbn; ring.
Qed.
Lemma lg_first (s : bool) a w r phi x0 y0 : 0 <= r -> w <> 0 -> let l := if s then 1%Z else (-1)%Z in
  lg_mode a w l 0 r phi = ((RtoC (hg_mode x0 y0 a w 1 0 (x0 + r * cos phi) (y0 + r * sin phi)) - RtoC (IZR l) * Ci * RtoC (hg_mode x0 y0 a w 0 1 (x0 + r * cos phi) (y0 + r * sin phi))) / RtoC 2)%C.
Proof.
  intros Hr Hw l. unfold lg_mode, hg_mode. pose proof (fun x => proj1 (hermite_low_orders x)) as H0. pose proof (fun x => proj1 (proj2 (hermite_low_orders x))) as H1.
  rewrite !H0, !H1. unfold laguerre. cbn [laguerre_pair fst].
  replace (x0 + r * cos phi - x0) with (r * cos phi) by ring. replace (y0 + r * sin phi - y0) with (r * sin phi) by ring.
  replace ((r * cos phi) ^ 2 + (r * sin phi) ^ 2) with (r ^ 2).
  2:{ pose proof (sin2_cos2 phi) as H. unfold Rsqr in H. replace (r ^ 2) with (r ^ 2 * (sin phi * sin phi + cos phi * cos phi)) by (rewrite H; ring). ring. }
  destruct s; subst l; change (Z.abs_nat _) with 1%nat; cbn [INR]; rewrite pow_1; generalize (exp (- r ^ 2 / w ^ 2)); intros e; unfold cis.
  - replace (- (1) * phi) with (- phi) by ring. rewrite cos_neg, sin_neg. unfold Cdiv, Cinv. apply C_eq; cbn; field; exact Hw.
  - replace (- (-1) * phi) with phi by ring. unfold Cdiv, Cinv. apply C_eq; cbn; field; exact Hw.
Qed.
Lemma laguerre_at_0 p : laguerre p 0 0 = 1.
Proof.
  change (laguerre p 0 0) with (laguerre p (INR 0) 0). rewrite laguerre_lsum. unfold lsum. rewrite rsum_first. rewrite (rsum_ext p _ (fun _ => 0)), rsum_0.
  - unfold laguerre_c. rewrite Nat.add_0_r, Nat.sub_0_r. cbn [Nat.add pow fact]. change (INR 1) with 1. field. apply INR_fact_neq_0.
  - intros i _. cbn [pow]. ring.
Qed.
Lemma lg_centre a w l p phi : w <> 0 -> a <> 0 ->
  (l = 0%Z -> lg_mode a w l p 0 phi = RtoC a) /\ (l <> 0%Z -> lg_mode a w l p 0 phi = RtoC 0).
Proof.
  intros Hw Ha. unfold lg_mode. split; intros Hl.
  - subst l. cbn [Z.abs_nat pow INR]. replace (2 * (0 * (0 * 1)) / (w * (w * 1))) with 0 by (field; exact Hw). rewrite laguerre_at_0.
    replace (- (0 * (0 * 1)) / (w * (w * 1))) with 0 by (field; exact Hw). rewrite exp_0, Ropp_0, Rmult_0_l, cis_0. apply C_eq; cbn; ring.
  - replace (sqrt 2 * 0 / w) with 0 by (field; exact Hw). rewrite (pow_ne_zero (Z.abs_nat l)) by lia. rewrite !Rmult_0_r, !Rmult_0_l. apply C_eq; cbn; ring.
Qed.

(** ** Super-Gaussian *)
Lemma dist2_sq x0 y0 x y : dist2 x0 y0 x y ^ 2 = (x - x0) ^ 2 + (y - y0) ^ 2.
Proof. unfold dist2. rewrite <- Rsqr_pow2, Rsqr_sqrt; [reflexivity|]. pose proof (pow2_ge_0 (x - x0)). pose proof (pow2_ge_0 (y - y0)). lra. Qed.
Lemma dist2_pos x0 y0 x y : 0 <= dist2 x0 y0 x y. Proof. apply sqrt_pos. Qed.
Lemma sg_value_mode x0 y0 a w p x y : w <> 0 -> 0 < p -> sg_value x0 y0 a w p x y = Some (sg_mode a w p (dist2 x0 y0 x y)).
Proof.
  intros Hw Hp. unfold sg_value, sg_mode. replace (((x - x0) / w) ^ 2 + ((y - y0) / w) ^ 2) with (dist2 x0 y0 x y ^ 2 / w ^ 2) by (rewrite dist2_sq; field; exact Hw).
  unfold rpow. destruct (Req_EM_T p 0); [lra|]. destruct (Req_EM_T (dist2 x0 y0 x y) 0) as [H|H].
  - rewrite H. replace (0 ^ 2 / w ^ 2) with 0 by (field; exact Hw). destruct (Rlt_dec 0 0); [lra|]. destruct (Req_EM_T 0 0); [|contradiction]. destruct (Rlt_dec 0 p); [|lra].
    f_equal. rewrite Ropp_0, exp_0. ring.
  - destruct (Rlt_dec 0 (dist2 x0 y0 x y ^ 2 / w ^ 2)) as [G|G]; [reflexivity|]. exfalso. apply G. pose proof (dist2_pos x0 y0 x y).
    apply Rdiv_lt_0_compat; [apply pow_lt; lra|]. rewrite <- Rsqr_pow2. apply Rsqr_pos_lt, Hw.
Qed.
Lemma sg_evaluates h x0 y0 a w p : w <> 0 -> 0 < p -> exists h1 q, sg_new h x0 y0 a w p = (h1, q) /\ keeps h h1 /\ lives h1 q /\
  forall x y, gives h1 q x y (RtoC (sg_mode a w p (dist2 x0 y0 x y))) false.
Proof.
  intros Hw Hp. destruct (sg_new h x0 y0 a w p) as [h1 q] eqn:E. exists h1, q. 
  destruct (create_keeps (NewSG x0 y0 a w p) h h1 q) as [K L]; [cbn [create]; rewrite E; reflexivity|]. split; [reflexivity|]. split; [exact K|]. split; [exact L|].
  intros x y. unfold sg_new in E. pose proof (params h [x0; y0; a; w; p]) as P. pose proof (params0 h [x0; y0; a; w; p]) as P0. destruct (alloc_reals h [x0; y0; a; w; p]) as [h2 l]. cbn [fst snd] in P, P0.
  injection E as <- <-. eexists. split; [|split].
  - cbn [func]. rewrite (P 4%nat p eq_refl), (P 3%nat w eq_refl), (P 2%nat a eq_refl), (P 1%nat y0 eq_refl), (P0 x0 eq_refl). destruct (Req_EM_T w 0); [contradiction|].
    rewrite sg_value_mode by assumption. reflexivity.
  - reflexivity.
  - reflexivity.
Qed.
Lemma sg_peak a w p : sg_mode a w p 0 = a.
Proof. unfold sg_mode. destruct (Req_EM_T 0 0); [reflexivity|contradiction]. Qed.
Lemma sg_width a w p : w <> 0 -> sg_mode a w p (Rabs w) = a * exp (-1).
Proof.
  intros Hw. unfold sg_mode. destruct (Req_EM_T (Rabs w) 0) as [E|_]; [exfalso; apply Hw; destruct (Rcase_abs w); [rewrite Rabs_left in E by lra|rewrite Rabs_right in E by lra]; lra|].
  replace (Rabs w ^ 2 / w ^ 2) with 1 by (rewrite <- (Rsqr_pow2 (Rabs w)), <- Rsqr_abs, Rsqr_pow2; field; exact Hw). unfold Rpower. rewrite ln_1, Rmult_0_r, exp_0. reflexivity.
Qed.
Lemma sg_decreasing a w p d d' : w <> 0 -> 0 < p -> 0 <= d < d' -> a <> 0 -> 0 < sg_mode a w p d' / a < sg_mode a w p d / a /\ sg_mode a w p d / a <= 1.
Proof.
  intros Hw Hp Hd Ha. assert (Hw2 : 0 < w ^ 2) by (rewrite <- Rsqr_pow2; apply Rsqr_pos_lt, Hw).
  assert (M : forall t, 0 < t -> sg_mode a w p t / a = exp (- Rpower (t ^ 2 / w ^ 2) p)). { intros t Ht. unfold sg_mode. destruct (Req_EM_T t 0); [lra|]. field. exact Ha. }
  rewrite (M d') by lra. destruct (Req_EM_T d 0) as [->|Hd0].
  - rewrite sg_peak. replace (a / a) with 1 by (field; exact Ha). split; [split; [apply exp_pos|]|lra]. rewrite <- exp_0. apply exp_increasing. 
    assert (0 < Rpower (d' ^ 2 / w ^ 2) p) by apply exp_pos. lra.
  - rewrite (M d) by lra. split; [split; [apply exp_pos|]|].
    + apply exp_increasing. apply Ropp_lt_contravar. unfold Rpower. apply exp_increasing. apply Rmult_lt_compat_l; [exact Hp|]. apply ln_increasing; [apply Rdiv_lt_0_compat; [apply pow_lt; lra|exact Hw2]|].
      unfold Rdiv. apply Rmult_lt_compat_r; [apply Rinv_0_lt_compat, Hw2|]. simpl. nra.
    + rewrite <- exp_0. apply Rlt_le, exp_increasing. assert (0 < Rpower (d ^ 2 / w ^ 2) p) by apply exp_pos. lra.
Qed.
Lemma sg_bound a w p d : Rabs (sg_mode a w p d) <= Rabs a.
Proof.
  unfold sg_mode. destruct (Req_EM_T d 0); [lra|]. rewrite Rabs_mult. rewrite <- (Rmult_1_r (Rabs a)) at 2. apply Rmult_le_compat_l; [apply Rabs_pos|].
  rewrite Rabs_right by (apply Rle_ge, Rlt_le, exp_pos). rewrite <- exp_0. apply Rlt_le, exp_increasing. assert (0 < Rpower (d ^ 2 / w ^ 2) p) by apply exp_pos. lra.
Qed.
Lemma sg_gaussian a w x0 y0 x y : w <> 0 -> sg_mode a w 1 (dist2 x0 y0 x y) = hg_mode x0 y0 a w 0 0 x y.
Proof.
  intros Hw. assert (Hw2 : 0 < w ^ 2) by (rewrite <- Rsqr_pow2; apply Rsqr_pos_lt, Hw). unfold sg_mode, hg_mode. rewrite !(proj1 (hermite_low_orders _)). pose proof (dist2_sq x0 y0 x y) as S. pose proof (dist2_pos x0 y0 x y).
  rewrite <- S. destruct (Req_EM_T (dist2 x0 y0 x y) 0) as [E|E].
  - rewrite E. replace (- 0 ^ 2 / w ^ 2) with 0 by (field; exact Hw). rewrite exp_0. ring.
  - rewrite Rpower_1 by (apply Rdiv_lt_0_compat; [apply pow_lt; lra|exact Hw2]). replace (- dist2 x0 y0 x y ^ 2 / w ^ 2) with (- (dist2 x0 y0 x y ^ 2 / w ^ 2)) by (field; exact Hw). ring.
Qed.

(** ** Windows *)
Lemma rect_indicates h x0 y0 wx wy : exists h1 p, rect_new h x0 y0 wx wy = (h1, p) /\ keeps h h1 /\ lives h1 p /\
  indicates h1 p (fun x y => Rabs (x - x0) < wx / 2 /\ Rabs (y - y0) < wy / 2).
Proof.
  destruct (rect_new h x0 y0 wx wy) as [h1 q] eqn:E. exists h1, q.
  destruct (create_keeps (NewRect x0 y0 wx wy) h h1 q) as [K L]; [cbn [create]; rewrite E; reflexivity|]. split; [reflexivity|]. split; [exact K|]. split; [exact L|].
  intros x y. unfold rect_new in E. pose proof (params h [x0; y0; wx; wy]) as P. pose proof (params0 h [x0; y0; wx; wy]) as P0. destruct (alloc_reals h [x0; y0; wx; wy]) as [h2 l]. cbn [fst snd] in P, P0.
  injection E as <- <-. eexists. split; [eexists; split; [cbn [func]; rewrite (P 3%nat wy eq_refl), (P 2%nat wx eq_refl), (P 1%nat y0 eq_refl), (P0 x0 eq_refl); reflexivity|split; [reflexivity|reflexivity]]|].
  unfold rect_value, Rltb, ind. cbn [to_c]. destruct (Rlt_dec (Rabs (x - x0)) (wx / 2)), (Rlt_dec (Rabs (y - y0)) (wy / 2)); split; intros H; try tauto; f_equal; ring.
Qed.
Lemma circ_indicates h x0 y0 r : 0 <= r -> exists h1 p, circ_new h x0 y0 r = (h1, p) /\ keeps h h1 /\ lives h1 p /\
  indicates h1 p (fun x y => dist2 x0 y0 x y <= r).
Proof.
  intros Hr. destruct (circ_new h x0 y0 r) as [h1 q] eqn:E. exists h1, q.
  destruct (create_keeps (NewCirc x0 y0 r) h h1 q) as [K L]; [cbn [create]; rewrite E; reflexivity|]. split; [reflexivity|]. split; [exact K|]. split; [exact L|].
  intros x y. unfold circ_new in E. pose proof (params h [x0; y0; r]) as P. pose proof (params0 h [x0; y0; r]) as P0. destruct (alloc_reals h [x0; y0; r]) as [h2 l]. cbn [fst snd] in P, P0.
  injection E as <- <-. eexists. split; [eexists; split; [cbn [func]; rewrite (P 2%nat r eq_refl), (P 1%nat y0 eq_refl), (P0 x0 eq_refl); reflexivity|split; [reflexivity|reflexivity]]|].
  unfold circ_value, Rleb, ind. cbn [to_c]. rewrite <- dist2_sq. pose proof (dist2_pos x0 y0 x y) as Hd. destruct (Rle_dec (dist2 x0 y0 x y ^ 2) (r ^ 2)) as [G|G]; split; intros H; try reflexivity; exfalso.
  - apply H. apply Rsqr_incr_0; [rewrite !Rsqr_pow2; exact G|exact Hd|exact Hr].
  - apply G. rewrite <- !Rsqr_pow2. apply Rsqr_incr_1; assumption.
Qed.
Lemma indicates_inter h p q A B : indicates h p A -> indicates h q B -> (forall x y, A x y \/ ~ A x y) -> (forall x y, B x y \/ ~ B x y) ->
  exists r, p_binop Omul h p (OProf q) = (h, Ok r) /\ indicates h r (fun x y => A x y /\ B x y).
Proof.
  intros Hp Hq DA DB. exists (PBin Omul p q). split; [reflexivity|]. intros x y. destruct (Hp x y) as [a [Ga [Ha Na]]], (Hq x y) as [b [Gb [Hb Nb]]].
  exists (a * b)%C. split. { pose proof (gives_bin h Omul p q x y a false b false Ga Gb) as G. cbn [arith orb] in G. apply G. discriminate. }
  split; intros H.
  - rewrite Ha, Hb by apply H. apply C_eq; cbn; ring.
  - destruct (DA x y) as [H1|H1]; [|rewrite (Na H1); apply C_eq; cbn; ring]. destruct (DB x y) as [H2|H2]; [tauto|]. rewrite (Nb H2). apply C_eq; cbn; ring.
Qed.
Lemma indicates_square h p A : indicates h p A -> (forall x y, A x y \/ ~ A x y) -> exists r, p_binop Omul h p (OProf p) = (h, Ok r) /\ same_value h r h p.
Proof.
  intros Hp DA. exists (PBin Omul p p). split; [reflexivity|]. intros x y. destruct (Hp x y) as [a [[v [Ev [Hv Kv]]] [Ha Na]]]. cbn [func]. rewrite Ev.
  destruct v as [r|z]; [|discriminate]. cbn [to_c] in Hv. cbn. f_equal. f_equal. destruct (DA x y) as [H|H].
  - rewrite (Ha H) in Hv. apply RtoC_inj in Hv. rewrite Hv. ring.
  - rewrite (Na H) in Hv. apply RtoC_inj in Hv. rewrite Hv. ring.
Qed.
