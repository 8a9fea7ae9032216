(** Overlap integrals of Hermite-Gauss and Laguerre-Gauss modes. *)
From Coq Require Import Reals Lra ZArith Arith List Bool Lia.
From Coquelicot Require Import Complex Coquelicot.
From Verif Require Import Cx Sums PyBase ProfileModel ProfSpec ProfFacts ModeSpec ModeFacts ModeThms ZernThms PlaneSpec GaussInt.
From Verif Require LagInt ErfInt.
Open Scope R_scope.

(** ** Laguerre-Gauss *)
Definition lrad (a w : R) (l : Z) (p : nat) (r : R) : R :=
  a * (sqrt 2 * r / w) ^ Z.abs_nat l * laguerre p (INR (Z.abs_nat l)) (2 * r ^ 2 / w ^ 2) * exp (- r ^ 2 / w ^ 2).
Lemma lg_product a b w l l' p q r phi :
  (lg_mode a w l p r phi * cconj (lg_mode b w l' q r phi))%C =
  (lrad a w l p r * lrad b w l' q r * cos (IZR (l - l') * phi), - (lrad a w l p r * lrad b w l' q r * sin (IZR (l - l') * phi))).
Proof.
  unfold lg_mode. fold (lrad a w l p r) (lrad b w l' q r). rewrite cconj_mult, <- cis_neg. replace (cconj (RtoC (lrad b w l' q r))) with (RtoC (lrad b w l' q r)) by (apply C_eq; cbn; ring).
  replace (RtoC (lrad a w l p r) * cis (- IZR l * phi) * (RtoC (lrad b w l' q r) * cis (- (- IZR l' * phi))))%C with
    (RtoC (lrad a w l p r) * RtoC (lrad b w l' q r) * (cis (- IZR l * phi) * cis (- (- IZR l' * phi))))%C by ring.
  rewrite <- cis_plus. replace (- IZR l * phi + - (- IZR l' * phi)) with (- (IZR (l - l') * phi)) by (rewrite minus_IZR; ring).
  unfold cis. rewrite cos_neg, sin_neg. apply C_eq; cbn [fst snd Cmult RtoC]; ring.
Qed.
Lemma lrad_half a b w l p q : w <> 0 ->
  half (fun r => lrad a w l p r * lrad b w l q r * r) (if (p =? q)%nat then a * b * (w ^ 2 / 4) * (INR (fact (p + Z.abs_nat l)) / INR (fact p)) else 0).
Proof.
  intros Hw. assert (Hw2 : 0 < w ^ 2) by (rewrite <- Rsqr_pow2; apply Rsqr_pos_lt, Hw). set (n := Z.abs_nat l).
  pose proof (LagInt.lag_orthogonal p q n) as O. apply (ErfInt.half_square _ _ (2 / w ^ 2)) in O; [|apply Rdiv_lt_0_compat; lra].
  apply (half_scal _ _ (a * b * (w ^ 2 / 4))) in O. apply (half_ext (fun r => a * b * (w ^ 2 / 4) * (2 * (2 / w ^ 2) * r * LagInt.lagw n p q (2 / w ^ 2 * r ^ 2)))).
  - intros r. unfold lrad, LagInt.lagw. fold n. rewrite !laguerre_lsum. replace (2 * r ^ 2 / w ^ 2) with (2 / w ^ 2 * r ^ 2) by (field; exact Hw).
    replace ((2 / w ^ 2 * r ^ 2) ^ n) with ((sqrt 2 * r / w) ^ n * (sqrt 2 * r / w) ^ n).
    2:{ rewrite <- Rpow_mult_distr. f_equal. replace (sqrt 2 * r / w * (sqrt 2 * r / w)) with ((sqrt 2 * sqrt 2) * r ^ 2 / w ^ 2) by (field; exact Hw). rewrite sqrt_sqrt by lra. field. exact Hw. }
    replace (exp (- (2 / w ^ 2 * r ^ 2))) with (exp (- r ^ 2 / w ^ 2) * exp (- r ^ 2 / w ^ 2)) by (rewrite <- exp_plus; f_equal; field; exact Hw).
    field. exact Hw.
  - eapply half_val; [|exact O]. destruct (p =? q)%nat; [|ring]. rewrite (Nat.add_comm p). reflexivity.
Qed.
Lemma lg_overlap_mode a b w l l' p q x0 y0 (E1 E2 : R -> R -> C) : w <> 0 ->
  (forall r phi, 0 <= r -> E1 (x0 + r * cos phi) (y0 + r * sin phi) = lg_mode a w l p r phi) ->
  (forall r phi, 0 <= r -> E2 (x0 + r * cos phi) (y0 + r * sin phi) = lg_mode b w l' q r phi) ->
  plane_polar (fun x y => Re (E1 x y * cconj (E2 x y))%C) x0 y0
    (if ((l =? l')%Z && (p =? q)%nat)%bool then a * b * (PI * w ^ 2 / 2) * (INR (fact (p + Z.abs_nat l)) / INR (fact p)) else 0) /\
  plane_polar (fun x y => Im (E1 x y * cconj (E2 x y))%C) x0 y0 0.
Proof.
  intros Hw H1 H2. split.
  - exists (fun r => lrad a w l p r * lrad b w l' q r * r * (if (l - l' =? 0)%Z then 2 * PI else 0)). split.
    + intros r Hr. apply (is_RInt_ext (fun phi => lrad a w l p r * lrad b w l' q r * r * cos (IZR (l - l') * phi))).
      { intros phi _. rewrite H1, H2 by exact Hr. rewrite lg_product. cbn [Re fst]. ring_simplify. reflexivity. }
      apply int_scal, int_cos.
    + apply half_gen. destruct (Z.eqb_spec l l') as [<-|Hl].
      * rewrite Z.sub_diag, Z.eqb_refl. cbn [andb]. apply (half_ext (fun r => 2 * PI * (lrad a w l p r * lrad b w l q r * r))); [intros; ring|].
        eapply half_val; [|apply half_scal, lrad_half, Hw]. destruct (p =? q)%nat; [|ring]. field. apply INR_fact_neq_0.
      * replace (l - l' =? 0)%Z with false by (symmetry; apply Z.eqb_neq; lia). cbn [andb]. apply (half_ext (fun _ => 0)); [intros; ring|]. apply half_zero.
  - exists (fun _ => 0). split; [|apply half_gen, half_zero].
    intros r Hr. apply (is_RInt_ext (fun phi => (- (lrad a w l p r * lrad b w l' q r * r)) * sin (IZR (l - l') * phi))).
    { intros phi _. rewrite H1, H2 by exact Hr. rewrite lg_product. cbn [Im snd]. ring_simplify. reflexivity. }
    apply (int_eq _ (- (lrad a w l p r * lrad b w l' q r * r) * 0)); [ring|]. apply int_scal, int_sin.
Qed.
Lemma gives_unique h p x y z z' b b' : gives h p x y z b -> gives h p x y z' b' -> z = z'.
Proof. intros (v & E & Hv & _) (v' & E' & Hv' & _). rewrite E in E'. injection E' as <-. congruence. Qed.
Lemma lg_overlap h1 h2 x0 y0 a b w l l' p q h1' P h2' Q (E1 E2 : R -> R -> C) : w <> 0 ->
  lg_new h1 x0 y0 a w l (Z.of_nat p) = Ok (h1', P) -> lg_new h2 x0 y0 b w l' (Z.of_nat q) = Ok (h2', Q) ->
  (forall x y, gives h1' P x y (E1 x y) true) -> (forall x y, gives h2' Q x y (E2 x y) true) ->
  plane_polar (fun x y => Re (E1 x y * cconj (E2 x y))%C) x0 y0
    (if ((l =? l')%Z && (p =? q)%nat)%bool then a * b * (PI * w ^ 2 / 2) * (INR (fact (p + Z.abs_nat l)) / INR (fact p)) else 0) /\
  plane_polar (fun x y => Im (E1 x y * cconj (E2 x y))%C) x0 y0 0.
Proof.
  intros Hw N1 N2 G1 G2. destruct (lg_evaluates h1 x0 y0 a w l p Hw) as (? & ? & N1' & _ & _ & F1). destruct (lg_evaluates h2 x0 y0 b w l' q Hw) as (? & ? & N2' & _ & _ & F2).
  rewrite N1 in N1'. injection N1' as <- <-. rewrite N2 in N2'. injection N2' as <- <-. apply lg_overlap_mode; [exact Hw| |]; intros r phi Hr; eapply gives_unique; eauto.
Qed.

(** ** Hermite-Gauss *)
Definition hline (w x0 : R) (n : nat) (x : R) : R := hermite n (sqrt 2 * (x - x0) / w) * exp (- (x - x0) ^ 2 / w ^ 2).
Lemma hg_split x0 y0 a w n m x y : hg_mode x0 y0 a w n m x y = a * hline w x0 n x * hline w y0 m y.
Proof.
  unfold hg_mode, hline. replace (- ((x - x0) ^ 2 + (y - y0) ^ 2) / w ^ 2) with (- (x - x0) ^ 2 / w ^ 2 + - (y - y0) ^ 2 / w ^ 2) by (unfold Rdiv; ring). rewrite exp_plus. ring.
Qed.
Lemma hline_line w x0 n n' : w <> 0 -> line (fun x => hline w x0 n x * hline w x0 n' x) (if (n =? n')%nat then Rabs w / sqrt 2 * (sqrt PI * 2 ^ n * INR (fact n)) else 0).
Proof.
  intros Hw. assert (S2 : 0 < sqrt 2) by (apply sqrt_lt_R0; lra). pose proof (ErfInt.herm_orthogonal n n') as O.
  assert (Hc : sqrt 2 / w <> 0) by (intros E; apply (f_equal (fun t => t * w)) in E; unfold Rdiv in E; rewrite Rmult_assoc, Rinv_l, Rmult_1_r in E by exact Hw; lra).
  apply (ErfInt.line_affine _ _ (sqrt 2 / w) (- (sqrt 2 * x0 / w)) Hc) in O.
  apply (line_ext (fun x => ErfInt.H n (sqrt 2 / w * x + - (sqrt 2 * x0 / w)) * ErfInt.H n' (sqrt 2 / w * x + - (sqrt 2 * x0 / w)) * ErfInt.g (sqrt 2 / w * x + - (sqrt 2 * x0 / w)))).
  - intros x. unfold hline, ErfInt.H, ErfInt.g. rewrite !hermite_hpair. replace (sqrt 2 / w * x + - (sqrt 2 * x0 / w)) with (sqrt 2 * (x - x0) / w) by (field; exact Hw).
    replace (exp (- (sqrt 2 * (x - x0) / w) ^ 2)) with (exp (- (x - x0) ^ 2 / w ^ 2) * exp (- (x - x0) ^ 2 / w ^ 2)); [ring|].
    rewrite <- exp_plus. f_equal. replace ((sqrt 2 * (x - x0) / w) ^ 2) with ((sqrt 2 * sqrt 2) * (x - x0) ^ 2 / w ^ 2) by (field; exact Hw). rewrite sqrt_sqrt by lra. field. exact Hw.
  - eapply line_val; [|exact O]. unfold Rdiv at 1 2. rewrite Rabs_mult, Rabs_inv, (Rabs_right (sqrt 2)) by lra. assert (Rabs w <> 0) by (apply Rabs_no_R0, Hw). destruct (n =? n')%nat; field; split; lra.
Qed.
Lemma hg_overlap_mode x0 y0 a b w n m n' m' : w <> 0 ->
  plane_xy (fun x y => hg_mode x0 y0 a w n m x y * hg_mode x0 y0 b w n' m' x y)
    (if ((n =? n') && (m =? m'))%nat%bool then a * b * (PI * w ^ 2 / 2) * (2 ^ (n + m) * INR (fact n) * INR (fact m)) else 0).
Proof.
  intros Hw. set (X := if (n =? n')%nat then Rabs w / sqrt 2 * (sqrt PI * 2 ^ n * INR (fact n)) else 0).
  exists (fun y => a * b * X * (hline w y0 m y * hline w y0 m' y)). split.
  - intros y. apply line_gen. apply (line_ext (fun x => (a * b * (hline w y0 m y * hline w y0 m' y)) * (hline w x0 n x * hline w x0 n' x))); [intros x; rewrite !hg_split; ring|].
    eapply line_val; [|apply line_scal, hline_line, Hw]. fold X. ring.
  - apply line_gen. eapply line_val; [|apply line_scal, hline_line, Hw]. unfold X. destruct (n =? n')%nat, (m =? m')%nat; cbn [andb]; try ring.
    assert (S2 : 0 < sqrt 2) by (apply sqrt_lt_R0; lra). 
    replace (a * b * (Rabs w / sqrt 2 * (sqrt PI * 2 ^ n * INR (fact n))) * (Rabs w / sqrt 2 * (sqrt PI * 2 ^ m * INR (fact m)))) with
      (a * b * ((sqrt PI * sqrt PI) * (Rabs w * Rabs w) / (sqrt 2 * sqrt 2)) * ((2 ^ n * 2 ^ m) * INR (fact n) * INR (fact m))) by (field; lra).
    rewrite !sqrt_sqrt by (try lra; pose proof PI_RGT_0; lra). rewrite <- pow_add. replace (Rabs w * Rabs w) with (w ^ 2); [reflexivity|]. rewrite <- Rabs_mult, Rabs_right; [ring|]. apply Rle_ge, Rle_0_sqr.
Qed.
Lemma plane_xy_ext F G v : (forall x y, F x y = G x y) -> plane_xy F v -> plane_xy G v.
Proof.
  intros E (K & H1 & H2). exists K. split; [|exact H2]. intros y. apply (is_RInt_gen_ext (fun x => F x y)); [|apply H1].
  exists (fun _ => True) (fun _ => True); [apply filter_true|apply filter_true|]. intros; apply E.
Qed.
Lemma hg_overlap h1 h2 x0 y0 a b w n m n' m' h1' P h2' Q (E1 E2 : R -> R -> R) : w <> 0 ->
  hg_new h1 x0 y0 a w (Z.of_nat n) (Z.of_nat m) = Ok (h1', P) -> hg_new h2 x0 y0 b w (Z.of_nat n') (Z.of_nat m') = Ok (h2', Q) ->
  (forall x y, gives h1' P x y (RtoC (E1 x y)) false) -> (forall x y, gives h2' Q x y (RtoC (E2 x y)) false) ->
  plane_xy (fun x y => E1 x y * E2 x y)
    (if ((n =? n') && (m =? m'))%nat%bool then a * b * (PI * w ^ 2 / 2) * (2 ^ (n + m) * INR (fact n) * INR (fact m)) else 0).
Proof.
  intros Hw N1 N2 G1 G2. destruct (hg_evaluates h1 x0 y0 a w n m Hw) as (? & ? & N1' & _ & _ & F1). destruct (hg_evaluates h2 x0 y0 b w n' m' Hw) as (? & ? & N2' & _ & _ & F2).
  rewrite N1 in N1'. injection N1' as <- <-. rewrite N2 in N2'. injection N2' as <- <-.
  apply (plane_xy_ext (fun x y => hg_mode x0 y0 a w n m x y * hg_mode x0 y0 b w n' m' x y)); [|apply hg_overlap_mode, Hw]. intros x y. f_equal; apply RtoC_inj; eapply gives_unique; eauto.
Qed.
(** The two plane integrals agree on the Gaussian. *)
Lemma gaussian_both a w x0 y0 : w <> 0 ->
  plane_xy (fun x y => hg_mode x0 y0 a w 0 0 x y ^ 2) (a ^ 2 * (PI * w ^ 2 / 2)) /\ plane_polar (fun x y => hg_mode x0 y0 a w 0 0 x y ^ 2) x0 y0 (a ^ 2 * (PI * w ^ 2 / 2)).
Proof.
  intros Hw. split.
  - apply (plane_xy_ext (fun x y => hg_mode x0 y0 a w 0 0 x y * hg_mode x0 y0 a w 0 0 x y)); [intros; ring|].
    pose proof (hg_overlap_mode x0 y0 a a w 0 0 0 0 Hw) as H. cbn -[hg_mode PI] in H. replace (a ^ 2 * (PI * w ^ 2 / 2)) with (a * a * (PI * (w * (w * 1)) / 2) * (1 * 1 * 1)) by field. exact H.
  - exists (fun r => lrad a w 0 0 r * lrad a w 0 0 r * r * (2 * PI)). split.
    + intros r Hr. apply (is_RInt_ext (fun phi => lrad a w 0 0 r * lrad a w 0 0 r * r * cos (IZR 0 * phi))).
      { intros phi _. assert (E : lrad a w 0 0 r = hg_mode x0 y0 a w 0 0 (x0 + r * cos phi) (y0 + r * sin phi)).
        { apply RtoC_inj. rewrite <- (lg_gaussian a w r phi x0 y0 Hr Hw). unfold lg_mode, lrad. rewrite Ropp_0, Rmult_0_l, cis_0. ring. }
        rewrite <- E, Rmult_0_l, cos_0. match goal with |- @eq _ ?u ?v => change (@eq R u v) end. ring. }
      apply int_scal. exact (int_cos 0).
    + apply half_gen. apply (half_ext (fun r => 2 * PI * (lrad a w 0 0 r * lrad a w 0 0 r * r))); [intros; ring|]. eapply half_val; [|apply half_scal, lrad_half, Hw]. cbn. field.
Qed.
