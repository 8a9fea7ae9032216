(** The amplitude of a Zernike profile never exceeds |a| times its normalisation inside the aperture. *)
From Coq Require Import Reals Lra Psatz ZArith Arith List Bool Lia.
From Coquelicot Require Import Complex.
From Verif Require Import Cx Sums PyBase ProfileModel ProfSpec ZernSpec NablaFacts ZernFacts ZernThms ZernBound.
Open Scope R_scope.

Lemma angular_bound m phi : Rabs (angular m phi) <= 1.
Proof. unfold angular. apply Rabs_le. destruct (0 <=? m)%Z; [apply COS_bound|apply SIN_bound]. Qed.
Lemma znorm_pos n m nz : (0 <= n)%Z -> 1 <= znorm n m nz.
Proof.
  intros H. assert (0 <= IZR n) by (apply (IZR_le 0); exact H). unfold znorm. destruct nz; [|lra].
  destruct (m =? 0)%Z; (rewrite <- sqrt_1 at 1; apply sqrt_le_1_alt; lra).
Qed.
Lemma zmode_bound a radius n m nz r phi : zvalid n m -> 0 < radius -> 0 <= r <= radius -> Rabs (zmode a radius n m nz r phi) <= Rabs a * znorm n m nz.
Proof.
  intros H Hr Hb. destruct (zvalid_split n m H) as (mu & s & En & Em & Ea & Et).
  assert (Hn : (0 <= n)%Z) by lia. pose proof (znorm_pos n m nz Hn) as Pn.
  unfold zmode. rewrite Ea, Et, !Rabs_mult. rewrite (Rabs_right (znorm n m nz)) by lra.
  assert (B1 : Rabs (radial (mu + 2 * s) mu (r / radius)) <= 1).
  { apply radial_bound. split; [apply Rmult_le_pos; [lra|left; apply Rinv_0_lt_compat; lra]|].
    apply (Rmult_le_reg_r radius); [lra|]. unfold Rdiv. rewrite Rmult_assoc, Rinv_l by lra. lra. }
  pose proof (angular_bound m phi) as B2. pose proof (Rabs_pos (radial (mu + 2 * s) mu (r / radius))). pose proof (Rabs_pos (angular m phi)).
  assert (0 <= Rabs a * znorm n m nz) by (apply Rmult_le_pos; [apply Rabs_pos|lra]).
  rewrite Rmult_assoc. rewrite <- (Rmult_1_r (Rabs a * znorm n m nz)) at 2. apply Rmult_le_compat_l; [assumption|]. nra.
Qed.
(** Every point is r cos, r sin for the polar radius r. *)
Lemma polar_point x y : exists phi, x = sqrt (x ^ 2 + y ^ 2) * cos phi /\ y = sqrt (x ^ 2 + y ^ 2) * sin phi.
Proof. exists (atan2 y x). rewrite atan2_cos, atan2_sin. split; reflexivity. Qed.
Lemma zern_bounded h a radius n m nz e h1 p x y v : zvalid n m -> 0 < radius -> zernike_new h a radius n m nz e = Ok (h1, p) ->
  gives h1 p x y (RtoC v) false -> (e = false \/ x ^ 2 + y ^ 2 <= radius ^ 2) -> Rabs v <= Rabs a * znorm n m nz.
Proof.
  intros H Hr HN Hv Hc. destruct (zern_evaluates h a radius n m nz e H Hr) as (h1' & p' & E & _ & _ & G).
  rewrite HN in E. injection E as <- <-. destruct (polar_point x y) as (phi & Ex & Ey). set (r := sqrt (x ^ 2 + y ^ 2)) in *.
  assert (Hr0 : 0 <= r) by apply sqrt_pos. specialize (G r phi Hr0). rewrite <- Ex, <- Ey in G.
  rewrite (gives_fun _ _ _ _ _ _ _ _ Hv G).
  destruct (Rle_dec r radius) as [L|L].
  - rewrite orb_true_r. apply zmode_bound; [assumption|assumption|lra].
  - destruct Hc as [->|Hc].
    + cbn. rewrite Rabs_R0. apply Rmult_le_pos; [apply Rabs_pos|]. assert (0 <= n)%Z by (destruct H; lia). pose proof (znorm_pos n m nz ltac:(assumption)). lra.
    + exfalso. apply L. unfold r. rewrite <- (sqrt_pow2 radius) by lra. apply sqrt_le_1_alt. exact Hc.
Qed.
(** The bound is attained on the rim. *)
Lemma zern_attained h a radius n m nz e h1 p : zvalid n m -> 0 < radius -> zernike_new h a radius n m nz e = Ok (h1, p) ->
  exists x y v, x ^ 2 + y ^ 2 = radius ^ 2 /\ gives h1 p x y (RtoC v) false /\ v = a * znorm n m nz.
Proof.
  intros H Hr HN. destruct (zern_evaluates h a radius n m nz e H Hr) as (h1' & p' & E & _ & _ & G).
  rewrite HN in E. injection E as <- <-. destruct (zvalid_split n m H) as (mu & s & En & Em & Ea & Et).
  set (phi := if (0 <=? m)%Z then 0 else PI / (2 * INR mu)).
  exists (radius * cos phi), (radius * sin phi), (zmode a radius n m nz radius phi). split; [|split].
  - transitivity (radius ^ 2 * (Rsqr (sin phi) + Rsqr (cos phi))); [unfold Rsqr; ring|]. rewrite sin2_cos2. ring.
  - specialize (G radius phi (Rlt_le _ _ Hr)). destruct (Rle_dec radius radius) as [_|N]; [|exfalso; lra]. rewrite orb_true_r in G. exact G.
  - unfold zmode. rewrite Ea, Et. replace (radius / radius) with 1 by (field; lra). rewrite radial_one.
    assert (A : angular m phi = 1); [|rewrite A; ring].
    unfold angular, phi. destruct (Z.leb_spec 0 m) as [L|L].
    + rewrite Rmult_0_r. apply cos_0.
    + rewrite Em, <- INR_IZR_INZ. assert (INR mu <> 0) by (apply not_0_INR; lia).
      replace (INR mu * (PI / (2 * INR mu))) with (PI / 2) by (field; assumption). apply sin_PI2.
Qed.
(** The value at polar coordinates, for later use. *)
Lemma zern_polar h a radius n m nz e h1 p r phi v : zvalid n m -> 0 < radius -> 0 <= r -> zernike_new h a radius n m nz e = Ok (h1, p) ->
  gives h1 p (r * cos phi) (r * sin phi) (RtoC v) false ->
  v = if (e || if Rle_dec r radius then true else false)%bool then zmode a radius n m nz r phi else 0.
Proof.
  intros H Hr Hr0 HN Hv. destruct (zern_evaluates h a radius n m nz e H Hr) as (h1' & p' & E & _ & _ & G).
  rewrite HN in E. injection E as <- <-. exact (gives_fun _ _ _ _ _ _ _ _ Hv (G r phi Hr0)).
Qed.
Lemma zvalid_opp n m : zvalid n m -> zvalid n (- m).
Proof.
  intros [H1 H2]. split; [lia|]. replace (n - - m)%Z with (n - m + 2 * m)%Z by lia. rewrite Z.even_add, H2, Z.even_mul. reflexivity.
Qed.
Lemma rotate_point theta r phi : cos theta * (r * cos phi) - sin theta * (r * sin phi) = r * cos (phi + theta) /\
  sin theta * (r * cos phi) + cos theta * (r * sin phi) = r * sin (phi + theta).
Proof. rewrite cos_plus, sin_plus. split; ring. Qed.
Lemma rotate_clockwise h p theta r phi z k :
  gives h (p_rotate p theta) (r * cos (phi - theta)) (r * sin (phi - theta)) z k <-> gives h p (r * cos phi) (r * sin phi) z k.
Proof.
  unfold gives, p_rotate. cbn [func]. destruct (rotate_point theta r (phi - theta)) as [-> ->].
  replace (phi - theta + theta) with phi by ring. reflexivity.
Qed.
Lemma znorm_opp n m nz : znorm n (- m) nz = znorm n m nz.
Proof. unfold znorm. replace (- m =? 0)%Z with (m =? 0)%Z by (destruct (Z.eqb_spec m 0), (Z.eqb_spec (- m) 0); lia). reflexivity. Qed.
Lemma zern_rotation h g a radius n m nz e h1 p g1 q theta x y u w : zvalid n m -> (0 < m)%Z -> 0 < radius ->
  zernike_new h a radius n m nz e = Ok (h1, p) -> zernike_new g a radius n (- m) nz e = Ok (g1, q) ->
  gives h1 p x y (RtoC u) false -> gives g1 q x y (RtoC w) false ->
  gives h1 (p_rotate p theta) x y (RtoC (cos (IZR m * theta) * u - sin (IZR m * theta) * w)) false /\
  gives g1 (p_rotate q theta) x y (RtoC (cos (IZR m * theta) * w + sin (IZR m * theta) * u)) false.
Proof.
  intros H Hm Hr HN HM Hu Hw. destruct (polar_point x y) as (phi & Ex & Ey). set (r := sqrt (x ^ 2 + y ^ 2)) in *.
  assert (Hr0 : 0 <= r) by apply sqrt_pos. pose proof (zvalid_opp n m H) as H'.
  rewrite Ex, Ey in Hu, Hw. pose proof (zern_polar _ _ _ _ _ _ _ _ _ _ _ _ H Hr Hr0 HN Hu) as Eu. pose proof (zern_polar _ _ _ _ _ _ _ _ _ _ _ _ H' Hr Hr0 HM Hw) as Ew.
  rewrite Ex, Ey.
  destruct (zern_evaluates h a radius n m nz e H Hr) as (h1' & p' & E & _ & _ & G). rewrite HN in E. injection E as <- <-.
  destruct (zern_evaluates g a radius n (- m) nz e H' Hr) as (g1' & q' & E & _ & _ & G'). rewrite HM in E. injection E as <- <-.
  assert (A1 : angular m (phi + theta) = cos (IZR m * theta) * angular m phi - sin (IZR m * theta) * angular (- m) phi).
  { unfold angular. replace (0 <=? m)%Z with true by (symmetry; apply Z.leb_le; lia). replace (0 <=? - m)%Z with false by (symmetry; apply Z.leb_gt; lia).
    replace (Z.abs (- m)) with m by lia. rewrite Rmult_plus_distr_l, cos_plus. ring. }
  assert (A2 : angular (- m) (phi + theta) = cos (IZR m * theta) * angular (- m) phi + sin (IZR m * theta) * angular m phi).
  { unfold angular. replace (0 <=? m)%Z with true by (symmetry; apply Z.leb_le; lia). replace (0 <=? - m)%Z with false by (symmetry; apply Z.leb_gt; lia).
    replace (Z.abs (- m)) with m by lia. rewrite Rmult_plus_distr_l, sin_plus. ring. }
  split; replace phi with (phi + theta - theta) by ring; apply rotate_clockwise.
  - specialize (G r (phi + theta) Hr0). replace (cos (IZR m * theta) * u - sin (IZR m * theta) * w) with (if (e || (if Rle_dec r radius then true else false))%bool then zmode a radius n m nz r (phi + theta) else 0); [exact G|].
    rewrite Eu, Ew. destruct (e || _)%bool; [|ring]. unfold zmode. rewrite A1, znorm_opp. replace (Z.abs_nat (- m)) with (Z.abs_nat m) by lia. ring.
  - specialize (G' r (phi + theta) Hr0). replace (cos (IZR m * theta) * w + sin (IZR m * theta) * u) with (if (e || (if Rle_dec r radius then true else false))%bool then zmode a radius n (- m) nz r (phi + theta) else 0); [exact G'|].
    rewrite Eu, Ew. destruct (e || _)%bool; [|ring]. unfold zmode. rewrite A2, znorm_opp. replace (Z.abs_nat (- m)) with (Z.abs_nat m) by lia. ring.
Qed.
Lemma zern_rotation_0 h a radius n nz e h1 p theta x y z k : zvalid n 0 -> 0 < radius -> zernike_new h a radius n 0 nz e = Ok (h1, p) ->
  gives h1 p x y z k -> gives h1 (p_rotate p theta) x y z k.
Proof.
  intros H Hr HN Hu. destruct (polar_point x y) as (phi & Ex & Ey). set (r := sqrt (x ^ 2 + y ^ 2)) in *.
  assert (Hr0 : 0 <= r) by apply sqrt_pos. destruct (zern_evaluates h a radius n 0 nz e H Hr) as (h1' & p' & E & _ & _ & G).
  rewrite HN in E. injection E as <- <-.
  pose proof (G r phi Hr0) as G1. pose proof (G r (phi + theta) Hr0) as G2. rewrite <- Ex, <- Ey in G1.
  rewrite Ex, Ey. replace phi with (phi + theta - theta) by ring. apply rotate_clockwise.
  assert (E : zmode a radius n 0 nz r (phi + theta) = zmode a radius n 0 nz r phi) by (unfold zmode, angular; cbn [Z.leb Z.compare]; rewrite !Rmult_0_l; reflexivity).
  rewrite E in G2. destruct Hu as (v & F1 & F2 & F3). destruct G1 as (v' & F1' & F2' & F3'). rewrite F1 in F1'. injection F1' as <-.
  rewrite F2 in F2'. rewrite F3 in F3'. rewrite F2', F3'. exact G2.
Qed.
Lemma zern_parity h a radius n m nz e h1 p x y u : zvalid n m -> 0 < radius -> zernike_new h a radius n m nz e = Ok (h1, p) ->
  gives h1 p x y (RtoC u) false -> gives h1 p (- x) (- y) (RtoC ((-1) ^ (Z.to_nat n) * u)) false.
Proof.
  intros H Hr HN Hu. destruct (polar_point x y) as (phi & Ex & Ey). set (r := sqrt (x ^ 2 + y ^ 2)) in *.
  assert (Hr0 : 0 <= r) by apply sqrt_pos. rewrite Ex, Ey in Hu. pose proof (zern_polar _ _ _ _ _ _ _ _ _ _ _ _ H Hr Hr0 HN Hu) as Eu.
  destruct (zern_evaluates h a radius n m nz e H Hr) as (h1' & p' & E & _ & _ & G). rewrite HN in E. injection E as <- <-.
  specialize (G r (phi + PI) Hr0). rewrite neg_cos, neg_sin, <- !Ropp_mult_distr_r, <- Ex, <- Ey in G.
  destruct (zvalid_split n m H) as (mu & s & En & Em & Ea & Et).
  assert (A : angular m (phi + PI) = (-1) ^ (Z.to_nat n) * angular m phi).
  { rewrite Et, pow_add, pow_mult. replace ((-1) ^ 2) with 1 by ring. rewrite pow1, Rmult_1_r.
    assert (C : forall k t, cos (INR k * PI + t) = (-1) ^ k * cos t /\ sin (INR k * PI + t) = (-1) ^ k * sin t).
    { induction k as [|k IH]; intros t; [cbn; rewrite Rmult_0_l, Rplus_0_l; split; ring|].
      rewrite S_INR. replace ((INR k + 1) * PI + t) with (INR k * PI + (t + PI)) by ring. destruct (IH (t + PI)) as [-> ->]. rewrite neg_cos, neg_sin. cbn [pow]. split; ring. }
    unfold angular. destruct (Z.leb_spec 0 m) as [L|L].
    - replace (IZR m * (phi + PI)) with (INR mu * PI + IZR m * phi); [apply C|]. rewrite INR_IZR_INZ. replace (Z.of_nat mu) with m by lia. ring.
    - replace (IZR (Z.abs m) * (phi + PI)) with (INR mu * PI + IZR (Z.abs m) * phi); [apply C|]. rewrite INR_IZR_INZ, <- Em. ring. }
  replace ((-1) ^ Z.to_nat n * u) with (if (e || (if Rle_dec r radius then true else false))%bool then zmode a radius n m nz r (phi + PI) else 0); [exact G|].
  rewrite Eu. destruct (e || _)%bool; [|ring]. unfold zmode. rewrite A. ring.
Qed.
