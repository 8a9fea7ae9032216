(** Rounding errors of Zernike modes. *)
From Coq Require Import Reals ZArith List Bool Lia Lra Psatz.
From Verif Require Import Cx Sums PyBase ProfileModel ZernSpec ZernBound ZernThms AnaSpec AnaFacts FloatModel FloatSpec FloatFacts FlSimSpec FlSimFacts FlAnaModel FlAnaSpec FlAnaFacts FlAnaFacts2 FlZernModel FlZernSpec.
Import ListNotations.
Open Scope R_scope.

Lemma near_sqrt e x y : 0 <= x -> 0 <= y -> near e 0 x y -> near e 0 (sqrt x) (sqrt y).
Proof.
  intros Hx Hy. unfold near. rewrite !Rplus_0_r, (Rabs_pos_eq x) by exact Hx. rewrite (Rabs_pos_eq (sqrt x)) by apply sqrt_pos. intros H. destruct (Req_dec x 0) as [->|N].
  - rewrite Rmult_0_r in H. assert (y = 0). { destruct (Req_dec (y - 0) 0); [lra|]. apply Rabs_pos_lt in H0. lra. } subst y. rewrite sqrt_0. replace (0 - 0) with 0 by ring. rewrite Rabs_R0. lra.
  - assert (Px : 0 < sqrt x) by (apply sqrt_lt_R0; lra). pose proof (sqrt_pos y). apply (Rmult_le_reg_r (sqrt y + sqrt x)); [lra|].
    rewrite <- (Rabs_pos_eq (sqrt y + sqrt x)) at 1 by lra. rewrite <- Rabs_mult. replace ((sqrt y - sqrt x) * (sqrt y + sqrt x)) with (sqrt y * sqrt y - sqrt x * sqrt x) by ring. rewrite !sqrt_sqrt by lra.
    assert (E0 : 0 <= e). { pose proof (Rabs_pos (y - x)). destruct (Rle_dec 0 e); [assumption|]. assert (e * x < 0 * x) by (apply Rmult_lt_compat_r; lra). lra. }
    eapply Rle_trans; [exact H|]. rewrite <- (sqrt_sqrt x) at 1 by lra. assert (0 <= e * sqrt x * sqrt y) by (apply Rmult_le_pos; [apply Rmult_le_pos|]; lra). lra.
Qed.

Section Mode.
Variables (u eta : R) (B : Z) (l : zlib).
Hypothesis A : arithmetic u eta B (z_rnd l).
Hypothesis Hu : 0 <= u <= 1 / 8.
Hypothesis He : 0 <= eta.
Hypothesis HB : (1 <= B)%Z.
Let v := 4 * u.

Lemma r1 : z_rnd l 1 = 1.
Proof. pose proof (ar_exact _ _ _ _ A 1 0 ltac:(lia) ltac:(lia)) as E. cbn [pow] in E. replace (1 / 1) with 1 in E by field. exact E. Qed.
Lemma r0 : z_rnd l 0 = 0.
Proof. pose proof (ar_exact _ _ _ _ A 0 0 ltac:(lia) ltac:(lia)) as E. cbn [pow] in E. replace (0 / 1) with 0 in E by field. exact E. Qed.
Lemma normal x : x = 0 \/ eta <= u * Rabs x -> near (2 * u) 0 x (z_rnd l x).
Proof. intros [->|E]. - rewrite r0. unfold near. replace (0 - 0) with 0 by ring. rewrite Rabs_R0. lra. - pose proof (ar_error _ _ _ _ A x). unfold near. lra. Qed.

(** ** The normalised distance *)
Section Rho.
Variables (radius x y : R).
Hypothesis HR : 0 < radius.
Let s := x ^ 2 + y ^ 2.
Hypothesis X : z_rnd l (z_rnd l (x ^ 2) + z_rnd l (y ^ 2)) = s.
Hypothesis Q : s = 0 \/ 1 / 4 <= s.
Hypothesis E1 : eta <= u / 2.
Hypothesis E2 : eta <= u * radius.
Hypothesis E3 : 8 * eta * radius <= u.
Let Hs : 0 <= s. Proof. unfold s. nra. Qed.

Lemma rad_near : near (2 * u) 0 radius (z_rnd l radius). Proof. apply normal. right. rewrite Rabs_pos_eq by lra. exact E2. Qed.
Lemma rad_pos : 0 < z_rnd l radius /\ near ((1 + v) ^ 1 - 1) 0 (/ radius) (/ z_rnd l radius).
Proof. assert (N := near_inv v radius (z_rnd l radius) ltac:(unfold v; lra) HR). assert (K : near (v / 2) 0 radius (z_rnd l radius)) by (unfold v; replace (4 * u / 2) with (2 * u) by field; exact rad_near). destruct (N K). split; assumption. Qed.
Lemma rho_near : near ((1 + v) ^ 3 - 1) 0 (sqrt s / radius) (fl_rho l radius x y).
Proof.
  unfold fl_rho. rewrite X. destruct rad_pos as [P1 P2]. assert (v0 : 0 <= v) by (unfold v; lra).
  assert (Sq : sqrt s = 0 \/ 1 / 2 <= sqrt s). { destruct Q as [->|K]; [left; apply sqrt_0|right]. rewrite <- (sqrt_square (1 / 2)) by lra. apply sqrt_le_1; lra. }
  assert (N1 : near (2 * u) 0 (sqrt s) (z_rnd l (sqrt s))). { apply normal. destruct Sq as [K|K]; [left; exact K|right]. rewrite Rabs_pos_eq by lra. assert (u * (1 / 2) <= u * sqrt s) by (apply Rmult_le_compat_l; lra). lra. }
  assert (N2 : near ((1 + v) ^ 2 - 1) 0 (sqrt s / radius) (z_rnd l (sqrt s) / z_rnd l radius)).
  { unfold Rdiv. apply (near_mult v 1 1); [exact v0| |exact P2]. apply near_one with (2 * u); [unfold v; lra|exact N1]. }
  set (r' := z_rnd l (sqrt s)) in *. set (R' := z_rnd l radius) in *.
  assert (N3 : near (2 * u) 0 (r' / R') (z_rnd l (r' / R'))).
  { apply normal. destruct Sq as [K|K].
    - left. unfold r'. rewrite K, r0. unfold Rdiv. ring.
    - right. unfold near in N1. rewrite (Rabs_pos_eq (sqrt s)) in N1 by lra. apply Rcomplements.Rabs_le_between in N1. assert (r1' : 3 / 8 <= r') by nra.
      assert (r2 : R' <= 5 / 4 * radius). { pose proof rad_near as N. unfold near in N. fold R' in N. rewrite (Rabs_pos_eq radius) in N by lra. apply Rcomplements.Rabs_le_between in N. nra. }
      rewrite Rabs_pos_eq by (apply Rmult_le_pos; [lra|apply Rlt_le, Rinv_0_lt_compat, P1]). apply (Rmult_le_reg_r R'); [exact P1|]. replace (u * (r' / R') * R') with (u * r') by (field; lra).
      assert (eta * R' <= eta * (5 / 4 * radius)) by (apply Rmult_le_compat_l; lra). assert (u * (3 / 8) <= u * r') by (apply Rmult_le_compat_l; lra). lra. }
  replace 0 with (0 * (1 + v) ^ 1 + 0) by ring. apply (near_pow v 2 1 0 0 _ (r' / R')); [exact v0|exact N2|]. apply near_one with (2 * u); [unfold v; lra|exact N3].
Qed.
Lemma rho_inside : s <= radius ^ 2 -> 0 <= fl_rho l radius x y <= 1.
Proof.
  intros K. unfold fl_rho. rewrite X. destruct rad_pos as [P1 _]. assert (L : sqrt s <= radius). { rewrite <- (sqrt_pow2 radius) by lra. apply sqrt_le_1; [exact Hs|nra|exact K]. }
  apply (ar_monotone _ _ _ _ A) in L. pose proof (ar_monotone _ _ _ _ A _ _ (sqrt_pos s)) as L0. rewrite r0 in L0. split.
  - rewrite <- r0. apply (ar_monotone _ _ _ _ A). apply Rmult_le_pos; [exact L0|apply Rlt_le, Rinv_0_lt_compat, P1].
  - rewrite <- r1. apply (ar_monotone _ _ _ _ A). apply (Rmult_le_reg_r (z_rnd l radius)); [exact P1|]. replace (z_rnd l (sqrt s) / z_rnd l radius * z_rnd l radius) with (z_rnd l (sqrt s)) by (field; lra). lra.
Qed.
Lemma rho_outside : radius ^ 2 < s -> 1 <= fl_rho l radius x y.
Proof.
  intros K. unfold fl_rho. rewrite X. destruct rad_pos as [P1 _]. assert (L : radius <= sqrt s). { rewrite <- (sqrt_pow2 radius) at 1 by lra. apply sqrt_le_1; [nra|exact Hs|lra]. }
  apply (ar_monotone _ _ _ _ A) in L. rewrite <- r1 at 1. apply (ar_monotone _ _ _ _ A). apply (Rmult_le_reg_r (z_rnd l radius)); [exact P1|]. replace (z_rnd l (sqrt s) / z_rnd l radius * z_rnd l radius) with (z_rnd l (sqrt s)) by (field; lra). lra.
Qed.
End Rho.

(** ** Horner's rule *)
Lemma horner_loop x x' : 0 <= x <= 1 -> near ((1 + v) ^ 3 - 1) 0 x x' -> forall cs cs', Forall2 (near v 0) cs cs' -> forall p p' P k D, Rabs p <= P -> 0 <= D ->
  Rabs (p' - p) <= ((1 + v) ^ k - 1) * P + D ->
  Rabs (fold_left (fun p c => z_rnd l (c + z_rnd l (p * x'))) cs' p' - fold_left (fun p c => c + p * x) cs p) <=
    ((1 + v) ^ (k + 5 * length cs) - 1) * (P + weight cs) + (1 + v) ^ (5 * length cs) * (D + 3 * INR (length cs) * eta).
Proof.
  intros Hx Nx cs cs' F. assert (v0 : 0 <= v) by (unfold v; lra). assert (uv : u <= v) by (unfold v; lra). unfold near in Nx. rewrite (Rabs_pos_eq x) in Nx by lra. rewrite Rplus_0_r in Nx.
  induction F as [|c c' cs cs' Hc F IH]; intros p p' P k D Hp HD Hpp.
  - cbn [fold_left length]. unfold weight. cbn [fold_right]. rewrite !Nat.mul_0_r, Nat.add_0_r. cbn [pow INR]. lra.
  - cbn [fold_left length]. unfold near in Hc. rewrite Rplus_0_r in Hc.
    pose proof (pow_1 v k v0) as Gk. pose proof (Rabs_pos p) as pp. pose proof (Rabs_pos c) as pc. set (gk := (1 + v) ^ k) in *.
    set (g3 := (1 + v) ^ 3) in *. assert (G3 : 1 <= g3) by apply (pow_1 v 3 v0).
    assert (x'b : Rabs x' <= g3 * x). { replace x' with (x + (x' - x)) by ring. eapply Rle_trans; [apply Rabs_triang|]. rewrite (Rabs_pos_eq x) by lra. lra. }
    assert (P0 : 0 <= P) by lra.
    assert (a1 : Rabs (p' * x' - p * x) <= (gk * g3 - 1) * (P * x) + D * g3 * x).
    { replace (p' * x' - p * x) with ((p' - p) * x' + p * (x' - x)) by ring. eapply Rle_trans; [apply Rabs_triang|].
      assert (Rabs ((p' - p) * x') <= ((gk - 1) * P + D) * (g3 * x)) by (apply mult_le; assumption). assert (Rabs (p * (x' - x)) <= P * ((g3 - 1) * x)) by (apply mult_le; assumption). nra. }
    assert (a2 := rnd_err u eta B (z_rnd l) A ltac:(lra) _ _ _ a1). set (w := z_rnd l (p' * x')) in *.
    assert (Px : 0 <= P * x) by (apply Rmult_le_pos; lra). assert (Dx : 0 <= D * g3 * x) by (apply Rmult_le_pos; [apply Rmult_le_pos|]; lra).
    assert (pxb : Rabs (p * x) <= P * x) by (apply mult_le; [exact Hp|rewrite Rabs_pos_eq by lra; lra]).
    assert (gg : 1 <= gk * g3) by nra.
    assert (a3 : Rabs (w - p * x) <= (gk * g3 * (1 + v) - 1) * (P * x) + D * g3 * (1 + v) * x + eta).
    { eapply Rle_trans; [exact a2|]. assert (u * (Rabs (p * x) + ((gk * g3 - 1) * (P * x) + D * g3 * x)) <= v * (P * x + ((gk * g3 - 1) * (P * x) + D * g3 * x))).
      { assert (0 <= (gk * g3 - 1) * (P * x)) by (apply Rmult_le_pos; lra). apply Rmult_le_compat; try lra. pose proof (Rabs_pos (p * x)). lra. } nra. }
    assert (a4 : Rabs (c' + w - (c + p * x)) <= (gk * g3 * (1 + v) - 1) * (Rabs c + P * x) + D * g3 * (1 + v) * x + eta).
    { replace (c' + w - (c + p * x)) with ((c' - c) + (w - p * x)) by ring. eapply Rle_trans; [apply Rabs_triang|]. assert (v * Rabs c <= (gk * g3 * (1 + v) - 1) * Rabs c) by (apply Rmult_le_compat_r; [exact pc|nra]). lra. }
    assert (a5 := rnd_err u eta B (z_rnd l) A ltac:(lra) _ _ _ a4). set (p1 := z_rnd l (c' + w)) in *.
    set (P1 := Rabs c + P * x) in *. assert (P10 : 0 <= P1) by (unfold P1; lra).
    assert (bb : Rabs (c + p * x) <= P1) by (eapply Rle_trans; [apply Rabs_triang|]; unfold P1; lra).
    assert (g5 : (1 + v) ^ (k + 5) = gk * g3 * (1 + v) * (1 + v)) by (rewrite pow_add; unfold gk, g3; cbn [pow]; ring).
    assert (gv : 1 <= gk * g3 * (1 + v)) by nra.
    assert (a6 : Rabs (p1 - (c + p * x)) <= ((1 + v) ^ (k + 5) - 1) * P1 + (D * ((1 + v) ^ 5) + (2 + v) * eta)).
    { eapply Rle_trans; [exact a5|]. rewrite g5. set (g := gk * g3 * (1 + v)) in *. set (Z := D * g3 * (1 + v) * x + eta). assert (Z0 : 0 <= Z). { unfold Z. assert (0 <= D * g3 * (1 + v) * x) by (apply Rmult_le_pos; [apply Rmult_le_pos; [apply Rmult_le_pos|]|]; lra). lra. }
      assert (h1 : u * (Rabs (c + p * x) + ((g - 1) * P1 + D * g3 * (1 + v) * x + eta)) <= v * (P1 + ((g - 1) * P1 + Z))).
      { assert (0 <= (g - 1) * P1) by (apply Rmult_le_pos; lra). apply Rmult_le_compat; try lra; unfold Z in *; pose proof (Rabs_pos (c + p * x)); lra. }
      assert (h2 : (1 + v) * Z <= D * (1 + v) ^ 5 + (1 + v) * eta). { unfold Z. replace ((1 + v) ^ 5) with (g3 * (1 + v) * (1 + v)) by (unfold g3; cbn [pow]; ring). assert (0 <= D * g3 * (1 + v)) by (apply Rmult_le_pos; [apply Rmult_le_pos|]; lra). assert (D * g3 * (1 + v) * x <= D * g3 * (1 + v) * 1) by (apply Rmult_le_compat_l; lra). nra. }
      unfold Z in *. lra. }
    assert (D0 : 0 <= D * (1 + v) ^ 5 + (2 + v) * eta). { pose proof (pow_1 v 5 v0). assert (0 <= D * (1 + v) ^ 5) by (apply Rmult_le_pos; lra). assert (0 <= (2 + v) * eta) by (apply Rmult_le_pos; lra). lra. }
    specialize (IH (c + p * x) p1 P1 (k + 5)%nat _ bb D0 a6). eapply Rle_trans; [exact IH|]. cbn [weight fold_right]. fold (weight cs).
    replace (k + 5 + 5 * length cs)%nat with (k + 5 * S (length cs))%nat by lia. replace (5 * S (length cs))%nat with (5 + 5 * length cs)%nat by lia. rewrite (pow_add (1 + v) 5).
    pose proof (pow_1 v (5 * length cs) v0) as Gc. set (gc := (1 + v) ^ (5 * length cs)) in *. pose proof (pow_1 v (k + (5 + 5 * length cs)) v0) as Gt. set (gt := (1 + v) ^ (k + (5 + 5 * length cs))) in *.
    apply Rplus_le_compat.
    + apply Rmult_le_compat_l; [lra|]. assert (P * x <= P * 1) by (apply Rmult_le_compat_l; lra). unfold P1. lra.
    + rewrite S_INR. pose proof (pow_1 v 5 v0) as G5. set (h5 := (1 + v) ^ 5) in *. pose proof (pos_INR (length cs)) as L0. set (n := INR (length cs)) in *.
      assert (v3 : 2 + v <= 3 * h5) by (unfold v in *; lra). assert (ne : 0 <= 3 * n * eta) by (apply Rmult_le_pos; lra).
      assert (k1 : (2 + v) * eta <= 3 * h5 * eta) by (apply Rmult_le_compat_r; lra). assert (k2 : 3 * n * eta <= h5 * (3 * n * eta)) by (rewrite <- (Rmult_1_l (3 * n * eta)) at 1; apply Rmult_le_compat_r; lra).
      replace (h5 * gc * (D + 3 * (n + 1) * eta)) with (gc * (D * h5 + (h5 * (3 * n * eta) + 3 * h5 * eta))) by ring. apply Rmult_le_compat_l; lra.
Qed.
Lemma horner x x' cs cs' : 0 <= x <= 1 -> near ((1 + v) ^ 3 - 1) 0 x x' -> Forall2 (near v 0) cs cs' -> cs <> [] ->
  Rabs (fl_polyval l cs' x' - polyval cs x) <= radial_error u eta (length cs - 1) (weight cs).
Proof.
  intros Hx Nx F NE. destruct F as [|c c' cs cs' Hc F]; [contradiction|]. unfold fl_polyval, polyval, radial_error. cbn [length weight fold_right]. fold (weight cs). rewrite Nat.sub_succ, Nat.sub_0_r.
  assert (K := horner_loop x x' Hx Nx cs cs' F c c' (Rabs c) 1 0 (Rle_refl _) (Rle_refl _)). unfold near in Hc. assert (Q : Rabs (c' - c) <= ((1 + v) ^ 1 - 1) * Rabs c + 0) by lra. specialize (K Q). fold v. lra.
Qed.
End Mode.
