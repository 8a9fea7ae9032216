(** Proofs on the rounding errors of expressions of profiles. *)
From Coq Require Import Reals ZArith List Bool Lia Lra Psatz.
From Coquelicot Require Import Complex.
From Verif Require Import Cx Sums PyBase ProfileModel ProfFacts FloatModel FloatSpec FloatFacts FlSimSpec FlSimFacts StabFacts FlAnaFacts FlZernModel FlZernSpec FlZernFacts FlZernFacts2 FlZernThms FlProfModel FlProfSpec.
Import ListNotations.
Open Scope R_scope.

Lemma round_trip a b c : Rabs (a - b) <= c -> Rabs a <= Rabs b + c.
Proof. intros H. exact (abs_le_add _ _ _ H). Qed.
Lemma recip k k' u : k <> 0 -> 0 <= u <= 1 / 8 -> Rabs (k' - k) <= 2 * u * Rabs k -> k' <> 0 /\ Rabs (/ k') <= 2 / Rabs k /\ Rabs (/ k' - / k) <= 4 * u / Rabs k.
Proof.
  intros Hk Hu H. assert (K0 : 0 < Rabs k) by (apply Rabs_pos_lt, Hk). pose proof (abs_le_add k (k' - k) (2 * u * Rabs k)) as T. assert (L : Rabs k * (3 / 4) <= Rabs k'). { assert (T2 : Rabs k <= Rabs k' + Rabs (k - k')). { replace k with (k' + (k - k')) at 1 by ring. apply Rabs_triang. } rewrite (Rabs_minus_sym k k') in T2. assert (u * Rabs k <= 1 / 8 * Rabs k) by (apply Rmult_le_compat_r; lra). lra. }
  clear T. assert (N : k' <> 0) by (intros E; rewrite E, Rabs_R0 in L; lra). assert (K1 : 0 < Rabs k') by lra. split; [exact N|].
  assert (I : Rabs (/ k') <= 4 / 3 * / Rabs k). { rewrite Rabs_inv. apply Rmult_le_reg_l with (Rabs k'); [exact K1|]. rewrite Rinv_r by lra. apply Rmult_le_reg_r with (Rabs k); [exact K0|]. replace (Rabs k' * (4 / 3 * / Rabs k) * Rabs k) with (4 / 3 * Rabs k') by (field; lra). lra. }
  assert (P : 0 < / Rabs k) by (apply Rinv_0_lt_compat, K0). split; [unfold Rdiv; lra|]. replace (/ k' - / k) with ((k - k') * (/ k' * / k)) by (field; split; assumption).
  eapply Rle_trans; [apply (mult_le _ _ (2 * u * Rabs k) (4 / 3 * / Rabs k * / Rabs k))|].
  - rewrite Rabs_minus_sym. exact H.
  - apply mult_le; [exact I|]. rewrite Rabs_inv. apply Rle_refl.
  - replace (2 * u * Rabs k * (4 / 3 * / Rabs k * / Rabs k)) with (8 / 3 * (u * / Rabs k)) by (field; lra). assert (0 <= u * / Rabs k) by (apply Rmult_le_pos; lra). unfold Rdiv. lra.
Qed.

Lemma pow_diff k a a' M e : Rabs a <= M -> Rabs (a' - a) <= e -> Rabs (a' ^ k - a ^ k) <= (M + e) ^ k - M ^ k.
Proof.
  intros Ha He. pose proof (Rabs_pos a). pose proof (Rabs_pos (a' - a)). pose proof (abs_le_add _ _ _ He) as Ha'. induction k as [|k IH]; cbn [pow]; [replace (1 - 1) with 0 by ring; rewrite Rabs_R0; lra|].
  replace (a' * a' ^ k - a * a ^ k) with (a' * (a' ^ k - a ^ k) + (a' - a) * a ^ k) by ring. eapply Rle_trans; [apply Rabs_triang|]. assert (Rabs (a' * (a' ^ k - a ^ k)) <= (M + e) * ((M + e) ^ k - M ^ k)) by (apply mult_le; [lra|exact IH]).
  assert (Rabs ((a' - a) * a ^ k) <= e * M ^ k) by (apply mult_le; [exact He|rewrite <- RPow_abs; apply pow_incr; split; [apply Rabs_pos|exact Ha]]). lra.
Qed.

Section Prof.
Variables (u eta ec ea vp : R) (B : Z) (l : zlib) (f_pow : R -> R -> option R) (basic : prof -> R -> R -> R) (h : heap).
Hypothesis A : arithmetic u eta B (z_rnd l).
Hypothesis Hu : 0 <= u <= 1 / 8.
Hypothesis He : 0 <= eta.
Hypothesis Lz : accurate_zlib l ea ec.
Hypothesis Fp : accurate_power f_pow vp eta.
Hypothesis Hvp : 0 <= vp.
Let tr M x y e := to_rounded u eta B l A Hu M x y e.
Lemma scale_close k X dx x x' : k <> 0 -> eta <= u * Rabs k -> Rabs x <= X -> Rabs (x' - x) <= dx -> z_rnd l k <> 0 /\ Rabs (x / k) <= X / Rabs k /\ Rabs (z_rnd l (x' / z_rnd l k) - x / k) <= scale_error u eta X dx k.
Proof.
  intros Hk Ek Hx Hd. pose proof (ar_error _ _ _ _ A k) as E. destruct (recip k (z_rnd l k) u Hk Hu ltac:(lra)) as (N & I1 & I2). split; [exact N|].
  assert (Q : Rabs (x / k) <= X / Rabs k). { apply mult_le; [exact Hx|]. rewrite Rabs_inv. apply Rle_refl. } split; [exact Q|]. unfold scale_error. apply tr; [exact Q|].
  replace (x' / z_rnd l k - x / k) with ((x' - x) * / z_rnd l k + x * (/ z_rnd l k - / k)) by (unfold Rdiv; ring). eapply Rle_trans; [apply Rabs_triang|]. assert (Rabs ((x' - x) * / z_rnd l k) <= dx * (2 / Rabs k)) by (apply mult_le; assumption). assert (Rabs (x * (/ z_rnd l k - / k)) <= X * (4 * u / Rabs k)) by (apply mult_le; assumption). unfold Rdiv in *. lra.
Qed.
Lemma shift_close a X dx x x' : Rabs x <= X -> Rabs (x' - x) <= dx -> Rabs (x - a) <= X + Rabs a /\ Rabs (z_rnd l (x' - z_rnd l a) - (x - a)) <= shift_error u eta X dx a.
Proof.
  intros Hx Hd. pose proof (ar_error _ _ _ _ A a) as E. assert (Q : Rabs (x - a) <= X + Rabs a). { eapply Rle_trans; [apply Rabs_triang|]. rewrite Rabs_Ropp. lra. } split; [exact Q|]. unfold shift_error. apply tr; [exact Q|].
  replace (x' - z_rnd l a - (x - a)) with ((x' - x) + - (z_rnd l a - a)) by ring. eapply Rle_trans; [apply Rabs_triang|]. rewrite Rabs_Ropp. lra.
Qed.
Lemma trig_prod c c' g X dx x x' : Rabs c <= 1 -> Rabs (c' - c) <= g -> Rabs x <= X -> Rabs (x' - x) <= dx -> Rabs (c * x) <= X /\ Rabs (z_rnd l (c' * x') - c * x) <= rounded u eta X (g * (X + dx) + dx).
Proof.
  intros Hc Hg Hx Hd. assert (Q : Rabs (c * x) <= X) by (replace X with (1 * X) by ring; apply mult_le; assumption). split; [exact Q|]. apply tr; [exact Q|]. replace (c' * x' - c * x) with ((c' - c) * x' + c * (x' - x)) by ring. eapply Rle_trans; [apply Rabs_triang|]. pose proof (abs_le_add _ _ _ Hd) as Hx'.
  assert (Rabs ((c' - c) * x') <= g * (X + dx)) by (apply mult_le; lra). assert (Rabs (c * (x' - x)) <= 1 * dx) by (apply mult_le; assumption). lra.
Qed.
Lemma turn_close (s : bool) a b a' b' g X Y dx dy x y x' y' : Rabs a <= 1 -> Rabs b <= 1 -> Rabs (a' - a) <= g -> Rabs (b' - b) <= g -> Rabs x <= X -> Rabs y <= Y -> Rabs (x' - x) <= dx -> Rabs (y' - y) <= dy ->
  let f := fun p q : R => if s then p + q else p - q in Rabs (f (a * x) (b * y)) <= X + Y /\ Rabs (z_rnd l (f (z_rnd l (a' * x')) (z_rnd l (b' * y'))) - f (a * x) (b * y)) <= turn_error u eta g X Y dx dy.
Proof.
  intros Ha Hb Ga Gb Hx Hy Dx Dy f. destruct (trig_prod a a' g X dx x x' Ha Ga Hx Dx) as [P1 P2]. destruct (trig_prod b b' g Y dy y y' Hb Gb Hy Dy) as [Q1 Q2].
  set (p := a * x) in *. set (q := b * y) in *. set (p' := z_rnd l (a' * x')) in *. set (q' := z_rnd l (b' * y')) in *. apply Rcomplements.Rabs_le_between in P1, Q1. assert (F : Rabs (f p q) <= X + Y) by (unfold f; apply Rabs_le; destruct s; lra). split; [exact F|]. unfold turn_error. apply tr; [exact F|].
  apply Rcomplements.Rabs_le_between in P2, Q2. apply Rabs_le. unfold f. destruct s; lra.
Qed.
Lemma bounds_accurate p X Y dx dy m M e : bounds u eta ec vp l f_pow basic h p X Y dx dy m M e -> 0 <= m /\ accurate l f_pow basic h p X Y dx dy m M e.
Proof.
  intros Hb. induction Hb as [p X Y dx dy m M e El Hm Ha|c r X Y dx dy Hr|o p q X Y dx dy m M e n N f Ho _ [Hm IHp] _ [Hn IHq]|o p q X Y dx dy m M e n N f Ho _ [Hm IHp] _ [Hn IHq]|p q X Y dx dy m M e n N f Hf HN _ [Hm IHp] _ [Hn IHq]|k p X Y dx dy m M e _ [Hm IHp] Hk|th p X Y dx dy m M e g _ [Hm IHp]|a b p X Y dx dy m M e _ [Hm IHp]|k p X Y dx dy m M e Hk Ek _ [Hm IHp]|k p X Y dx dy m M e Hk Ek _ [Hm IHp]].
  - split; assumption.
  - split; [apply Rabs_pos|]. intros x y x' y' _ _ _ _. exists r, (z_rnd l r). cbn [func fl_func]. rewrite Hr. split; [reflexivity|]. split; [reflexivity|]. split; [lra|apply (ar_error _ _ _ _ A)].
  - split; [lra|]. intros x y x' y' Hx Hy Dx Dy. destruct (IHp x y x' y' Hx Hy Dx Dy) as (v & v' & F1 & F2 & [_ V1] & V2). destruct (IHq x y x' y' Hx Hy Dx Dy) as (w & w' & G1 & G2 & [_ W1] & W2). cbn [func fl_func]. rewrite F1, F2, G1, G2. cbn [rbind bin_val].
    apply Rcomplements.Rabs_le_between in V2, W2, V1, W1. destruct Ho as [-> | [-> | ->]]; cbn [bin_r fl_bin].
    + exists (v + w), (z_rnd l (v' + w')). assert (Rabs (v + w) <= M + N) by (apply Rabs_le; lra). repeat split; [apply Rabs_pos|assumption|apply tr; [assumption|apply Rabs_le; lra]].
    + exists (w + v), (z_rnd l (w' + v')). assert (Rabs (w + v) <= M + N) by (apply Rabs_le; lra). repeat split; [apply Rabs_pos|assumption|apply tr; [assumption|apply Rabs_le; lra]].
    + exists (v - w), (z_rnd l (v' - w')). assert (Rabs (v - w) <= M + N) by (apply Rabs_le; lra). repeat split; [apply Rabs_pos|assumption|apply tr; [assumption|apply Rabs_le; lra]].
  - split; [apply Rmult_le_pos; assumption|]. intros x y x' y' Hx Hy Dx Dy. destruct (IHp x y x' y' Hx Hy Dx Dy) as (v & v' & F1 & F2 & [V0 V1] & V2). destruct (IHq x y x' y' Hx Hy Dx Dy) as (w & w' & G1 & G2 & [W0 W1] & W2). cbn [func fl_func]. rewrite F1, F2, G1, G2. cbn [rbind bin_val].
    assert (L : m * n <= Rabs (v * w)) by (rewrite Rabs_mult; apply Rmult_le_compat; assumption). assert (U : Rabs (v * w) <= M * N) by (apply mult_le; assumption).
    assert (D : Rabs (v' * w' - v * w) <= e * N + M * f + e * f). { replace (v' * w' - v * w) with ((v' - v) * w + v * (w' - w) + (v' - v) * (w' - w)) by ring. assert (Rabs ((v' - v) * w) <= e * N) by (apply mult_le; assumption). assert (Rabs (v * (w' - w)) <= M * f) by (apply mult_le; assumption). assert (Rabs ((v' - v) * (w' - w)) <= e * f) by (apply mult_le; assumption). eapply Rle_trans; [apply Rabs_triang|]. pose proof (Rabs_triang ((v' - v) * w) (v * (w' - w))). lra. }
    destruct Ho as [-> | ->]; cbn [bin_r fl_bin].
    + exists (v * w), (z_rnd l (v' * w')). repeat split; [exact L|exact U|apply tr; assumption].
    + exists (w * v), (z_rnd l (w' * v')). rewrite !(Rmult_comm w), !(Rmult_comm w'). repeat split; [exact L|exact U|apply tr; assumption].
  - split; [apply Rmult_le_pos; [exact Hm|apply Rlt_le, Rinv_0_lt_compat, HN]|]. intros x y x' y' Hx Hy Dx Dy. destruct (IHp x y x' y' Hx Hy Dx Dy) as (v & v' & F1 & F2 & [V0 V1] & V2). destruct (IHq x y x' y' Hx Hy Dx Dy) as (w & w' & G1 & G2 & [W0 W1] & W2). cbn [func fl_func]. rewrite F1, F2, G1, G2. cbn [rbind bin_val].
    pose proof (Rabs_pos (w' - w)) as P. assert (n0 : 0 < n) by lra. assert (w0 : w <> 0) by (intros E; rewrite E, Rabs_R0 in W0; lra). assert (Wl : n - f <= Rabs w'). { assert (T : Rabs w <= Rabs w' + Rabs (w - w')) by (replace w with (w' + (w - w')) at 1 by ring; apply Rabs_triang). rewrite (Rabs_minus_sym w) in T. lra. }
    assert (w0' : w' <> 0) by (intros E; rewrite E, Rabs_R0 in Wl; lra). cbn [bin_r fl_bin]. destruct (Req_EM_T w 0) as [C|_]; [contradiction|]. destruct (Req_EM_T w' 0) as [C|_]; [contradiction|]. exists (v / w), (z_rnd l (v' / w')). split; [reflexivity|]. split; [reflexivity|].
    assert (I : Rabs (/ w) <= / n) by (rewrite Rabs_inv; apply Rinv_le_contravar; assumption). assert (I' : Rabs (/ w') <= / (n - f)) by (rewrite Rabs_inv; apply Rinv_le_contravar; [lra|exact Wl]).
    assert (U : Rabs (v / w) <= M / n) by (apply mult_le; assumption). assert (L : m / N <= Rabs (v / w)). { unfold Rdiv. rewrite Rabs_mult. apply Rmult_le_compat; [exact Hm|apply Rlt_le, Rinv_0_lt_compat, HN|exact V0|]. rewrite Rabs_inv. apply Rinv_le_contravar; [lra|exact W1]. }
    split; [split; assumption|]. apply tr; [exact U|]. replace (v' / w' - v / w) with ((v' - v + v * (w - w') * / w) * / w') by (field; split; assumption). apply mult_le; [|exact I']. eapply Rle_trans; [apply Rabs_triang|]. apply Rplus_le_compat; [exact V2|]. apply mult_le; [|exact I]. apply mult_le; [exact V1|]. rewrite Rabs_minus_sym. exact W2.
  - split; [apply pow_le, Hm|]. intros x y x' y' Hx Hy Dx Dy. destruct (IHp x y x' y' Hx Hy Dx Dy) as (v & v' & F1 & F2 & [V0 V1] & V2). cbn [func fl_func]. rewrite F1, F2, Hk. cbn [rbind pow_val]. rewrite rpow_nat. cbn [lift_or]. destruct (Fp v' k) as (q & Q1 & Q2). exists (v ^ k), q. split; [reflexivity|]. split; [exact Q1|].
    rewrite <- RPow_abs. split; [split; apply pow_incr; split; (assumption || apply Rabs_pos)|]. pose proof (abs_le_add _ _ _ V2) as V3. assert (V4 : Rabs v' ^ k <= (M + e) ^ k) by (apply pow_incr; split; [apply Rabs_pos|lra]). assert (V5 : vp * Rabs v' ^ k <= vp * (M + e) ^ k) by (apply Rmult_le_compat_l; assumption).
    pose proof (pow_diff k v v' M e V1 V2) as V6. replace (q - v ^ k) with ((q - v' ^ k) + (v' ^ k - v ^ k)) by ring. eapply Rle_trans; [apply Rabs_triang|]. lra.
  - split; [exact Hm|]. intros x y x' y' Hx Hy Dx Dy. cbn [func fl_func]. pose proof (ar_error _ _ _ _ A th) as Et. set (th' := z_rnd l th) in *.
    assert (Gc : Rabs (z_cos l th' - cos th) <= g). { pose proof (zl_cos _ _ _ Lz th') as C1. pose proof (cos_lipschitz th' th) as C2. replace (z_cos l th' - cos th) with ((z_cos l th' - cos th') + (cos th' - cos th)) by ring. eapply Rle_trans; [apply Rabs_triang|]. unfold g. lra. }
    assert (Gs : Rabs (z_sin l th' - sin th) <= g). { pose proof (zl_sin _ _ _ Lz th') as C1. pose proof (sin_lipschitz th' th) as C2. replace (z_sin l th' - sin th) with ((z_sin l th' - sin th') + (sin th' - sin th)) by ring. eapply Rle_trans; [apply Rabs_triang|]. unfold g. lra. }
    pose proof (cos_abs th) as Bc. pose proof (FlZernFacts2.sin_abs th) as Bs. destruct (turn_close false (cos th) (sin th) _ _ g X Y dx dy x y x' y' Bc Bs Gc Gs Hx Hy Dx Dy) as [T1 T2]. destruct (turn_close true (sin th) (cos th) _ _ g X Y dx dy x y x' y' Bs Bc Gs Gc Hx Hy Dx Dy) as [T3 T4]. cbv beta iota zeta in T1, T2, T3, T4. exact (IHp _ _ _ _ T1 T3 T2 T4).
  - split; [exact Hm|]. intros x y x' y' Hx Hy Dx Dy. cbn [func fl_func]. destruct (shift_close a X dx x x' Hx Dx) as [P1 P2]. destruct (shift_close b Y dy y y' Hy Dy) as [Q1 Q2]. exact (IHp _ _ _ _ P1 Q1 P2 Q2).
  - split; [exact Hm|]. intros x y x' y' Hx Hy Dx Dy. cbn [func fl_func]. destruct (scale_close k X dx x x' Hk Ek Hx Dx) as (N0 & P1 & P2). destruct (Req_EM_T k 0) as [C|_]; [contradiction|]. destruct (Req_EM_T (z_rnd l k) 0) as [C|_]; [contradiction|]. exact (IHp _ _ _ _ P1 Hy P2 Dy).
  - split; [exact Hm|]. intros x y x' y' Hx Hy Dx Dy. cbn [func fl_func]. destruct (scale_close k Y dy y y' Hk Ek Hy Dy) as (N0 & P1 & P2). destruct (Req_EM_T k 0) as [C|_]; [contradiction|]. destruct (Req_EM_T (z_rnd l k) 0) as [C|_]; [contradiction|]. exact (IHp _ _ _ _ Hx P1 Dx P2).
Qed.
Lemma call_close p X Y m M e x y : bounds u eta ec vp l f_pow basic h p X Y (u * X + eta) (u * Y + eta) m M e -> Rabs x <= X -> Rabs y <= Y ->
  exists v v', func h p x y = Ok (VR v) /\ fl_call l f_pow basic h p x y = Some v' /\ m <= Rabs v <= M /\ Rabs (v' - v) <= e.
Proof.
  intros Hb Hx Hy. apply (proj2 (bounds_accurate _ _ _ _ _ _ _ _ Hb)); [exact Hx|exact Hy| |]; (eapply Rle_trans; [apply (ar_error _ _ _ _ A)|]; apply Rplus_le_compat_r; apply Rmult_le_compat_l; lra).
Qed.
Lemma complex_close p X Y m M e x y : bounds u eta ec vp l f_pow basic h p X Y (u * X + eta) (u * Y + eta) m M e -> Rabs x <= X -> Rabs y <= Y ->
  exists v z, func h p x y = Ok (VR v) /\ func h (PAsC p) x y = Ok (VC (cis v)) /\ fl_call_complex l f_pow basic h p x y = Some z /\ Rabs (fst z - cos v) <= ec + e /\ Rabs (snd z - sin v) <= ec + e.
Proof.
  intros Hb Hx Hy. destruct (call_close p X Y m M e x y Hb Hx Hy) as (v & v' & F & G & _ & D). exists v, (z_cos l v', z_sin l v'). unfold fl_call_complex. rewrite G. cbn [func]. rewrite F. cbn [rbind to_c fst snd]. split; [reflexivity|]. split.
  - do 2 f_equal. unfold Cx.cexp, cis, Ci, Cmult, RtoC. cbn [fst snd]. replace (0 * v - 1 * 0) with 0 by ring. replace (0 * 0 + 1 * v) with v by ring. rewrite exp_0. f_equal; ring.
  - split; [reflexivity|]. split.
    + pose proof (zl_cos _ _ _ Lz v') as C1. pose proof (cos_lipschitz v' v) as C2. replace (z_cos l v' - cos v) with ((z_cos l v' - cos v') + (cos v' - cos v)) by ring. eapply Rle_trans; [apply Rabs_triang|]. lra.
    + pose proof (zl_sin _ _ _ Lz v') as C1. pose proof (sin_lipschitz v' v) as C2. replace (z_sin l v' - sin v) with ((z_sin l v' - sin v') + (sin v' - sin v)) by ring. eapply Rle_trans; [apply Rabs_triang|]. lra.
Qed.
End Prof.

Lemma no_rounding l basic h p : (forall t, z_rnd l t = t) -> (forall t, z_cos l t = cos t) -> (forall t, z_sin l t = sin t) -> (forall q x y v, elementary q -> func h q x y = Ok (VR v) -> basic q x y = v) ->
  forall x y v, func h p x y = Ok (VR v) -> fl_func l rpow basic h p x y = Some v.
Proof.
  intros Hl Hc Hs Hb. induction p; intros x y v F.
  - discriminate.
  - cbn in F. injection F as F. cbn. rewrite F, Hl. reflexivity.
  - cbn [fl_func]. f_equal. apply Hb; [exact I|exact F].
  - cbn in F. destruct (Req_EM_T _ 0); discriminate.
  - cbn [fl_func]. f_equal. apply Hb; [exact I|exact F].
  - cbn [fl_func]. f_equal. apply Hb; [exact I|exact F].
  - cbn [fl_func]. f_equal. apply Hb; [exact I|exact F].
  - cbn [fl_func]. f_equal. apply Hb; [exact I|exact F].
  - cbn [func] in F. destruct (func h p1 x y) as [a|] eqn:F1; [|discriminate]. destruct (func h p2 x y) as [b|] eqn:F2; [|discriminate]. cbn [rbind] in F.
    assert (R : exists s t, a = VR s /\ b = VR t). { destruct a as [s|s], b as [t|t]; [exists s, t; split; reflexivity| | |]; exfalso; cbn [bin_val] in F; destruct o; cbn [bin_c] in F; try discriminate; destruct (C_dec0 _); discriminate. }
    destruct R as (s & t & -> & ->). cbn [bin_val] in F. cbn [fl_func]. rewrite (IHp1 _ _ _ F1), (IHp2 _ _ _ F2). destruct o; cbn [bin_r fl_bin] in *; try (injection F as <-; rewrite Hl; reflexivity). destruct (Req_EM_T t 0); [discriminate|]. injection F as <-. rewrite Hl. reflexivity.
  - cbn [func] in F. destruct (func h p1 x y) as [a|] eqn:F1; [|discriminate]. destruct (func h p2 x y) as [b|] eqn:F2; [|discriminate]. cbn [rbind] in F.
    assert (R : exists s t, a = VR s /\ b = VR t). { destruct a as [s|s], b as [t|t]; [exists s, t; split; reflexivity| | |]; exfalso; cbn [pow_val] in F; destruct (cpow _ _); discriminate. }
    destruct R as (s & t & -> & ->). cbn [pow_val] in F. cbn [fl_func]. rewrite (IHp1 _ _ _ F1), (IHp2 _ _ _ F2). destruct (rpow s t); [|discriminate]. cbn [lift_or] in F. injection F as <-. reflexivity.
  - cbn [func] in F. destruct (func h p x y) as [a|] eqn:F1; [|discriminate]. cbn [rbind] in F. destruct a as [s|s]; cbn [pow_val] in F; [|destruct (cpow _ _); discriminate]. cbn [fl_func]. rewrite (IHp _ _ _ F1), Hl. destruct (rpow s k); [|discriminate]. cbn [lift_or] in F. injection F as <-. reflexivity.
  - cbn [func] in F. destruct (func h p x y) as [a|] eqn:F1; [|discriminate]. cbn [rbind] in F. destruct (cpow _ _); discriminate.
  - cbn [func fl_func] in *. rewrite !Hl, !Hc, !Hs. apply IHp; assumption.
  - cbn [func fl_func] in *. rewrite !Hl. apply IHp; assumption.
  - cbn [func fl_func] in *. rewrite !Hl. destruct (Req_EM_T _ 0); [discriminate|]. apply IHp; assumption.
  - cbn [func fl_func] in *. rewrite !Hl. destruct (Req_EM_T _ 0); [discriminate|]. apply IHp; assumption.
  - cbn [func] in F. destruct (func h p x y); discriminate.
Qed.
Lemma lipschitz_accurate l f_pow basic h p f X Y dx dy m M e kx ky : elementary p -> 0 <= kx -> 0 <= ky -> 
  (forall x y, Rabs x <= X + dx -> Rabs y <= Y + dy -> func h p x y = Ok (VR (f x y)) /\ Rabs (basic p x y - f x y) <= e) -> (forall x y, Rabs x <= X -> Rabs y <= Y -> m <= Rabs (f x y) <= M) ->
  (forall x y x' y', Rabs x <= X -> Rabs y <= Y -> Rabs (x' - x) <= dx -> Rabs (y' - y) <= dy -> Rabs (f x' y' - f x y) <= kx * Rabs (x' - x) + ky * Rabs (y' - y)) ->
  accurate l f_pow basic h p X Y dx dy m M (e + kx * dx + ky * dy).
Proof.
  intros El Kx Ky Hf Hm HL x y x' y' Hx Hy Dx Dy. exists (f x y), (basic p x' y'). pose proof (Rabs_pos (x' - x)) as Px. pose proof (Rabs_pos (y' - y)) as Py. split; [apply Hf; lra|]. split; [destruct p; try contradiction; reflexivity|]. split; [apply Hm; assumption|].
  assert (F : Rabs (basic p x' y' - f x' y') <= e). { apply Hf; [pose proof (abs_le_add _ _ _ Dx)|pose proof (abs_le_add _ _ _ Dy)]; lra. }
  pose proof (HL x y x' y' Hx Hy Dx Dy) as L. assert (kx * Rabs (x' - x) <= kx * dx) by (apply Rmult_le_compat_l; assumption). assert (ky * Rabs (y' - y) <= ky * dy) by (apply Rmult_le_compat_l; assumption).
  replace (basic p x' y' - f x y) with ((basic p x' y' - f x' y') + (f x' y' - f x y)) by ring. eapply Rle_trans; [apply Rabs_triang|]. lra.
Qed.
Lemma rounded_le u eta M e s t : 0 <= u <= s -> 0 <= eta <= s -> 0 <= M -> 0 <= e <= t -> 0 <= rounded u eta M e <= t + s * (M + t) + s.
Proof. intros Hu He HM Ht. unfold rounded. assert (0 <= u * (M + e)) by (apply Rmult_le_pos; lra). assert (u * (M + e) <= s * (M + t)) by (apply Rmult_le_compat; lra). lra. Qed.
(** (window + 3) ** 2, the window turned by 1 and shifted by 1/8; a correctly rounded power. *)
Lemma window_case : let hw := circ_new heap0 0 0 1 in let hc := new_const (fst hw) (VR 3) in let h := fst hc in let p := PPowR (PBin Oadd (PShift (1 / 8) 0 (PRot 1 (snd hw))) (snd hc)) (INR 2) in
  let u := / 2 ^ 53 in let eta := / 2 ^ 1075 in let basic := fun (_ : prof) x y => circ_value 0 0 1 x y in let f_pow := fun s t => option_map binary64 (rpow s t) in let e := rounded u eta (1 + Rabs 3) (0 + (u * Rabs 3 + eta)) in
  accurate_zlib rounded_lib (/ 2 ^ 50) (/ 2 ^ 50) /\ accurate_power f_pow u eta /\
  bounds u eta (/ 2 ^ 50) u rounded_lib f_pow basic h p (1 / 8) (1 / 8) (u * (1 / 8) + eta) (u * (1 / 8) + eta) (0 ^ 2) ((1 + Rabs 3) ^ 2) (u * (1 + Rabs 3 + e) ^ 2 + eta + ((1 + Rabs 3 + e) ^ 2 - (1 + Rabs 3) ^ 2)) /\ func h p 0 0 = Ok (VR 16).
Proof.
  intros hw hc h p u eta basic f_pow e. split; [exact rounded_lib_accurate|]. split; [intros s n; exists (binary64 (s ^ n)); unfold f_pow; rewrite rpow_nat; split; [reflexivity|]; rewrite RPow_abs; apply (ar_error _ _ _ _ binary64_arithmetic)|].
  assert (I2 : z_rnd rounded_lib (INR 2) = INR 2) by (exact (exact_int _ _ _ rounded_lib binary64_arithmetic 0%nat 0%nat 2%Z ltac:(lia))).
  assert (P : forall k, 0 < / 2 ^ k) by (intros; apply Rinv_0_lt_compat, pow_lt; lra). assert (Ps : forall k, (10 <= k)%nat -> / 2 ^ k <= 1 / 1000). { intros k Hk. apply Rle_trans with (/ 2 ^ 10); [apply Rinv_le_contravar; [apply pow_lt; lra|apply Rle_pow; [lra|exact Hk]]|]. replace (2 ^ 10) with 1024 by ring. lra. }
  pose proof (P 53%nat) as u0. pose proof (Ps 53%nat ltac:(lia)) as u1. pose proof (P 1075%nat) as e0. pose proof (Ps 1075%nat ltac:(lia)) as e1. pose proof (P 50%nat) as c0. pose proof (Ps 50%nat ltac:(lia)) as c1.
  fold u in u0, u1. fold eta in e0, e1. set (ec := / 2 ^ 50) in *. 
  assert (In : forall x y, Rabs x <= 7 / 16 -> Rabs y <= 7 / 16 -> circ_value 0 0 1 x y = 1). { intros x y Hx Hy. unfold circ_value, ind, Rleb. destruct (Rle_dec _ _) as [_|K]; [reflexivity|]. exfalso. apply K. rewrite !Rminus_0_r. rewrite <- (pow2_abs x), <- (pow2_abs y). pose proof (Rabs_pos x). pose proof (Rabs_pos y). nra. }
  split.
  - apply b_power; [|exact I2]. apply (b_sum _ _ _ _ _ _ _ _ Oadd _ _ _ _ _ _ 0 1 0 (Rabs 3) (Rabs 3) (u * Rabs 3 + eta)); [left; reflexivity| |apply b_const; reflexivity]. apply b_shift. apply b_rotate. apply b_basic; [exact I|lra|].
    rewrite Rabs_R0, Rabs_R1. rewrite (Rabs_pos_eq (1 / 8)) by lra. set (D := turn_error _ _ _ _ _ _ _).
    assert (HD : D <= 1 / 16). { unfold D, turn_error, shift_error. rewrite Rabs_R0, (Rabs_pos_eq (1 / 8)) by lra. assert (S1 : 0 <= rounded u eta (1 / 8 + 1 / 8) (u * (1 / 8) + eta + (u * (1 / 8) + eta)) <= 5 / 1000). { destruct (rounded_le u eta (1 / 8 + 1 / 8) (u * (1 / 8) + eta + (u * (1 / 8) + eta)) (1 / 1000) (3 / 1000)); lra. } assert (S2 : 0 <= rounded u eta (1 / 8 + 0) (u * (1 / 8) + eta + (u * 0 + eta)) <= 5 / 1000). { destruct (rounded_le u eta (1 / 8 + 0) (u * (1 / 8) + eta + (u * 0 + eta)) (1 / 1000) (3 / 1000)); lra. }
      set (s1 := rounded u eta (1 / 8 + 1 / 8) _) in *. set (s2 := rounded u eta (1 / 8 + 0) _) in *. set (g := ec + (u * 1 + eta)) in *. assert (Hg : 0 <= g <= 3 / 1000) by (unfold g; lra).
      assert (T1 : 0 <= g * (1 / 8 + 1 / 8 + s1) + s1 <= 10 / 1000). { assert (0 <= g * (1 / 8 + 1 / 8 + s1) <= 3 / 1000 * 1) by (split; [apply Rmult_le_pos; lra|apply Rmult_le_compat; lra]). lra. } assert (T2 : 0 <= g * (1 / 8 + 0 + s2) + s2 <= 10 / 1000). { assert (0 <= g * (1 / 8 + 0 + s2) <= 3 / 1000 * 1) by (split; [apply Rmult_le_pos; lra|apply Rmult_le_compat; lra]). lra. }
      destruct (rounded_le u eta (1 / 8 + 1 / 8) _ (1 / 1000) _ ltac:(lra) ltac:(lra) ltac:(lra) T1) as [R0 R1']. destruct (rounded_le u eta (1 / 8 + 0) _ (1 / 1000) _ ltac:(lra) ltac:(lra) ltac:(lra) T2) as [R2 R3]. set (a := rounded u eta (1 / 8 + 1 / 8) (g * _ + _)) in *. set (b := rounded u eta (1 / 8 + 0) (g * _ + _)) in *.
      assert (AB : 0 <= a + b <= 30 / 1000) by lra. destruct (rounded_le u eta (1 / 8 + 1 / 8 + (1 / 8 + 0)) _ (1 / 1000) _ ltac:(lra) ltac:(lra) ltac:(lra) AB). lra. }
    intros x y x' y' Hx Hy Dx Dy. exists 1, 1. pose proof (abs_le_add _ _ _ Dx). pose proof (abs_le_add _ _ _ Dy). split; [|split; [|split]].
    + change (Ok (VR (circ_value 0 0 1 x y)) = Ok (VR 1)). rewrite In by lra. reflexivity.
    + change (Some (circ_value 0 0 1 x' y') = Some 1). rewrite In by lra. reflexivity.
    + rewrite Rabs_R1. lra.
    + replace (1 - 1) with 0 by ring. rewrite Rabs_R0. lra.
  - assert (F : func h (PBin Oadd (PShift (1 / 8) 0 (PRot 1 (snd hw))) (snd hc)) 0 0 = Ok (VR 4)).
    + cbn [func]. change (Ok (VR (circ_value 0 0 1 (cos 1 * (0 - 1 / 8) - sin 1 * (0 - 0)) (sin 1 * (0 - 1 / 8) + cos 1 * (0 - 0)) + 3)) = Ok (VR 4)). rewrite In; [do 2 f_equal; ring| |]; rewrite !Rminus_0_r, Rmult_0_r.
      * rewrite Rminus_0_r. pose proof (cos_abs 1) as K. assert (Rabs (cos 1 * (0 - 1 / 8)) <= 1 * (1 / 8)) by (apply mult_le; [exact K|apply Rabs_le; lra]). lra.
      * rewrite Rplus_0_r. pose proof (FlZernFacts2.sin_abs 1) as K. assert (Rabs (sin 1 * (0 - 1 / 8)) <= 1 * (1 / 8)) by (apply mult_le; [exact K|apply Rabs_le; lra]). lra.
    + unfold p. change (rbind (func h (PBin Oadd (PShift (1 / 8) 0 (PRot 1 (snd hw))) (snd hc)) 0 0) (fun a => pow_val a (VR (INR 2))) = Ok (VR 16)). rewrite F. cbn [rbind pow_val]. rewrite rpow_nat. cbn [lift_or]. do 2 f_equal. ring.
Qed.
