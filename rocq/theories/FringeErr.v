(** Effect of rounding on the fringes of a grating (C123). *)
From Coq Require Import Reals Lra Psatz ZArith Arith List Bool Lia.
From Flocq Require Import Core.
From Coquelicot Require Import Complex.
From Verif Require Import Cx PyBase ProfileModel SlmModel LibModel DmdModel SimModel SimSpec DmdSpec FloatModel FloatSpec FloatFacts FloatFacts2 FringeSpec StabFacts.
Open Scope R_scope.

(** [b] is [x] up to [k] units of relative error [v] at the scale [s]. *)
Definition near (v k s b x : R) : Prop := Rabs (b - x) <= k * v * s /\ Rabs x <= s.
Section Calc.
Variable v : R.
Hypothesis Hv : 0 <= v <= / 2 ^ 16.
Lemma near_round f u eta B k s b x : arithmetic u eta B f -> near v k s b x -> 0 <= u <= v -> eta <= v * s -> 0 <= k <= 40 -> near v (k + 2.01) s (f b) x.
Proof.
  intros H [N M] Hu He Hk. split; [|exact M]. assert (E := ar_error _ _ _ _ H b).
  assert (S0 : 0 <= s) by (pose proof (Rabs_pos x); lra).
  assert (T : Rabs b <= s + k * v * s). { replace b with ((b - x) + x) by ring. eapply Rle_trans; [apply Rabs_triang|]. lra. }
  assert (Z : k * v <= / 1000). { assert (k * v <= 40 * / 2 ^ 16) by (apply Rmult_le_compat; lra). lra. }
  assert (T2 : Rabs b <= 1.001 * s) by nra.
  assert (T3 : u * Rabs b <= v * (1.001 * s)) by (apply Rmult_le_compat; [lra|apply Rabs_pos|lra|exact T2]).
  replace (f b - x) with ((f b - b) + (b - x)) by ring. eapply Rle_trans; [apply Rabs_triang|].
  assert (0 <= v * s) by (apply Rmult_le_pos; lra). lra.
Qed.
Lemma near_mult k l s t b x c y : near v k s b x -> near v l t c y -> 0 <= k <= 40 -> 0 <= l <= 40 -> near v (k + l + 0.03) (s * t) (b * c) (x * y).
Proof.
  intros [N M] [N' M'] Hk Hl. assert (S0 := Rabs_pos x). assert (T0 := Rabs_pos y). split.
  - replace (b * c - x * y) with ((b - x) * (c - y) + x * (c - y) + (b - x) * y) by ring.
    eapply Rle_trans; [apply Rabs_triang|]. eapply Rle_trans; [apply Rplus_le_compat_r, Rabs_triang|]. rewrite !Rabs_mult.
    assert (A1 : Rabs (b - x) * Rabs (c - y) <= (k * v * s) * (l * v * t)) by (apply Rmult_le_compat; try apply Rabs_pos; assumption).
    assert (A2 : Rabs x * Rabs (c - y) <= s * (l * v * t)) by (apply Rmult_le_compat; try apply Rabs_pos; assumption).
    assert (A3 : Rabs (b - x) * Rabs y <= (k * v * s) * t) by (apply Rmult_le_compat; try apply Rabs_pos; assumption).
    assert (KL : k * l <= 1600) by nra. assert (KV : k * l * v <= 0.03). { assert (k * l * v <= 1600 * / 2 ^ 16) by (apply Rmult_le_compat; [nra|lra|lra|lra]). lra. }
    assert (P : 0 <= v * (s * t)) by (apply Rmult_le_pos; [lra|apply Rmult_le_pos; lra]).
    assert (KV2 : k * l * v * (v * (s * t)) <= 0.03 * (v * (s * t))) by (apply Rmult_le_compat_r; assumption).
    replace (k * v * s * (l * v * t)) with (k * l * v * (v * (s * t))) in A1 by ring.
    replace (s * (l * v * t)) with (l * (v * (s * t))) in A2 by ring. replace (k * v * s * t) with (k * (v * (s * t))) in A3 by ring.
    replace ((k + l + 0.03) * v * (s * t)) with (k * (v * (s * t)) + l * (v * (s * t)) + 0.03 * (v * (s * t))) by ring. lra.
  - rewrite Rabs_mult. apply Rmult_le_compat; assumption.
Qed.
Lemma near_plus k s t b x c y : near v k s b x -> near v k t c y -> near v k (s + t) (b + c) (x + y).
Proof.
  intros [N M] [N' M']. split.
  - replace (b + c - (x + y)) with ((b - x) + (c - y)) by ring. eapply Rle_trans; [apply Rabs_triang|]. lra.
  - eapply Rle_trans; [apply Rabs_triang|]. lra.
Qed.
Lemma near_opp k s b x : near v k s b x -> near v k s (- b) (- x).
Proof. intros [N M]. split; [|rewrite Rabs_Ropp; exact M]. replace (- b - - x) with (- (b - x)) by ring. rewrite Rabs_Ropp. exact N. Qed.
Lemma near_more k k' s b x : near v k s b x -> k <= k' -> near v k' s b x.
Proof. intros [N M] Hk. split; [|exact M]. assert (0 <= s) by (pose proof (Rabs_pos x); lra). assert (0 <= v * s) by (apply Rmult_le_pos; lra). nra. Qed.
Lemma near_scale k s t b x : near v k s b x -> 0 <= k -> s <= t -> near v k t b x.
Proof. intros [N M] Hk Hs. split; [|lra]. assert (0 <= k * v) by (apply Rmult_le_pos; lra). nra. Qed.
(** Division by a positive number that is known up to two units. *)
Lemma near_div k s b x p q : near v k s b x -> 0 <= k <= 40 -> 0 < p -> near v 2.01 p q p -> near v (k + 2.03) (s / p) (b / q) (x / p).
Proof.
  intros [N M] Hk Hp [Q _]. assert (S0 : 0 <= s) by (pose proof (Rabs_pos x); lra).
  assert (vp : 2.01 * v * p <= 0.0001 * p) by (apply Rmult_le_compat_r; lra).
  assert (Q' : 0.9999 * p <= q). { apply Rabs_le_inv in Q. lra. }
  assert (Hq : 0 < q) by lra.
  assert (Ix : Rabs (x / p) <= s / p). { unfold Rdiv. rewrite Rabs_mult, (Rabs_pos_eq (/ p)) by (apply Rlt_le, Rinv_0_lt_compat; lra). apply Rmult_le_compat_r; [apply Rlt_le, Rinv_0_lt_compat; lra|exact M]. }
  split; [|exact Ix].
  replace (b / q - x / p) with (((b - x) - x / p * (q - p)) / q) by (field; lra).
  unfold Rdiv at 1. rewrite Rabs_mult, (Rabs_pos_eq (/ q)) by (apply Rlt_le, Rinv_0_lt_compat; lra).
  assert (D : Rabs (b - x - x / p * (q - p)) <= (k + 2.01) * v * s).
  { replace (b - x - x / p * (q - p)) with ((b - x) + - (x / p * (q - p))) by ring. eapply Rle_trans; [apply Rabs_triang|]. rewrite Rabs_Ropp, Rabs_mult.
    assert (Rabs (x / p) * Rabs (q - p) <= s / p * (2.01 * v * p)) by (apply Rmult_le_compat; try apply Rabs_pos; assumption).
    replace (s / p * (2.01 * v * p)) with (2.01 * v * s) in H by (field; lra). lra. }
  assert (V : 0 <= v * s) by (apply Rmult_le_pos; lra).
  assert (W : / q <= / (0.9999 * p)) by (apply Rinv_le_contravar; lra).
  apply Rle_trans with (((k + 2.01) * v * s) * / (0.9999 * p)).
  { apply Rmult_le_compat; [apply Rabs_pos|apply Rlt_le, Rinv_0_lt_compat; lra|exact D|exact W]. }
  replace ((k + 2.01) * v * s * / (0.9999 * p)) with (((k + 2.01) / 0.9999) * (v * s / p)) by (field; lra).
  replace ((k + 2.03) * v * (s / p)) with ((k + 2.03) * (v * s / p)) by (field; lra).
  apply Rmult_le_compat_r; [unfold Rdiv; apply Rmult_le_pos; [exact V|apply Rlt_le, Rinv_0_lt_compat; lra]|]. lra.
Qed.
End Calc.
Section Chain.
Variables (a : fpu) (u eta u' eta' v : R) (B B' : Z).
Hypotheses (H : arithmetic u eta B (rnd a)) (H' : arithmetic u' eta' B' (dbl a)) (HB : (2 ^ 22 <= B)%Z).
Hypotheses (Hu : 0 <= u <= / 2 ^ 24) (Huv : u <= v) (Hu' : 0 <= u' <= v) (Hv : v <= / 2 ^ 16) (He : 0 <= eta <= v) (He' : eta' <= v).
Hypotheses (HL : library a) (HA : accurate a v).
Lemma v_range : 0 <= v <= / 2 ^ 16. Proof. lra. Qed.
Lemma turned th : Rabs th <= 4 -> near v 6 1 (f_cos a (rnd a th)) (cos th) /\ near v 6 1 (f_sin a (rnd a th)) (sin th).
Proof.
  intros Ht. assert (E := ar_error _ _ _ _ H th). assert (E' : Rabs (rnd a th - th) <= 5 * v).
  { assert (u * Rabs th <= v * 4) by (apply Rmult_le_compat; [lra|apply Rabs_pos|lra|lra]). lra. }
  assert (CB := COS_bound th). assert (SB := SIN_bound th). split; (split; [|apply Rabs_le; lra]).
  - replace (f_cos a (rnd a th) - cos th) with ((f_cos a (rnd a th) - cos (rnd a th)) + (cos (rnd a th) - cos th)) by ring.
    eapply Rle_trans; [apply Rabs_triang|]. assert (Q := acc_cos _ _ HA (rnd a th)). assert (Q' := cos_lipschitz (rnd a th) th). lra.
  - replace (f_sin a (rnd a th) - sin th) with ((f_sin a (rnd a th) - sin (rnd a th)) + (sin (rnd a th) - sin th)) by ring.
    eapply Rle_trans; [apply Rabs_triang|]. assert (Q := acc_sin _ _ HA (rnd a th)). assert (Q' := cos_lipschitz (PI / 2 - rnd a th) (PI / 2 - th)).
    rewrite !cos_shift in Q'. replace (PI / 2 - rnd a th - (PI / 2 - th)) with (- (rnd a th - th)) in Q' by ring. rewrite Rabs_Ropp in Q'. lra.
Qed.
Lemma placed k ps : 0 < ps -> eta <= v * ps -> near v 4.01 (Rabs (k * ps) + ps) (rnd a (k * rnd a ps)) (k * ps).
Proof.
  intros Hp Hq. split; [|lra]. eapply Rle_trans; [apply (scaled_error (rnd a) u eta B H Hu (proj1 He) k ps Hp)|].
  rewrite Rabs_mult, (Rabs_pos_eq ps) by lra. assert (K := Rabs_pos k). set (x := Rabs k * ps) in *.
  assert (X : 0 <= x) by (apply Rmult_le_pos; lra). assert (U : u ^ 2 <= 0.01 * v) by nra.
  assert (M : Rabs k * eta <= v * x). { unfold x. replace (v * (Rabs k * ps)) with (Rabs k * (v * ps)) by ring. apply Rmult_le_compat_l; assumption. }
  assert ((2 * u + u ^ 2) * x <= (2.01 * v) * x) by (apply Rmult_le_compat_r; lra). assert (0 <= v * x) by (apply Rmult_le_pos; lra). assert (0 <= v * ps) by (apply Rmult_le_pos; lra). nra.
Qed.
Lemma pitch p : 0 < p -> eta <= v * p -> near v 2.01 p (rnd a p) p.
Proof.
  intros Hp Hq. replace 2.01 with (0 + 2.01) by ring. apply (near_round v v_range (rnd a) u eta B 0 p p p H); [|lra|exact Hq|lra].
  split; [rewrite Rminus_diag_eq, Rabs_R0 by reflexivity; lra|rewrite Rabs_pos_eq; lra].
Qed.
Lemma wave_near p : 0 < p -> eta <= v * p -> eta <= v * wave_number p -> near v 10.07 (wave_number p) (rnd a (rnd a (dbl a (2 * dbl a PI)) / rnd a p)) (wave_number p).
Proof.
  intros Hp E1 E2. assert (P := PI_RGT_0). assert (P3 := PI2_1).
  assert (N1 : near v (0 + 2.01) PI (dbl a PI) PI).
  { apply (near_round v v_range (dbl a) u' eta' B' 0 PI PI PI H'); [|lra|nra|lra]. split; [rewrite Rminus_diag_eq, Rabs_R0 by reflexivity; lra|rewrite Rabs_pos_eq; lra]. }
  assert (N2 : near v (0 + 2.01) (2 * PI) (2 * dbl a PI) (2 * PI)).
  { destruct N1 as [N1 _]. split; [|rewrite Rabs_pos_eq; lra]. replace (2 * dbl a PI - 2 * PI) with (2 * (dbl a PI - PI)) by ring. rewrite Rabs_mult, (Rabs_pos_eq 2) by lra. lra. }
  assert (N3 := near_round v v_range (dbl a) u' eta' B' _ _ _ _ H' N2 ltac:(lra) ltac:(nra) ltac:(lra)).
  assert (N4 := near_round v v_range (rnd a) u eta B _ _ _ _ H N3 ltac:(lra) ltac:(nra) ltac:(lra)).
  assert (N5 := near_div v v_range _ _ _ _ p (rnd a p) N4 ltac:(lra) Hp (pitch p Hp E1)). fold (wave_number p) in N5.
  assert (N6 := near_round v v_range (rnd a) u eta B _ _ _ _ H N5 ltac:(lra) E2 ltac:(lra)).
  apply (near_more v v_range _ _ _ _ _ N6). lra.
Qed.
Lemma carrier_near kx ky ps p th : 0 < ps -> 0 < p -> Rabs th <= 4 -> eta <= v * ps -> eta <= v * p -> eta <= v * wave_number p -> eta <= v * (wave_number p * ps) ->
  near v 26.17 (phase_size p ps (kx * ps) (ky * ps)) (fl_grating_phase a (rnd a (kx * rnd a ps)) (rnd a (ky * rnd a ps)) (rnd a th) (rnd a p))
    (wave_number p * (cos th * (kx * ps) + sin th * (ky * ps))).
Proof.
  intros Hs Hp Ht E1 E2 E3 E4. destruct (turned th Ht) as [C S]. unfold fl_grating_phase.
  assert (X := placed kx ps Hs E1). assert (Y := placed ky ps Hs E1). assert (W := wave_near p Hp E2 E3).
  assert (Wp : 0 < wave_number p) by (apply Rdiv_lt_0_compat; [assert (Q := PI_RGT_0); lra|exact Hp]).
  set (x := kx * ps) in *. set (y := ky * ps) in *. set (X' := rnd a (kx * rnd a ps)) in *. set (Y' := rnd a (ky * rnd a ps)) in *. set (q := rnd a (rnd a (dbl a (2 * dbl a PI)) / rnd a p)) in *.
  assert (Px := Rabs_pos x). assert (Py := Rabs_pos y).
  assert (Sx : v * ps <= v * (1 * (Rabs x + ps))) by (apply Rmult_le_compat_l; lra). assert (Sy : v * ps <= v * (1 * (Rabs y + ps))) by (apply Rmult_le_compat_l; lra).
  assert (Nx := near_round v v_range (rnd a) u eta B _ _ _ _ H (near_mult v v_range _ _ _ _ _ _ _ _ C X ltac:(lra) ltac:(lra)) ltac:(lra) ltac:(lra) ltac:(lra)).
  assert (Ny := near_round v v_range (rnd a) u eta B _ _ _ _ H (near_mult v v_range _ _ _ _ _ _ _ _ S Y ltac:(lra) ltac:(lra)) ltac:(lra) ltac:(lra) ltac:(lra)).
  assert (Sz : v * ps <= v * (1 * (Rabs x + ps) + 1 * (Rabs y + ps))) by (apply Rmult_le_compat_l; lra).
  assert (N := near_round v v_range (rnd a) u eta B _ _ _ _ H (near_plus v _ _ _ _ _ _ _ Nx Ny) ltac:(lra) ltac:(lra) ltac:(lra)).
  assert (M := near_mult v v_range _ _ _ _ _ _ _ _ W N ltac:(lra) ltac:(lra)).
  replace (wave_number p * (1 * (Rabs x + ps) + 1 * (Rabs y + ps))) with (phase_size p ps x y) in M by (unfold phase_size; ring).
  assert (Sf : v * (wave_number p * ps) <= v * phase_size p ps x y) by (apply Rmult_le_compat_l; [lra|]; apply Rmult_le_compat_l; lra).
  assert (F := near_round v v_range (rnd a) u eta B _ _ _ _ H M ltac:(lra) ltac:(lra) ltac:(lra)).
  apply (near_more v v_range _ _ _ _ _ F). lra.
Qed.
Lemma fringe_near neg pin pout kx ky ps p th : 0 < ps -> 0 < p -> Rabs th <= 4 -> eta <= v * ps -> eta <= v * p -> eta <= v * wave_number p -> eta <= v * (wave_number p * ps) ->
  Rabs pin <= 4 -> Rabs pout <= 4 ->
  Rabs (fl_fringe a neg pin pout (rnd a (kx * rnd a ps)) (rnd a (ky * rnd a ps)) (rnd a p) (rnd a th)
    - cos (wave_number p * (cos th * (kx * ps) + sin th * (ky * ps)) - signed neg (pout - pin))) <= 29 * v * (phase_size p ps (kx * ps) (ky * ps) + 8).
Proof.
  intros Hs Hp Ht E1 E2 E3 E4 Hi Ho. assert (G := carrier_near kx ky ps p th Hs Hp Ht E1 E2 E3 E4). unfold fl_fringe.
  set (g := fl_grating_phase a _ _ _ _) in *. set (c := wave_number p * (cos th * (kx * ps) + sin th * (ky * ps))) in *. set (F := phase_size p ps (kx * ps) (ky * ps)) in *.
  cbv zeta. clearbody g c F. assert (PF : 0 <= F) by (destruct G as [_ G]; pose proof (Rabs_pos c); lra).
  assert (R : near v (0 + 2.01) 8 (rnd a ((if neg then - pout else pout) - (if neg then - pin else pin))) (signed neg (pout - pin))).
  { apply (near_round v v_range (rnd a) u eta B 0 8 _ _ H); [|lra|lra|lra]. apply Rabs_le_inv in Hi. apply Rabs_le_inv in Ho.
    unfold signed. split; [|destruct neg; apply Rabs_le; lra]. replace (_ - _) with 0 by (destruct neg; ring). rewrite Rabs_R0. lra. }
  apply (near_more v v_range _ 26.17) in R; [|lra].
  assert (T := near_round v v_range (rnd a) u eta B _ _ _ _ H (near_plus v _ _ _ _ _ _ _ G (near_opp v _ _ _ _ R)) ltac:(lra) ltac:(nra) ltac:(lra)).
  destruct T as [T _]. match goal with |- Rabs (f_cos a ?t - cos ?e) <= _ => replace t with (rnd a (g + - rnd a ((if neg then - pout else pout) - (if neg then - pin else pin)))) by reflexivity end.
  set (t := rnd a (g + _)) in *. clearbody t. replace (c - signed neg (pout - pin)) with (c + - signed neg (pout - pin)) by ring. set (e := c + _) in *. clearbody e.
  replace (f_cos a t - cos e) with ((f_cos a t - cos t) + (cos t - cos e)) by ring. eapply Rle_trans; [apply Rabs_triang|].
  assert (Q := acc_cos _ _ HA t). assert (Q' := cos_lipschitz t e). assert (0 <= v * (F + 8)) by (apply Rmult_le_pos; lra). assert (v * 8 <= v * (F + 8)) by (apply Rmult_le_compat_l; lra). lra.
Qed.
Lemma level_near A c e : Rabs A <= 1 -> -1 <= c <= 1 -> Rabs (rnd a (A * rnd a (rnd a (c / 2) + rnd a (1 / 2))) - A * (e / 2 + 1 / 2)) <= Rabs (c - e) / 2 + 5.6 * v.
Proof.
  intros HA1 Hc. rewrite (z12 a u eta B H HB). assert (E1 := ar_error _ _ _ _ H (c / 2)). set (h1 := rnd a (c / 2)) in *.
  assert (E2 := ar_error _ _ _ _ H (h1 + 1 / 2)). set (h2 := rnd a (h1 + 1 / 2)) in *. assert (E3 := ar_error _ _ _ _ H (A * h2)). set (h3 := rnd a (A * h2)) in *.
  assert (C2 : Rabs (c / 2) <= 1 / 2) by (apply Rabs_le; lra).
  assert (F1 : Rabs (h1 - c / 2) <= 1.5 * v). { assert (u * Rabs (c / 2) <= v * (1 / 2)) by (apply Rmult_le_compat; [lra|apply Rabs_pos|lra|lra]). lra. }
  assert (B1 : Rabs (h1 + 1 / 2) <= 1.001). { replace (h1 + 1 / 2) with ((h1 - c / 2) + (c / 2 + 1 / 2)) by ring. eapply Rle_trans; [apply Rabs_triang|]. rewrite (Rabs_pos_eq (c / 2 + 1 / 2)) by lra. lra. }
  assert (F2 : Rabs (h2 - (h1 + 1 / 2)) <= 2.01 * v). { assert (u * Rabs (h1 + 1 / 2) <= v * 1.001) by (apply Rmult_le_compat; [lra|apply Rabs_pos|lra|lra]). lra. }
  assert (B2 : Rabs h2 <= 1.01). { replace h2 with ((h2 - (h1 + 1 / 2)) + (h1 + 1 / 2)) by ring. eapply Rle_trans; [apply Rabs_triang|]. lra. }
  assert (B3 : Rabs (A * h2) <= 1.01). { rewrite Rabs_mult. replace 1.01 with (1 * 1.01) by ring. apply Rmult_le_compat; try apply Rabs_pos; assumption. }
  assert (F3 : Rabs (h3 - A * h2) <= 2.02 * v). { assert (u * Rabs (A * h2) <= v * 1.01) by (apply Rmult_le_compat; [lra|apply Rabs_pos|lra|lra]). lra. }
  assert (F4 : Rabs (h2 - (e / 2 + 1 / 2)) <= Rabs (c - e) / 2 + 3.51 * v).
  { replace (h2 - (e / 2 + 1 / 2)) with ((h2 - (h1 + 1 / 2)) + ((h1 - c / 2) + (c - e) / 2)) by field. eapply Rle_trans; [apply Rabs_triang|].
    assert (D := Rabs_triang (h1 - c / 2) ((c - e) / 2)). unfold Rdiv in D at 2 4. rewrite (Rabs_mult (c - e)), (Rabs_pos_eq (/ 2)) in D by lra. unfold Rdiv in *. lra. }
  replace (h3 - A * (e / 2 + 1 / 2)) with ((h3 - A * h2) + A * (h2 - (e / 2 + 1 / 2))) by ring. eapply Rle_trans; [apply Rabs_triang|]. rewrite Rabs_mult.
  assert (Rabs A * Rabs (h2 - (e / 2 + 1 / 2)) <= 1 * (Rabs (c - e) / 2 + 3.51 * v)) by (apply Rmult_le_compat; try apply Rabs_pos; assumption). lra.
Qed.
Lemma ideal_near neg A pin pout kx ky ps p th : 0 < ps -> 0 < p -> Rabs th <= 4 -> eta <= v * ps -> eta <= v * p -> eta <= v * wave_number p -> eta <= v * (wave_number p * ps) ->
  Rabs pin <= 4 -> Rabs pout <= 4 -> Rabs A <= 1 ->
  Rabs (fl_ideal a neg A pin pout (rnd a (kx * rnd a ps)) (rnd a (ky * rnd a ps)) (rnd a p) (rnd a th)
    - A * (cos (wave_number p * (cos th * (kx * ps) + sin th * (ky * ps)) - signed neg (pout - pin)) / 2 + 1 / 2)) <= 16 * v * (phase_size p ps (kx * ps) (ky * ps) + 8).
Proof.
  intros Hs Hp Ht E1 E2 E3 E4 Hi Ho H1. assert (F := fringe_near neg pin pout kx ky ps p th Hs Hp Ht E1 E2 E3 E4 Hi Ho). unfold fl_ideal.
  set (c := fl_fringe a _ _ _ _ _ _ _) in *. assert (Hc : -1 <= c <= 1) by apply (lib_cos _ HL).
  eapply Rle_trans; [apply level_near; assumption|].
  assert (PF : 0 <= phase_size p ps (kx * ps) (ky * ps)).
  { apply Rmult_le_pos; [apply Rlt_le, Rdiv_lt_0_compat; [assert (Q := PI_RGT_0); lra|exact Hp]|]. pose proof (Rabs_pos (kx * ps)). pose proof (Rabs_pos (ky * ps)). lra. }
  set (S := phase_size p ps (kx * ps) (ky * ps)) in *. clearbody S c. assert (v * 8 <= v * (S + 8)) by (apply Rmult_le_compat_l; lra). lra.
Qed.
End Chain.
