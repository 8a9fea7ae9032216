(** The random grating after rounding (C124). *)
From Coq Require Import Reals Lra Psatz ZArith Arith List Bool Lia.
From Flocq Require Import Core.
From Coquelicot Require Import Complex Coquelicot.
From Verif Require Import Cx PyBase ProfileModel SlmModel LibModel DmdModel SimModel SimSpec DmdSpec DmdFacts DmdFacts2 DmdFacts3 DmdThms LinearFacts RandomFacts FloatModel FloatSpec FloatFacts FloatFacts2 FloatFacts4 FringeSpec InverseSpec StabFacts FringeErr FringeErr2.
Open Scope R_scope.

(** ** Continuity of the functions *)
Lemma tanh_lipschitz x y : Rabs (tanh x - tanh y) <= Rabs (x - y).
Proof.
  assert (K : forall x y, x <= y -> tanh y - tanh x <= y - x).
  { clear. intros x y Hxy. destruct (MVT_gen tanh x y (fun x => 4 * exp (2 * x) / (exp (2 * x) + 1) ^ 2)) as (c & _ & E).
    - intros t _. apply tanh_derive.
    - intros t _. apply continuity_pt_filterlim. apply (ex_derive_continuous (V := R_NormedModule)). eexists. apply tanh_derive.
    - rewrite E. assert (P := exp_pos (2 * c)). assert (4 * exp (2 * c) / (exp (2 * c) + 1) ^ 2 <= 1) as Q.
      2:{ set (k := 4 * exp (2 * c) / (exp (2 * c) + 1) ^ 2) in *. clearbody k. nra. }
      apply Rmult_le_reg_r with ((exp (2 * c) + 1) ^ 2); [nra|]. set (e := exp (2 * c)) in *. clearbody e. replace (4 * e / (e + 1) ^ 2 * (e + 1) ^ 2) with (4 * e) by (field; lra). assert (0 <= (e - 1) ^ 2) by apply pow2_ge_0. lra. }
  destruct (Rle_dec x y) as [L|L].
  - assert (T := tanh_mono x y L). assert (Q := K x y L). rewrite (Rabs_minus_sym (tanh x)), (Rabs_minus_sym x). rewrite !Rabs_pos_eq by lra. exact Q.
  - assert (L' : y <= x) by lra. assert (T := tanh_mono y x L'). assert (Q := K y x L'). rewrite !Rabs_pos_eq by lra. exact Q.
Qed.
Lemma folding_lipschitz s t : Rabs (acos (cos s) - acos (cos t)) <= Rabs (s - t).
Proof.
  assert (K : forall s t, acos (cos s) - acos (cos t) <= Rabs (s - t)).
  { clear. intros s t. destruct (folded_acos t) as [Bt [k Et]]. set (q := acos (cos t)) in *. clearbody q.
    assert (M : acos (cos s) <= Rabs (s - 2 * PI * IZR k)).
    { set (z := s - 2 * PI * IZR k). assert (E : cos s = cos z).
      { replace s with (z + 2 * PI * IZR k) by (unfold z; ring). assert (E := cis_period z k). unfold cis in E. injection E as -> _. reflexivity. }
      rewrite E. destruct (Rle_dec (Rabs z) PI) as [L|L].
      - rewrite folded_inside by (apply Rabs_le_inv in L; lra). lra.
      - assert (B := acos_bound (cos z)). lra. }
    assert (Rabs (s - 2 * PI * IZR k) <= Rabs (s - t) + q); [|lra].
    replace (s - 2 * PI * IZR k) with ((s - t) + (t - 2 * PI * IZR k)) by ring. eapply Rle_trans; [apply Rabs_triang|].
    assert (Rabs (t - 2 * PI * IZR k) = q); [|lra]. destruct Et as [-> | ->].
    - replace (2 * PI * IZR k + q - 2 * PI * IZR k) with q by ring. apply Rabs_pos_eq. lra.
    - replace (2 * PI * IZR k - q - 2 * PI * IZR k) with (- q) by ring. rewrite Rabs_Ropp. apply Rabs_pos_eq. lra. }
  apply Rabs_le. assert (K1 := K s t). assert (K2 := K t s). rewrite (Rabs_minus_sym t) in K2. lra.
Qed.
Lemma sin_chord x : 0 <= x <= PI / 2 -> 2 / PI * x <= sin x.
Proof.
  intros [H0 H1]. assert (P := PI_RGT_0). destruct (Req_dec x 0) as [->|N]; [rewrite sin_0; lra|]. destruct (Req_dec x (PI / 2)) as [->|N'].
  { rewrite sin_PI2. right. field. lra. }
  destruct (MVT_gen sin 0 x cos) as (c & Hc & E).
  { intros t _. apply is_derive_sin. }
  { intros t _. apply continuity_sin. }
  destruct (MVT_gen sin x (PI / 2) cos) as (d & Hd & E').
  { intros t _. apply is_derive_sin. }
  { intros t _. apply continuity_sin. }
  rewrite Rmin_left, Rmax_right in Hc by lra. rewrite Rmin_left, Rmax_right in Hd by lra. rewrite sin_0 in E. rewrite sin_PI2 in E'.
  assert (L : cos d <= cos c) by (apply cos_decr_1; lra).
  assert (Q : 2 / PI * x * (PI / 2) = x) by (field; lra).
  assert (cos d * (PI / 2 - x) * x <= cos c * (PI / 2 - x) * x) by (apply Rmult_le_compat_r; [lra|]; apply Rmult_le_compat_r; lra).
  assert ((1 - sin x) * x <= sin x * (PI / 2 - x)) by nra. apply Rmult_le_reg_r with (PI / 2); [lra|]. nra.
Qed.
Lemma acos_holder x y v : -1 <= x <= 1 -> -1 <= y <= 1 -> Rabs (x - y) <= v -> Rabs (acos x - acos y) <= PI * sqrt (v / 2).
Proof.
  assert (P := PI_RGT_0).
  assert (K : forall x y, -1 <= x <= 1 -> -1 <= y <= 1 -> Rabs (x - y) <= v -> acos y <= acos x -> acos x - acos y <= PI * sqrt (v / 2)).
  { clear x y. intros x y Hx Hy Hv L. set (d := (acos x - acos y) / 2). set (m := (acos x + acos y) / 2). assert (Bx := acos_bound x). assert (By := acos_bound y).
    assert (E : y - x = 2 * sin m * sin d).
    { rewrite <- (cos_acos x Hx), <- (cos_acos y Hy) at 1. replace (acos x) with (m + d) by (unfold m, d; lra). replace (acos y) with (m - d) by (unfold m, d; lra). rewrite cos_plus, cos_minus. ring. }
    assert (Hd : 0 <= d <= PI / 2) by (unfold d; lra). assert (Hm : d <= m <= PI - d) by (unfold m, d; lra).
    assert (S : sin d <= sin m).
    { destruct (Rle_dec m (PI / 2)) as [M|M]; [apply sin_incr_1; lra|]. rewrite <- (sin_PI_x m). apply sin_incr_1; lra. }
    assert (C := sin_chord d Hd). assert (C0 : 0 <= 2 / PI * d) by (apply Rmult_le_pos; [apply Rlt_le, Rdiv_lt_0_compat; lra|lra]).
    assert (Q : 2 * (2 / PI * d) ^ 2 <= v) by (rewrite Rabs_minus_sym in Hv; apply Rabs_le_inv in Hv; nra).
    assert (R0 : 2 / PI * d <= sqrt (v / 2)). { rewrite <- (sqrt_pow2 (2 / PI * d)) by exact C0. apply sqrt_le_1_alt. lra. }
    replace (acos x - acos y) with (PI * (2 / PI * d)) by (unfold d; field; lra). apply Rmult_le_compat_l; lra. }
  intros Hx Hy Hv. destruct (Rle_dec (acos y) (acos x)) as [L|L].
  - rewrite Rabs_pos_eq by lra. apply K; assumption.
  - rewrite Rabs_minus_sym, Rabs_pos_eq by lra. apply K; try assumption; [|lra]. rewrite Rabs_minus_sym. exact Hv.
Qed.

Section Duty.
Variables (a : fpu) (u eta u' eta' v : R) (B B' : Z).
Hypotheses (H : arithmetic u eta B (rnd a)) (H' : arithmetic u' eta' B' (dbl a)) (HB : (2 ^ 22 <= B)%Z).
Hypotheses (Hu : 0 <= u <= / 2 ^ 24) (Huv : u <= v) (Hu' : 0 <= u' <= v) (Hv : v <= / 2 ^ 16) (He : 0 <= eta <= v) (He' : eta' <= v).
Hypotheses (HL : library a) (HA : accurate a v) (HI : inverse_accurate a v).
Lemma angle_near neg pin pout kx ky ps p th : 0 < ps -> 0 < p -> Rabs th <= 4 -> eta <= v * ps -> eta <= v * p -> eta <= v * wave_number p -> eta <= v * (wave_number p * ps) ->
  Rabs pin <= 4 -> Rabs pout <= 4 ->
  exists t, fl_fringe a neg pin pout (rnd a (kx * rnd a ps)) (rnd a (ky * rnd a ps)) (rnd a p) (rnd a th) = f_cos a t /\
    Rabs (t - (wave_number p * (cos th * (kx * ps) + sin th * (ky * ps)) - signed neg (pout - pin))) <= 28.18 * v * (phase_size p ps (kx * ps) (ky * ps) + 8).
Proof.
  intros Hs Hp Ht E1 E2 E3 E4 Hi Ho. assert (VR := v_range u v Hu Huv Hv).
  assert (G := carrier_near a u eta u' eta' v B B' H H' Hu Huv Hu' Hv He He' HA kx ky ps p th Hs Hp Ht E1 E2 E3 E4). unfold fl_fringe.
  set (g := fl_grating_phase a _ _ _ _) in *. set (c := wave_number p * (cos th * (kx * ps) + sin th * (ky * ps))) in *. set (F := phase_size p ps (kx * ps) (ky * ps)) in *.
  cbv zeta. clearbody g c F. assert (PF : 0 <= F) by (destruct G as [_ G]; pose proof (Rabs_pos c); lra).
  assert (R : near v (0 + 2.01) 8 (rnd a ((if neg then - pout else pout) - (if neg then - pin else pin))) (signed neg (pout - pin))).
  { apply (near_round v VR (rnd a) u eta B 0 8 _ _ H); [|lra|lra|lra]. apply Rabs_le_inv in Hi. apply Rabs_le_inv in Ho.
    unfold signed. split; [|destruct neg; apply Rabs_le; lra]. replace (_ - _) with 0 by (destruct neg; ring). rewrite Rabs_R0. lra. }
  apply (near_more v VR _ 26.17) in R; [|lra].
  assert (T := near_round v VR (rnd a) u eta B _ _ _ _ H (near_plus v _ _ _ _ _ _ _ G (near_opp v _ _ _ _ R)) ltac:(lra) ltac:(nra) ltac:(lra)).
  destruct T as [T _]. eexists. split; [reflexivity|]. replace (26.17 + 2.01) with 28.18 in T by lra. exact T.
Qed.
(** One of the two arguments of tanh. *)
Lemma branch_near r q w q0 w0 D : 0 < r -> eta <= v * r -> 0 <= q0 <= PI -> Rabs w0 <= PI / 2 -> Rabs q <= PI + 2 * v -> Rabs (q - q0) <= D -> Rabs (w - w0) <= 2 * v ->
  Rabs (f_tanh a (rnd a (rnd a r * rnd a (q + w))) - tanh (r * (q0 + w0))) <= r * (1.001 * D + 29 * v) + v.
Proof.
  intros Hr Er Hq0 Hw0 Bq Dq Dw. assert (P4 := PI_4). assert (VR := v_range u v Hu Huv Hv).
  assert (Bs : Rabs (q + w) <= 6.1).
  { replace (q + w) with (q + ((w - w0) + w0)) by ring. eapply Rle_trans; [apply Rabs_triang|]. assert (Q := Rabs_triang (w - w0) w0). lra. }
  assert (E1 := ar_error _ _ _ _ H (q + w)). assert (E2 := ar_error _ _ _ _ H r). set (s := rnd a (q + w)) in *. set (r' := rnd a r) in *.
  rewrite (Rabs_pos_eq r) in E2 by lra.
  assert (F1 : Rabs (s - (q + w)) <= 7.1 * v). { assert (u * Rabs (q + w) <= v * 6.1) by (apply Rmult_le_compat; [lra|apply Rabs_pos|lra|lra]). lra. }
  assert (F2 : Rabs (r' - r) <= 2 * v * r). { assert (u * r <= v * r) by (apply Rmult_le_compat_r; lra). lra. }
  assert (S0 : Rabs (s - (q0 + w0)) <= D + 9.1 * v).
  { replace (s - (q0 + w0)) with ((s - (q + w)) + ((q - q0) + (w - w0))) by ring. eapply Rle_trans; [apply Rabs_triang|]. assert (Q := Rabs_triang (q - q0) (w - w0)). lra. }
  assert (Bs' : Rabs s <= 6.11). { replace s with ((s - (q + w)) + (q + w)) by ring. eapply Rle_trans; [apply Rabs_triang|]. lra. }
  assert (B0 : Rabs (q0 + w0) <= 6). { eapply Rle_trans; [apply Rabs_triang|]. rewrite (Rabs_pos_eq q0) by lra. lra. }
  assert (R' : Rabs r' <= 1.0001 * r). { replace r' with ((r' - r) + r) by ring. eapply Rle_trans; [apply Rabs_triang|]. rewrite (Rabs_pos_eq r) by lra. nra. }
  assert (D0 : 0 <= D) by (pose proof (Rabs_pos (q - q0)); lra).
  assert (F3 : Rabs (r' * s - r * (q0 + w0)) <= 1.0001 * r * (D + 9.1 * v) + 12 * v * r).
  { replace (r' * s - r * (q0 + w0)) with (r' * (s - (q0 + w0)) + (r' - r) * (q0 + w0)) by ring. eapply Rle_trans; [apply Rabs_triang|]. rewrite !Rabs_mult.
    assert (Rabs r' * Rabs (s - (q0 + w0)) <= 1.0001 * r * (D + 9.1 * v)) by (apply Rmult_le_compat; try apply Rabs_pos; assumption).
    assert (Rabs (r' - r) * Rabs (q0 + w0) <= 2 * v * r * 6) by (apply Rmult_le_compat; try apply Rabs_pos; assumption). lra. }
  assert (E4 := ar_error _ _ _ _ H (r' * s)). set (z := rnd a (r' * s)) in *.
  assert (F4 : Rabs (z - r' * s) <= 7.2 * v * r).
  { assert (Rabs (r' * s) <= 6.12 * r).
    { rewrite Rabs_mult. apply Rle_trans with (1.0001 * r * 6.11); [apply Rmult_le_compat; try apply Rabs_pos; assumption|]. nra. }
    assert (u * Rabs (r' * s) <= v * (6.12 * r)) by (apply Rmult_le_compat; [lra|apply Rabs_pos|lra|assumption]). nra. }
  assert (T := acc_tanh _ _ HI z). assert (L := tanh_lipschitz z (r * (q0 + w0))).
  replace (f_tanh a z - tanh (r * (q0 + w0))) with ((f_tanh a z - tanh z) + (tanh z - tanh (r * (q0 + w0)))) by ring. eapply Rle_trans; [apply Rabs_triang|].
  assert (Z : Rabs (z - r * (q0 + w0)) <= r * (1.001 * D + 29 * v)).
  { replace (z - r * (q0 + w0)) with ((z - r' * s) + (r' * s - r * (q0 + w0))) by ring. eapply Rle_trans; [apply Rabs_triang|].
    assert (0 <= r * v) by (apply Rmult_le_pos; lra). assert (0 <= r * D) by (apply Rmult_le_pos; lra). nra. }
  lra.
Qed.
Lemma duty_near neg A pin pout kx ky ps p th r : 0 < ps -> 0 < p -> Rabs th <= 4 -> eta <= v * ps -> eta <= v * p -> eta <= v * wave_number p -> eta <= v * (wave_number p * ps) ->
  Rabs pin <= 4 -> Rabs pout <= 4 -> 0 <= A <= 1 -> 0 < r -> eta <= v * r ->
  exists g, (forall z, fl_random a neg A pin pout (rnd a (kx * rnd a ps)) (rnd a (ky * rnd a ps)) (rnd a p) (rnd a th) r z = true <-> z < g) /\
   Rabs (g - duty r (acos (cos (wave_number p * (cos th * (kx * ps) + sin th * (ky * ps)) - signed neg (pout - pin)))) A) <= duty_error v r (phase_size p ps (kx * ps) (ky * ps)).
Proof.
  intros Hs Hp Ht E1 E2 E3 E4 Hi Ho Ha Hr Er. assert (VR := v_range u v Hu Huv Hv). assert (P := PI_RGT_0). assert (P4 := PI_4).
  destruct (angle_near neg pin pout kx ky ps p th Hs Hp Ht E1 E2 E3 E4 Hi Ho) as (t & Et & Nt).
  assert (PF : 0 <= phase_size p ps (kx * ps) (ky * ps)).
  { apply Rmult_le_pos; [apply Rlt_le, Rdiv_lt_0_compat; lra|]. pose proof (Rabs_pos (kx * ps)). pose proof (Rabs_pos (ky * ps)). lra. }
  set (F := phase_size p ps (kx * ps) (ky * ps)) in *. set (e := wave_number p * _ - _) in *. clearbody F e.
  unfold fl_random. rewrite Et. cbv zeta. set (c := f_cos a t). assert (Hc : -1 <= c <= 1) by apply (lib_cos _ HL).
  assert (Ac := acc_acos _ _ HI c Hc). assert (As := acc_asin _ _ HI A ltac:(lra)). set (q := f_acos a c) in *. set (w := f_asin a A) in *.
  assert (Hh : Rabs (acos c - acos (cos t)) <= PI * sqrt (v / 2)) by (apply acos_holder; [exact Hc|apply COS_bound|apply (acc_cos _ _ HA)]).
  assert (Hf := folding_lipschitz t e). set (q0 := acos (cos e)) in *. assert (Bq0 : 0 <= q0 <= PI) by apply acos_bound. assert (Bc := acos_bound c).
  assert (Sq : PI * sqrt (v / 2) <= 2.9 * sqrt v).
  { replace (v / 2) with (v * / 2) by field. rewrite sqrt_mult_alt by lra. assert (V := sqrt_pos v). assert (S2 : sqrt (/ 2) <= 0.72). { rewrite <- (sqrt_pow2 0.72) by lra. apply sqrt_le_1_alt. lra. }
    assert (sqrt v * sqrt (/ 2) <= sqrt v * 0.72) by (apply Rmult_le_compat_l; assumption). nra. }
  set (D := 28.18 * v * (F + 8) + 2.9 * sqrt v + 2 * v).
  assert (Dq : Rabs (q - q0) <= D).
  { replace (q - q0) with ((q - acos c) + ((acos c - acos (cos t)) + (acos (cos t) - q0))) by ring. eapply Rle_trans; [apply Rabs_triang|].
    assert (Q := Rabs_triang (acos c - acos (cos t)) (acos (cos t) - q0)). unfold D. lra. }
  assert (Bq : Rabs q <= PI + 2 * v). { replace q with ((q - acos c) + acos c) by ring. eapply Rle_trans; [apply Rabs_triang|]. rewrite (Rabs_pos_eq (acos c)) by lra. lra. }
  assert (Bw : Rabs (asin A) <= PI / 2) by (assert (Q := asin_bound A); apply Rabs_le; lra).
  assert (T1 := branch_near r q w q0 (asin A) D Hr Er Bq0 Bw Bq Dq As).
  assert (T2 : Rabs (f_tanh a (rnd a (rnd a r * rnd a (q - w))) - tanh (r * (q0 - asin A))) <= r * (1.001 * D + 29 * v) + v).
  { apply (branch_near r q (- w) q0 (- asin A) D Hr Er Bq0); [rewrite Rabs_Ropp; exact Bw|exact Bq|exact Dq|]. replace (- w - - asin A) with (- (w - asin A)) by ring. rewrite Rabs_Ropp. exact As. }
  rewrite (z12 a u eta B H HB). set (x1 := f_tanh a (rnd a (rnd a r * rnd a (q + w)))) in *. set (x2 := f_tanh a (rnd a (rnd a r * rnd a (q - w)))) in *.
  assert (B1 : -1 <= x1 <= 1) by apply (lib_tanh _ HL). assert (B2 : -1 <= x2 <= 1) by apply (lib_tanh _ HL). clearbody x1 x2.
  assert (Y1 := ar_error _ _ _ _ H (x1 - x2)). set (y1 := rnd a (x1 - x2)) in *. assert (Y2 := ar_error _ _ _ _ H (1 / 2 * y1)). set (y2 := rnd a (1 / 2 * y1)) in *.
  exists y2. split. { intros z. destruct (Rlt_dec z y2); split; intros; try assumption; try reflexivity; try discriminate; lra. }
  assert (BD : Rabs (x1 - x2) <= 2) by (apply Rabs_le; lra).
  assert (G1 : Rabs (y1 - (x1 - x2)) <= 3 * v). { assert (u * Rabs (x1 - x2) <= v * 2) by (apply Rmult_le_compat; [lra|apply Rabs_pos|lra|lra]). lra. }
  assert (BY : Rabs (1 / 2 * y1) <= 1.001). { replace (1 / 2 * y1) with (1 / 2 * ((y1 - (x1 - x2)) + (x1 - x2))) by ring. rewrite Rabs_mult, (Rabs_pos_eq (1 / 2)) by lra. assert (Q := Rabs_triang (y1 - (x1 - x2)) (x1 - x2)). lra. }
  assert (G2 : Rabs (y2 - 1 / 2 * y1) <= 2.01 * v). { assert (u * Rabs (1 / 2 * y1) <= v * 1.001) by (apply Rmult_le_compat; [lra|apply Rabs_pos|lra|lra]). lra. }
  unfold duty. replace (y2 - (tanh (r * (q0 + asin A)) - tanh (r * (q0 - asin A))) / 2)
    with ((y2 - 1 / 2 * y1) + 1 / 2 * ((y1 - (x1 - x2)) + ((x1 - tanh (r * (q0 + asin A))) + - (x2 - tanh (r * (q0 - asin A)))))) by field.
  eapply Rle_trans; [apply Rabs_triang|]. rewrite Rabs_mult, (Rabs_pos_eq (1 / 2)) by lra.
  assert (K1 := Rabs_triang (y1 - (x1 - x2)) ((x1 - tanh (r * (q0 + asin A))) + - (x2 - tanh (r * (q0 - asin A))))).
  assert (K2 := Rabs_triang (x1 - tanh (r * (q0 + asin A))) (- (x2 - tanh (r * (q0 - asin A))))). rewrite (Rabs_Ropp (x2 - _)) in K2.
  assert (Fin : r * (1.001 * D + 29 * v) <= r * (33 * v * (F + 8) + 3 * sqrt v)).
  { apply Rmult_le_compat_l; [lra|]. unfold D. assert (V := sqrt_pos v). assert (v * 8 <= v * (F + 8)) by (apply Rmult_le_compat_l; lra). lra. }
  unfold duty_error. lra.
Qed.
End Duty.
