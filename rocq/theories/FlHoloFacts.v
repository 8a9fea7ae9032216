(** Error propagation through the hologram calculation (C134), for one mirror. *)
From Coq Require Import Reals Lra Psatz ZArith Arith List Bool Lia.
From Flocq Require Import Core.
From Coquelicot Require Import Complex.
From Verif Require Import Cx Sums PyBase ProfileModel SlmModel LibModel DmdModel SimModel SimSpec DmdSpec AmpFacts FloatModel FloatSpec FloatFacts FloatFacts3 FlSimSpec FlHoloModel FlHoloSpec.
Open Scope R_scope.

Lemma Cmod_diff (x y : C) : Rabs (Cmod x - Cmod y) <= Cmod (x - y)%C.
Proof.
  apply Rabs_le. assert (T1 := Cmod_triangle (x - y)%C y). assert (T2 := Cmod_triangle (y - x)%C x).
  replace (x - y + y)%C with x in T1 by ring. replace (y - x + x)%C with y in T2 by ring.
  replace (y - x)%C with (- (x - y))%C in T2 by ring. rewrite Cmod_opp in T2. lra.
Qed.
(** ** Quotients *)
Lemma quotient x s y q M c : 0 < q -> 0 < M -> 0 <= s <= M * q -> Rabs (x - s) <= c * (M * q) -> Rabs (y - q) <= q / 4096 -> 0 <= c ->
  Rabs (x / y - s / q) <= 1.001 * ((c + Rabs (y - q) / q) * M) /\ 0 < y.
Proof.
  intros Hq HM Hs Hx Hy Hc. assert (Hy' := Hy). apply Rabs_le_inv in Hy'. assert (Y : 0.9997 * q <= y) by lra. split; [|lra].
  replace (x / y - s / q) with (((x - s) * q - s * (y - q)) * / (y * q)) by (field; lra).
  assert (P : 0 < y * q) by (apply Rmult_lt_0_compat; lra). rewrite Rabs_mult, (Rabs_pos_eq (/ (y * q))) by (left; apply Rinv_0_lt_compat, P).
  apply Rmult_le_reg_r with (y * q); [exact P|]. rewrite Rmult_assoc, Rinv_l, Rmult_1_r by lra.
  eapply Rle_trans; [apply Rabs_triang|]. rewrite Rabs_Ropp, !Rabs_mult, (Rabs_pos_eq q), (Rabs_pos_eq s) by lra.
  set (D := Rabs (y - q)) in *. assert (D0 : 0 <= D) by apply Rabs_pos.
  assert (A1 : Rabs (x - s) * q <= c * (M * q) * q) by (apply Rmult_le_compat_r; lra).
  assert (A2 : s * D <= M * q * D) by (apply Rmult_le_compat_r; lra).
  assert (A3 : (c + D / q) * M * (q * q) = c * (M * q) * q + M * q * D) by (field; lra).
  assert (A4 : 0 <= (c + D / q) * M). { apply Rmult_le_pos; [|lra]. apply Rplus_le_le_0_compat; [exact Hc|]. apply Rmult_le_pos; [exact D0|]. left. apply Rinv_0_lt_compat, Hq. }
  assert (A5 : (c + D / q) * M * (0.9997 * q * q) <= (c + D / q) * M * (y * q)) by (apply Rmult_le_compat_l; [exact A4|apply Rmult_le_compat_r; lra]).
  assert (0 <= (c + D / q) * M * (q * q)) by (apply Rmult_le_pos; [exact A4|nra]). nra.
Qed.

Section Mirror.
Variables (a : fpu) (u eta v o : R) (B : Z) (q : polar).
Hypotheses (H : arithmetic u eta B (rnd a)) (HB : (2 ^ 22 <= B)%Z) (Hu : 0 <= u <= v) (Hv : 0 <= v <= / 2 ^ 16) (He : 0 <= eta) (Q : accurate_polar q v o).
Variables (k M b : R).
Hypotheses (Hk : 0 <= k <= 1 / 16) (HM : 0 < M) (Hb : 0 < b) (Ho : 0 <= o) (Ho1 : o <= v * b) (Ho2 : o <= v * (b * M)) (Hem : eta <= v * M).

Let Z0 : rnd a 0 = 0. Proof. apply (fl_0 _ _ _ _ H). lia. Qed.
(** The computed ratio of amplitudes. *)
Definition rho (S' E : C) : R := rnd a (f_abs q S' / f_abs q E).
Lemma ratio_near S S' E : b <= Cmod E -> Cmod S <= M * Cmod E -> Cmod (S' - S)%C <= k * (M * Cmod E) ->
  fl_ratio a (f_abs q S') (f_abs q E) = Fin (rho S' E) /\ 0 <= rho S' E /\ Rabs (rho S' E - Cmod S / Cmod E) <= (1.01 * k + 7 * v) * M /\ 0 < f_abs q E.
Proof.
  intros HE HS HD. set (e := Cmod E) in *. assert (Pe : 0 < e) by lra.
  assert (Me : 0 < M * e) by (apply Rmult_lt_0_compat; lra). assert (Mb : M * b <= M * e) by (apply Rmult_le_compat_l; lra).
  assert (D1 := Cmod_diff S' S). assert (P1 := pol_abs _ _ _ Q S'). assert (P2 := pol_abs _ _ _ Q E). fold e in P2.
  set (x := f_abs q S') in *. set (y := f_abs q E) in *. set (s := Cmod S) in *. set (s' := Cmod S') in *.
  assert (S0 : 0 <= s) by apply Cmod_ge_0. assert (X0 : 0 <= x) by apply (pol_nonneg _ _ _ Q).
  assert (D2 : Rabs (s' - s) <= k * (M * e)) by lra.
  assert (S'1 : s' <= 1.0625 * (M * e)). { apply Rabs_le_inv in D2. assert (k * (M * e) <= 1 / 16 * (M * e)) by (apply Rmult_le_compat_r; lra). lra. }
  assert (O1 : o <= v * (M * e)). { eapply Rle_trans; [exact Ho2|]. apply Rmult_le_compat_l; lra. }
  assert (X1 : Rabs (x - s) <= (k + 2.1 * v) * (M * e)).
  { replace (x - s) with ((x - s') + (s' - s)) by ring. eapply Rle_trans; [apply Rabs_triang|].
    assert (v * s' <= v * (1.0625 * (M * e))) by (apply Rmult_le_compat_l; lra). assert (0 <= v * (M * e)) by (apply Rmult_le_pos; lra). lra. }
  assert (O2 : o <= v * e). { eapply Rle_trans; [exact Ho1|]. apply Rmult_le_compat_l; lra. }
  assert (Y1 : Rabs (y - e) <= 2 * v * e) by lra.
  assert (Y2 : Rabs (y - e) <= e / 4096). { assert (v * e <= / 2 ^ 16 * e) by (apply Rmult_le_compat_r; lra). lra. }
  destruct (quotient x s y e M (k + 2.1 * v) Pe HM (conj S0 HS) X1 Y2 ltac:(lra)) as [Q1 Py].
  assert (Y3 : Rabs (y - e) / e <= 2 * v). { apply Rmult_le_reg_r with e; [exact Pe|]. unfold Rdiv. rewrite Rmult_assoc, Rinv_l by lra. lra. }
  assert (Q2 : Rabs (x / y - s / e) <= (1.001 * k + 4.2 * v) * M).
  { eapply Rle_trans; [exact Q1|]. assert ((k + 2.1 * v + Rabs (y - e) / e) * M <= (k + 4.1 * v) * M) by (apply Rmult_le_compat_r; lra). assert (0 <= v * M) by (apply Rmult_le_pos; lra). assert (0 <= k * M) by (apply Rmult_le_pos; lra). nra. }
  assert (R1 : s / e <= M). { apply Rmult_le_reg_r with e; [exact Pe|]. unfold Rdiv. rewrite Rmult_assoc, Rinv_l by lra. lra. }
  assert (R0' : 0 <= s / e) by (apply Rmult_le_pos; [exact S0|left; apply Rinv_0_lt_compat, Pe]).
  assert (XY : 0 <= x / y) by (apply Rmult_le_pos; [exact X0|left; apply Rinv_0_lt_compat, Py]).
  assert (V' : v <= 1 / 10000) by lra. assert (K1 : (1.001 * k + 4.2 * v) * M <= 0.08 * M) by (apply Rmult_le_compat_r; lra).
  assert (XY2 : x / y <= 1.1 * M). { apply Rabs_le_inv in Q2. lra. }
  assert (E3 := ar_error _ _ _ _ H (x / y)). rewrite (Rabs_pos_eq (x / y)) in E3 by exact XY.
  assert (U3 : u * (x / y) <= v * (1.1 * M)) by (apply Rmult_le_compat; lra).
  unfold rho. fold x y. destruct (ratio_fin a u eta B H HB x y X0 (fun _ => Py)) as [F1 F2].
  assert (EQ : (if Req_EM_T x 0 then 0 else rnd a (x / y)) = rnd a (x / y)).
  { destruct (Req_EM_T x 0) as [X|X]; [|reflexivity]. rewrite X. unfold Rdiv. rewrite Rmult_0_l, Z0. reflexivity. }
  rewrite EQ in F1, F2. do 2 (split; [assumption|]). split; [|exact Py].
  replace (rnd a (x / y) - s / e) with ((rnd a (x / y) - x / y) + (x / y - s / e)) by ring. eapply Rle_trans; [apply Rabs_triang|].
  assert (0 <= v * M) by (apply Rmult_le_pos; lra). assert (0 <= k * M) by (apply Rmult_le_pos; lra). nra.
Qed.

(** ** The normalised amplitude, from the ratios and their maximum *)
Lemma normalised r r' M' : 0 <= r <= M -> 0 <= r' -> Rabs (r' - r) <= (1.01 * k + 7 * v) * M -> Rabs (M' - M) <= (1.01 * k + 7 * v) * M -> eta <= v ->
  Rabs (rnd a (r' / M') - r / M) <= 2.3 * k + 18 * v /\ 0.9 * M <= M'.
Proof.
  intros Hr Hr' D1 D2 Hev. set (c := 1.01 * k + 7 * v) in *. assert (C0 : 0 <= c <= 0.065) by (unfold c; lra).
  assert (D2' := D2). apply Rabs_le_inv in D2'. assert (cM : c * M <= 0.065 * M) by (apply Rmult_le_compat_r; lra). assert (PM : 0.935 * M <= M') by lra. split; [|lra].
  assert (Pm : 0 < M') by lra.
  assert (N : Rabs (r' / M' - r / M) <= 2.15 * c).
  { replace (r' / M' - r / M) with (((r' - r) * M - r * (M' - M)) * / (M' * M)) by (field; lra).
    assert (P : 0 < M' * M) by (apply Rmult_lt_0_compat; lra). rewrite Rabs_mult, (Rabs_pos_eq (/ (M' * M))) by (left; apply Rinv_0_lt_compat, P).
    apply Rmult_le_reg_r with (M' * M); [exact P|]. rewrite Rmult_assoc, Rinv_l, Rmult_1_r by lra.
    eapply Rle_trans; [apply Rabs_triang|]. rewrite Rabs_Ropp, !Rabs_mult, (Rabs_pos_eq M), (Rabs_pos_eq r) by lra.
    assert (A1 : Rabs (r' - r) * M <= c * M * M) by (apply Rmult_le_compat_r; lra).
    assert (A2 : r * Rabs (M' - M) <= M * (c * M)) by (apply Rmult_le_compat; try apply Rabs_pos; lra).
    assert (A3 : 2.15 * c * (0.935 * M * M) <= 2.15 * c * (M' * M)) by (apply Rmult_le_compat_l; [lra|apply Rmult_le_compat_r; lra]).
    assert (0 <= c * (M * M)) by (apply Rmult_le_pos; [lra|nra]). nra. }
  assert (R1 : r / M <= 1). { apply Rmult_le_reg_r with M; [exact HM|]. unfold Rdiv. rewrite Rmult_assoc, Rinv_l by lra. lra. }
  assert (Q0 : 0 <= r' / M') by (apply Rmult_le_pos; [exact Hr'|left; apply Rinv_0_lt_compat, Pm]).
  assert (Q1 : r' / M' <= 1.14) by (apply Rabs_le_inv in N; lra).
  assert (E3 := ar_error _ _ _ _ H (r' / M')). rewrite (Rabs_pos_eq (r' / M')) in E3 by exact Q0.
  assert (U3 : u * (r' / M') <= v * 1.14) by (apply Rmult_le_compat; lra).
  replace (rnd a (r' / M') - r / M) with ((rnd a (r' / M') - r' / M') + (r' / M' - r / M)) by ring. eapply Rle_trans; [apply Rabs_triang|]. unfold c in N. lra.
Qed.

(** ** Directions *)
Definition dir (z : C) : C := (z / RtoC (Cmod z))%C.
Lemma dir_cis z : z <> RtoC 0 -> cis (carg z) = dir z. Proof. exact (cis_carg z). Qed.
Lemma Cmod_dir z : z <> RtoC 0 -> Cmod (dir z) = 1. Proof. intros N. rewrite <- dir_cis by exact N. apply Cmod_cis. Qed.
(** The direction of a number that is known up to [t]. *)
Lemma dir_near z w : z <> RtoC 0 -> w <> RtoC 0 -> Cmod z * Cmod (dir w - dir z)%C <= 2 * Cmod (w - z)%C.
Proof.
  intros Hz Hw. assert (Pz := Cmod_pos_neq _ Hz). assert (Pw := Cmod_pos_neq _ Hw).
  assert (E : (RtoC (Cmod z) * (dir w - dir z) = (w - z) - RtoC (Cmod w - Cmod z) * dir w)%C).
  { unfold dir. rewrite RtoC_minus. field. split; intros X; apply RtoC_inj in X; lra. }
  replace (Cmod z) with (Cmod (RtoC (Cmod z))) by (rewrite Cmod_R, Rabs_pos_eq; lra). rewrite <- Cmod_mult, E.
  unfold Cminus at 1. eapply Rle_trans; [apply Cmod_triangle|]. rewrite Cmod_opp, Cmod_mult, Cmod_R, (Cmod_dir w Hw).
  assert (D := Cmod_diff w z). lra.
Qed.
Lemma phase_out_near S S' : Cmod S * Cmod (cis (fl_phase_out q S') - cis (phase_of S))%C <= 2 * Cmod (S' - S)%C + v * Cmod S.
Proof.
  unfold fl_phase_out, phase_of. destruct (C_dec0 S) as [->|NS]; [rewrite Cmod_0, Rmult_0_l, Rmult_0_r; pose proof (Cmod_ge_0 (S' - RtoC 0)%C); lra|].
  assert (PS := Cmod_pos_neq _ NS). assert (VS : 0 <= v * Cmod S) by (apply Rmult_le_pos; lra). rewrite (dir_cis S NS).
  destruct (C_dec0 S') as [->|NS'].
  - rewrite cis_0. replace (RtoC 0 - S)%C with (- S)%C by ring. rewrite Cmod_opp.
    assert (Cmod (1 - dir S)%C <= 2). { eapply Rle_trans; [unfold Cminus; apply Cmod_triangle|]. rewrite Cmod_opp, Cmod_dir, Cmod_1 by exact NS. lra. }
    assert (Cmod S * Cmod (1 - dir S)%C <= Cmod S * 2) by (apply Rmult_le_compat_l; lra). lra.
  - assert (P := pol_dir _ _ _ Q S' NS'). fold (dir S') in P. assert (D := dir_near S S' NS NS').
    assert (T : Cmod (cis (f_angle q S') - dir S)%C <= v + Cmod (dir S' - dir S)%C).
    { replace (cis (f_angle q S') - dir S)%C with ((cis (f_angle q S') - dir S') + (dir S' - dir S))%C by ring. eapply Rle_trans; [apply Cmod_triangle|]. lra. }
    assert (Cmod S * Cmod (cis (f_angle q S') - dir S)%C <= Cmod S * (v + Cmod (dir S' - dir S)%C)) by (apply Rmult_le_compat_l; lra). lra.
Qed.
Lemma cos_cis_near c x y neg : Rabs (cos (c - signed neg x) - cos (c - signed neg y)) <= Cmod (cis x - cis y)%C.
Proof.
  assert (K : forall z, cos (c - signed neg z) = fst (cis c * cconj (cis (signed neg z)))%C) by (intros z; rewrite <- cis_minus; reflexivity).
  rewrite !K. set (X := cis (signed neg x)). set (Y := cis (signed neg y)).
  assert (E : fst (cis c * cconj X)%C - fst (cis c * cconj Y)%C = fst (cis c * cconj (X - Y))%C) by (unfold Cmult, cconj, Cminus, Cplus, Copp; cbn [fst snd]; ring).
  rewrite E. eapply Rle_trans; [apply (Rle_trans _ _ _ (Rmax_l _ _) (Rmax_Cmod _))|]. rewrite Cmod_mult, Cmod_cis, Cmod_cconj, Rmult_1_l. unfold X, Y.
  destruct neg; cbn [signed]; [|lra]. rewrite !cis_neg.
  replace (cconj (cis x) - cconj (cis y))%C with (cconj (cis x - cis y))%C by (unfold cconj, Cminus, Cplus, Copp; cbn [fst snd]; f_equal; ring).
  rewrite Cmod_cconj. lra.
Qed.
(** The grey level as a function of the amplitude and of the phases. *)
Lemma level_near c neg A A' S S' E : b <= Cmod E -> A = Cmod S / Cmod E / M -> 0 <= A <= 1 -> Cmod (S' - S)%C <= k * (M * Cmod E) -> Rabs (A' - A) <= 2.3 * k + 18 * v ->
  Rabs (A' * (cos (c - signed neg (fl_phase_out q S' - f_angle q E)) / 2 + 1 / 2) - A * (cos (c - signed neg (phase_of S - carg E)) / 2 + 1 / 2)) <= 3.3 * k + 19 * v.
Proof.
  intros HE EA HA HD DA. set (x := fl_phase_out q S' - f_angle q E). set (y := phase_of S - carg E).
  assert (Pe : 0 < Cmod E) by lra. assert (NE : E <> RtoC 0) by (intros X; rewrite X, Cmod_0 in Pe; lra).
  assert (L1 := cos_cis_near c x y neg).
  assert (L2 : Cmod (cis x - cis y)%C <= Cmod (cis (fl_phase_out q S') - cis (phase_of S))%C + v).
  { unfold x, y. rewrite !cis_minus. set (p := cis (fl_phase_out q S')). set (p0 := cis (phase_of S)). set (g := cis (f_angle q E)). set (g0 := cis (carg E)).
    replace (p * cconj g - p0 * cconj g0)%C with ((p - p0) * cconj g + p0 * cconj (g - g0))%C by (unfold cconj, Cmult, Cminus, Cplus, Copp; destruct p, p0, g, g0; cbn [fst snd]; f_equal; ring).
    eapply Rle_trans; [apply Cmod_triangle|]. rewrite !Cmod_mult, !Cmod_cconj. unfold g at 1, p0 at 2. rewrite !Cmod_cis.
    assert (P := pol_dir _ _ _ Q E NE). fold (dir E) in P. rewrite <- (dir_cis E NE) in P. fold g g0 in P. lra. }
  assert (L3 : A * Cmod (cis (fl_phase_out q S') - cis (phase_of S))%C <= 2 * k + v).
  { assert (D := phase_out_near S S'). set (t := Cmod (cis (fl_phase_out q S') - cis (phase_of S))%C) in *.
    assert (Me : 0 < M * Cmod E) by (apply Rmult_lt_0_compat; lra). assert (ES : Cmod S = A * (M * Cmod E)) by (rewrite EA; field; lra).
    rewrite ES in D. apply Rmult_le_reg_r with (M * Cmod E); [exact Me|]. assert (v * (A * (M * Cmod E)) <= v * (M * Cmod E)) by (apply Rmult_le_compat_l; [lra|]; nra). lra. }
  set (C1 := cos (c - signed neg x)) in *. set (C2 := cos (c - signed neg y)) in *. set (t := Cmod (cis (fl_phase_out q S') - cis (phase_of S))%C) in *.
  replace (A' * (C1 / 2 + 1 / 2) - A * (C2 / 2 + 1 / 2)) with ((A' - A) * (C1 / 2 + 1 / 2) + A * (C1 - C2) / 2) by field.
  eapply Rle_trans; [apply Rabs_triang|]. assert (BC : -1 <= C1 <= 1) by apply COS_bound.
  assert (T1 : Rabs ((A' - A) * (C1 / 2 + 1 / 2)) <= Rabs (A' - A)).
  { rewrite Rabs_mult, (Rabs_pos_eq (C1 / 2 + 1 / 2)) by lra. assert (Z := Rabs_pos (A' - A)). nra. }
  assert (T2 : Rabs (A * (C1 - C2) / 2) <= A * (t + v) / 2).
  { unfold Rdiv. rewrite !Rabs_mult, (Rabs_pos_eq A), (Rabs_pos_eq (/ 2)) by lra. apply Rmult_le_compat_r; [lra|]. apply Rmult_le_compat_l; lra. }
  assert (A * v <= v) by nra. lra.
Qed.
End Mirror.
