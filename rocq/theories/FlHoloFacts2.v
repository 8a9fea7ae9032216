(** The whole hologram after rounding (C134). *)
From Coq Require Import Reals Lra Psatz ZArith Arith List Bool Lia.
From Flocq Require Import Core.
From Coquelicot Require Import Complex.
From Verif Require Import Cx Sums DFT PyBase ProfileModel SlmModel LibModel DmdModel SimModel SimSpec DmdSpec AmpFacts AmpFacts3 DmdThms FloatModel FloatSpec FloatFacts FloatFacts2 FloatFacts3 FlSimSpec NormFacts FlSimFacts FftFacts2 FlHoloModel FlHoloSpec FlHoloFacts.
From Verif Require FringeSpec FringeErr FringeErr2.
Open Scope R_scope.

Lemma rsum_term_le n f i : (i < n)%nat -> (forall k, 0 <= f k) -> f i <= rsum n f.
Proof.
  intros Hi Hf. assert (E : rsum n (fun k => if Nat.eqb k i then f k else 0) = f i).
  { rewrite (rsum_single n i _ Hi); [rewrite Nat.eqb_refl; reflexivity|]. intros k _ N. destruct (Nat.eqb_spec k i); [contradiction|reflexivity]. }
  rewrite <- E. apply rsum_le. intros k _. specialize (Hf k). destruct (Nat.eqb k i); lra.
Qed.
Lemma entry_norm ny nx f i j : (i < ny)%nat -> (j < nx)%nat -> Cmod (f i j) <= norm ny nx f.
Proof.
  intros Hi Hj. unfold norm. rewrite <- (sqrt_pow2 (Cmod (f i j))) by apply Cmod_ge_0. apply sqrt_le_1_alt.
  unfold rsum2. eapply Rle_trans; [|apply (rsum_term_le ny (fun i => rsum nx (fun j => Cmod (f i j) ^ 2)) i Hi)]; cbv beta.
  - apply (rsum_term_le nx (fun j => Cmod (f i j) ^ 2) j Hj). intros. apply pow2_ge_0.
  - intros. apply rsum_ge_0. intros. apply pow2_ge_0.
Qed.
Lemma norm_below ny nx f g M : 0 <= M -> (forall i j, (i < ny)%nat -> (j < nx)%nat -> Cmod (f i j) <= M * Cmod (g i j)) -> norm ny nx f <= M * norm ny nx g.
Proof.
  intros HM Hf. apply norm_le; [apply Rmult_le_pos; [exact HM|apply norm_ge_0]|].
  rewrite Rpow_mult_distr. unfold norm. rewrite pow2_sqrt by (apply rsum2_ge_0; intros; apply pow2_ge_0).
  rewrite <- rsum2_scal_l. apply rsum2_le. intros i j Hi Hj. rewrite <- Rpow_mult_distr. apply pow_incr. split; [apply Cmod_ge_0|apply Hf; assumption].
Qed.

Section Array.
Variables (a : fpu) (u eta v o : R) (B : Z) (q : polar).
Hypotheses (H : arithmetic u eta B (rnd a)) (HB : (2 ^ 22 <= B)%Z) (Hu : 0 <= u <= v) (Hv : 0 <= v <= / 2 ^ 16) (He : 0 <= eta) (Q : accurate_polar q v o).
Variables (k M b : R).
Hypotheses (Hk : 0 <= k <= 1 / 16) (HM : 0 < M) (Hb : 0 < b) (Ho : 0 <= o) (Ho1 : o <= v * b) (Ho2 : o <= v * (b * M)) (Hem : eta <= v * M).
Variables (ny nx : nat) (S S' E : nat -> nat -> C).
Hypotheses (HE : forall i j, (i < ny)%nat -> (j < nx)%nat -> b <= Cmod (E i j))
  (HS : forall i j, (i < ny)%nat -> (j < nx)%nat -> Cmod (S i j) <= M * Cmod (E i j))
  (HS1 : exists i j, (i < ny)%nat /\ (j < nx)%nat /\ Cmod (S i j) = M * Cmod (E i j))
  (HD : forall i j, (i < ny)%nat -> (j < nx)%nat -> Cmod (S' i j - S i j)%C <= k * (M * Cmod (E i j))).
(** The maximum of the ratios and the amplitudes. *)
Lemma array_near : eta <= v -> exists M' A', fl_holo_max a q ny nx S' E = Fin M' /\ Rabs (M' - M) <= (1.01 * k + 7 * v) * M /\ 0.9 * M <= M' /\
  forall i j, (i < ny)%nat -> (j < nx)%nat -> fl_holo_amp a q ny nx S' E i j = Fin (A' i j) /\ 0 <= A' i j <= 1 /\ Rabs (A' i j - Cmod (S i j) / Cmod (E i j) / M) <= 2.3 * k + 18 * v.
Proof.
  intros Hev. assert (R := fun i j Hi Hj => ratio_near a u eta v o B q H HB Hu Hv He Q k M b Hk HM Hb Ho Ho1 Ho2 Hem (S i j) (S' i j) (E i j) (HE i j Hi Hj) (HS i j Hi Hj) (HD i j Hi Hj)).
  set (r' := fun i j => rho a q (S' i j) (E i j)). destruct HS1 as (i1 & j1 & Hi1 & Hj1 & E1).
  assert (V' : v <= 1 / 10000) by lra.
  assert (EM : forall i j, (i < ny)%nat -> (j < nx)%nat -> 0 <= Cmod (S i j) / Cmod (E i j) <= M).
  { intros i j Hi Hj. assert (P : 0 < Cmod (E i j)) by (specialize (HE i j Hi Hj); lra). split; [apply Rmult_le_pos; [apply Cmod_ge_0|left; apply Rinv_0_lt_compat, P]|].
    apply Rmult_le_reg_r with (Cmod (E i j)); [exact P|]. unfold Rdiv. rewrite Rmult_assoc, Rinv_l, Rmult_1_r by lra. apply HS; assumption. }
  destruct (xmax2_fin r' ny nx ltac:(lia) ltac:(lia)) as (M' & EM' & LM & i2 & j2 & Hi2 & Hj2 & AM).
  assert (X : fl_holo_max a q ny nx S' E = Fin M').
  { unfold fl_holo_max. cbn [reduce_max]. rewrite <- EM'. apply xmax2_ext. intros i j Hi Hj. exact (proj1 (R i j Hi Hj)). }
  set (c := 1.01 * k + 7 * v) in *. assert (C0 : 0 <= c <= 0.065) by (unfold c; lra).
  assert (DM : Rabs (M' - M) <= c * M).
  { assert (U1 := proj1 (proj2 (proj2 (R i1 j1 Hi1 Hj1)))). assert (U2 := proj1 (proj2 (proj2 (R i2 j2 Hi2 Hj2)))). fold (r' i1 j1) in U1. fold (r' i2 j2) in U2.
    apply Rabs_le_inv in U1, U2. assert (L := LM i1 j1 Hi1 Hj1). assert (T := EM i2 j2 Hi2 Hj2).
    replace (Cmod (S i1 j1) / Cmod (E i1 j1)) with M in U1 by (rewrite E1; field; specialize (HE i1 j1 Hi1 Hj1); lra). apply Rabs_le. lra. }
  assert (PM : 0.9 * M <= M'). { apply Rabs_le_inv in DM. assert (c * M <= 0.065 * M) by (apply Rmult_le_compat_r; lra). lra. }
  exists M', (fun i j => rnd a (r' i j / M')). do 3 (split; [assumption|]). intros i j Hi Hj.
  destruct (R i j Hi Hj) as (F1 & F2 & F3 & _). fold (r' i j) in F1, F2, F3.
  split; [|split].
  - unfold fl_holo_amp, fl_amp_scaled. fold (fl_holo_max a q ny nx S' E). rewrite X, F1. cbn [xdiv]. destruct (Req_EM_T M' 0); [lra|reflexivity].
  - assert (Z0 : rnd a 0 = 0) by (apply (fl_0 _ _ _ _ H); lia). assert (Z1 : rnd a 1 = 1) by (apply (fl_1 _ _ _ _ H); lia).
    split; [rewrite <- Z0|rewrite <- Z1]; apply (ar_monotone _ _ _ _ H).
    + apply Rmult_le_pos; [exact F2|]. left. apply Rinv_0_lt_compat. lra.
    + apply Rmult_le_reg_r with M'; [lra|]. unfold Rdiv. rewrite Rmult_assoc, Rinv_l by lra. rewrite Rmult_1_r, Rmult_1_l. apply LM; assumption.
  - apply (normalised a u eta v B H Hu Hv He k M Hk HM (Cmod (S i j) / Cmod (E i j)) (r' i j) M' (EM i j Hi Hj) F2 F3 DM Hev).
Qed.
End Array.

(** ** The spectrum *)
Lemma spectrum_near a u eta v B e dd F ny nx T Wo : arithmetic u eta B (rnd a) -> 0 <= u <= v -> v <= 1 / 8 -> 0 <= eta ->
  (0 < ny)%nat -> (0 < nx)%nat -> accurate_forward a e dd ny nx (F ny nx) ->
  (forall i j, (i < ny)%nat -> (j < nx)%nat -> representable (rnd a) (T i j)) ->
  let W := fun i j => match Wo with None => RtoC 1 | Some w => w i j end in
  (forall i j, (i < ny)%nat -> (j < nx)%nat -> Cmod (W i j) <= 1) ->
  let sg := e * norm ny nx (spectrum_of ny nx T) + dd in
  forall i j, (i < ny)%nat -> (j < nx)%nat ->
  Cmod (fl_spectrum a F ny nx T Wo i j - spectrum_of ny nx T i j * W i j)%C <= sg * (1 + 6 * v) + 6 * v * Cmod (spectrum_of ny nx T i j * W i j)%C + 8 * eta.
Proof.
  intros H Hu Hv He Hny Hnx HF HT W HW sg.
  assert (HX : (forall i j, (i < ny)%nat -> (j < nx)%nat -> representable (rnd a) (ifftshift2 ny nx T i j))).
  { intros i j Hi Hj. unfold ifftshift2. apply HT; apply Nat.mod_upper_bound; lia. }
  assert (A := HF _ HX). set (g := F ny nx (ifftshift2 ny nx T)) in *. set (g0 := fft2 ny nx (ifftshift2 ny nx T)) in *.
  assert (ES : forall i j, (i < ny)%nat -> (j < nx)%nat -> fftshift2 ny nx g0 i j = spectrum_of ny nx T i j) by (intros i j Hi Hj; apply (spectrum_fp ny nx T i j Hi Hj)).
  assert (EN : norm ny nx g0 = norm ny nx (spectrum_of ny nx T)) by (rewrite <- norm_shift; apply norm_ext; exact ES).
  rewrite EN in A. fold sg in A. clearbody sg.
  assert (P : forall i j, (i < ny)%nat -> (j < nx)%nat -> Cmod (fftshift2 ny nx g i j - spectrum_of ny nx T i j)%C <= sg).
  { intros i j Hi Hj. rewrite <- ES by assumption.
    assert (L := entry_norm ny nx (fftshift2 ny nx (fun i j => g i j - g0 i j)%C) i j Hi Hj). rewrite norm_shift in L. unfold fftshift2 in *. lra. }
  assert (sg0 : 0 <= sg) by (eapply Rle_trans; [apply norm_ge_0|exact A]).
  intros i j Hi Hj. specialize (P i j Hi Hj). specialize (HW i j Hi Hj). unfold fl_spectrum. cbv zeta. change (F ny nx (ifftshift2 ny nx T)) with g. set (z := fftshift2 ny nx g i j) in *. set (s := spectrum_of ny nx T i j) in *.
  assert (N0 : 0 <= v * sg) by (apply Rmult_le_pos; lra). unfold W in *. clearbody z s. clear W. destruct Wo as [w|].
  - cbv beta iota in *. assert (C1 := cmul_near a u eta B H ltac:(lra) He z (w i j)).
    assert (T1 : Cmod (fl_cmul a z (w i j) - s * w i j)%C <= Cmod (fl_cmul a z (w i j) - z * w i j)%C + Cmod (z - s)%C * Cmod (w i j)).
    { replace (fl_cmul a z (w i j) - s * w i j)%C with ((fl_cmul a z (w i j) - z * w i j) + (z - s) * w i j)%C by ring. eapply Rle_trans; [apply Cmod_triangle|]. rewrite (Cmod_mult (z - s)%C). lra. }
    assert (T2 : Cmod z * Cmod (w i j) <= Cmod (s * w i j)%C + sg).
    { rewrite <- Cmod_mult. replace (z * w i j)%C with (s * w i j + (z - s) * w i j)%C by ring. eapply Rle_trans; [apply Cmod_triangle|]. rewrite (Cmod_mult (z - s)%C).
      assert (Cmod (z - s)%C * Cmod (w i j) <= sg * 1) by (apply Rmult_le_compat; try apply Cmod_ge_0; assumption). lra. }
    assert (T3 : Cmod (z - s)%C * Cmod (w i j) <= sg * 1) by (apply Rmult_le_compat; try apply Cmod_ge_0; assumption).
    assert (T4 : 6 * u * (Cmod z * Cmod (w i j)) <= 6 * v * (Cmod (s * w i j)%C + sg)) by (apply Rmult_le_compat; [lra|apply Rmult_le_pos; apply Cmod_ge_0|lra|exact T2]).
    lra.
  - cbv beta iota in *. rewrite Cmult_1_r. assert (0 <= v * Cmod s) by (apply Rmult_le_pos; [lra|apply Cmod_ge_0]). lra.
Qed.

(** ** The efficiency *)
Lemma eta_near a u' eta' v B' ny nx ps sf M M' c b K : arithmetic u' eta' B' (dbl a) -> 0 <= u' <= v -> 0 <= v <= / 2 ^ 16 -> (0 < ny)%nat -> (0 < nx)%nat -> 0 < ps -> 0 < sf -> 0 < M -> 0 < b -> M * b <= K ->
  0 <= c <= 0.065 -> Rabs (M' - M) <= c * M ->
  eta' <= v * ps ^ 2 -> eta' <= v * (ps ^ 2 / sf) -> eta' <= v * (ps ^ 2 / sf * (INR nx * INR ny) * b / K) ->
  let e0 := INR nx * INR ny * ps ^ 2 / sf / M in
  exists y, fl_holo_eta a ny nx ps sf (Fin M') = Some y /\ Rabs (y - e0) <= (1.1 * c + 14 * v) * e0.
Proof.
  intros H Hu Hv Hny Hnx Hps Hsf HM Hb HK Hc DM U1 U2 U3 e0.
  assert (DM' := DM). apply Rabs_le_inv in DM'. assert (cM : c * M <= 0.065 * M) by (apply Rmult_le_compat_r; lra). assert (PM : 0.935 * M <= M') by lra.
  assert (X1 : 1 <= INR nx) by (change 1 with (INR 1); apply le_INR; lia). assert (Y1 : 1 <= INR ny) by (change 1 with (INR 1); apply le_INR; lia).
  assert (P2 : 0 < ps ^ 2) by (apply pow_lt, Hps). assert (P3 : 0 < ps ^ 2 / sf) by (apply Rdiv_lt_0_compat; assumption).
  set (X := INR nx) in *. set (Y := INR ny) in *. unfold fl_holo_eta. fold X Y. destruct (Req_EM_T M' 0) as [Z|_]; [lra|]. eexists. split; [reflexivity|].
  assert (V40 : 0 <= v <= / 2 ^ 16) by exact Hv.
  assert (N0 : FringeErr.near v 0 (ps ^ 2) (ps ^ 2) (ps ^ 2)) by (split; [rewrite Rminus_diag_eq, Rabs_R0 by reflexivity; lra|rewrite Rabs_pos_eq; lra]).
  assert (N1 := FringeErr.near_round v Hv (dbl a) u' eta' B' 0 _ _ _ H N0 Hu U1 ltac:(lra)).
  assert (NS : FringeErr.near v 2.01 sf sf sf). { split; [rewrite Rminus_diag_eq, Rabs_R0 by reflexivity|rewrite Rabs_pos_eq; lra]. assert (0 <= v * sf) by (apply Rmult_le_pos; lra). lra. }
  assert (N2 := FringeErr.near_div v Hv _ _ _ _ _ _ N1 ltac:(lra) Hsf NS).
  assert (N3 := FringeErr.near_round v Hv (dbl a) u' eta' B' _ _ _ _ H N2 Hu U2 ltac:(lra)).
  assert (NX : FringeErr.near v 0 X X X) by (split; [rewrite Rminus_diag_eq, Rabs_R0 by reflexivity; lra|rewrite Rabs_pos_eq; lra]).
  assert (NY : FringeErr.near v 0 Y Y Y) by (split; [rewrite Rminus_diag_eq, Rabs_R0 by reflexivity; lra|rewrite Rabs_pos_eq; lra]).
  assert (N4 := FringeErr.near_mult v Hv _ _ _ _ _ _ _ _ N3 NX ltac:(lra) ltac:(lra)).
  assert (P4 : ps ^ 2 / sf <= ps ^ 2 / sf * X) by nra. assert (W0 : 0 <= v) by lra.
  assert (U4 : eta' <= v * (ps ^ 2 / sf * X)). { eapply Rle_trans; [exact U2|]. apply Rmult_le_compat_l; assumption. }
  assert (N5 := FringeErr.near_round v Hv (dbl a) u' eta' B' _ _ _ _ H N4 Hu U4 ltac:(lra)).
  assert (N6 := FringeErr.near_mult v Hv _ _ _ _ _ _ _ _ N5 NY ltac:(lra) ltac:(lra)).
  assert (P5 : ps ^ 2 / sf * X <= ps ^ 2 / sf * X * Y) by nra.
  assert (U5 : eta' <= v * (ps ^ 2 / sf * X * Y)). { eapply Rle_trans; [exact U4|]. apply Rmult_le_compat_l; assumption. }
  assert (N7 := FringeErr.near_round v Hv (dbl a) u' eta' B' _ _ _ _ H N6 Hu U5 ltac:(lra)).
  set (n := ps ^ 2 / sf * X * Y) in *. set (n' := dbl a (dbl a (dbl a (dbl a (ps ^ 2) / sf) * X) * Y)) in *. assert (Pn : 0 < n) by lra.
  destruct N7 as [N7 _]. assert (N8 : Rabs (n' - n) <= 10.2 * v * n). { eapply Rle_trans; [exact N7|]. assert (0 <= v * n) by (apply Rmult_le_pos; lra). lra. }
  assert (E0 : e0 = n / M) by (unfold e0, n; field; lra). rewrite E0. set (t := n / M) in *. assert (Pt : 0 < t) by (apply Rdiv_lt_0_compat; lra).
  assert (U6 : eta' <= v * t).
  { eapply Rle_trans; [exact U3|]. apply Rmult_le_compat_l; [lra|]. assert (PK : 0 < K) by (assert (0 < M * b) by (apply Rmult_lt_0_compat; lra); lra).
    replace (ps ^ 2 / sf * (X * Y) * b / K) with (n * b / K) by (unfold n; field; lra). apply Rmult_le_reg_r with (K * M); [apply Rmult_lt_0_compat; lra|].
    replace (n * b / K * (K * M)) with (n * (M * b)) by (field; lra). replace (t * (K * M)) with (n * K) by (unfold t; field; lra). apply Rmult_le_compat_l; lra. }
  assert (D : Rabs (n' / M' - t) <= (10.2 * v + c) * 1.07 * t).
  { replace (n' / M' - t) with (((n' - n) * M - n * (M' - M)) * / (M' * M)) by (unfold t; field; lra).
    assert (P : 0 < M' * M) by (apply Rmult_lt_0_compat; lra). rewrite Rabs_mult, (Rabs_pos_eq (/ (M' * M))) by (left; apply Rinv_0_lt_compat, P).
    apply Rmult_le_reg_r with (M' * M); [exact P|]. rewrite Rmult_assoc, Rinv_l, Rmult_1_r by lra.
    eapply Rle_trans; [apply Rabs_triang|]. rewrite Rabs_Ropp, !Rabs_mult, (Rabs_pos_eq M), (Rabs_pos_eq n) by lra.
    assert (A1 : Rabs (n' - n) * M <= 10.2 * v * n * M) by (apply Rmult_le_compat_r; lra).
    assert (A2 : n * Rabs (M' - M) <= n * (c * M)) by (apply Rmult_le_compat_l; lra).
    replace ((10.2 * v + c) * 1.07 * t * (M' * M)) with (1.07 * ((10.2 * v + c) * n) * M') by (unfold t; field; lra).
    assert (A3 : 1.07 * ((10.2 * v + c) * n) * (0.935 * M) <= 1.07 * ((10.2 * v + c) * n) * M') by (apply Rmult_le_compat_l; [apply Rmult_le_pos; [lra|apply Rmult_le_pos; lra]|lra]).
    assert (0 <= (10.2 * v + c) * n * M) by (apply Rmult_le_pos; [apply Rmult_le_pos; lra|lra]). nra. }
  assert (E3 := ar_error _ _ _ _ H (n' / M')). assert (V' : v <= 1 / 10000) by lra. 
  assert (vt : 0 <= v * t) by (apply Rmult_le_pos; lra). assert (ct : 0 <= c * t) by (apply Rmult_le_pos; lra). assert (ct2 : c * t <= 0.065 * t) by (apply Rmult_le_compat_r; lra). assert (vt2 : v * t <= 1 / 10000 * t) by (apply Rmult_le_compat_r; lra).
  assert (B3 : Rabs (n' / M') <= 1.1 * t). { replace (n' / M') with ((n' / M' - t) + t) by ring. eapply Rle_trans; [apply Rabs_triang|]. rewrite (Rabs_pos_eq t) by lra. lra. }
  assert (U7 : u' * Rabs (n' / M') <= v * (1.1 * t)) by (apply Rmult_le_compat; [lra|apply Rabs_pos|lra|exact B3]).
  fold n'. replace (dbl a (n' / M') - t) with ((dbl a (n' / M') - n' / M') + (n' / M' - t)) by ring. eapply Rle_trans; [apply Rabs_triang|]. lra.
Qed.
