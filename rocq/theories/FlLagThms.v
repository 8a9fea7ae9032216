(** Theorems on the rounding errors of Laguerre-Gauss modes in the form they are stated in PropsFlLag.v. *)
From Coq Require Import Reals ZArith List Bool Lia Lra Psatz.
From Coquelicot Require Import Complex.
From Verif Require Import Cx Sums PyBase ProfileModel ModeSpec ModeFacts ModeThms FloatModel FloatSpec FloatFacts FlSimSpec FlSimFacts WideSpec FlAnaModel FlAnaFacts FlAnaThms FlZernModel FlZernSpec FlZernFacts FlZernFacts2 FlZernThms FlHermModel FlHermSpec FlHermFacts FlHermThms FlSupFacts FlLagModel FlLagSpec FlLagFacts StabFacts FlLcosFacts.
Import ListNotations.
Open Scope R_scope.

Lemma amp_close u eta B l k1 J M1 N Qe q L Lp E E2 h : arithmetic u eta B (z_rnd l) -> 0 <= u <= 1 / 1000 -> 0 <= eta -> clo u k1 M1 Qe q -> clo u J N L Lp -> 0 < E -> 1 <= h -> Rabs (E2 - E) <= (h - 1) * E + eta ->
  Rabs (z_rnd l (z_rnd l (q * E2) * Lp) - Qe * L * E) <= ((1 + 4 * u) ^ (k1 + J + 2) * h - 1) * (M1 * N * E) + ((1 + 4 * u) ^ (k1 + J + 2) * (M1 * N + N) + 1) * eta.
Proof.
  intros A Hu He C D E0 h1 HE. pose proof (clo_pos _ _ _ _ _ C) as M0. pose proof (clo_pos _ _ _ _ _ D) as N0. pose proof (clo_abs _ _ _ _ _ D) as Db. destruct C as [Ca Ce], D as [Da De]. pose proof (gp u ltac:(lra) k1) as G. pose proof (gp u ltac:(lra) J) as GJ.
  rewrite !pow_add. replace ((1 + 4 * u) ^ 2) with ((1 + 4 * u) * (1 + 4 * u)) by ring. set (g := (1 + 4 * u) ^ k1) in *. set (j := (1 + 4 * u) ^ J) in *. pose proof (abs_le_add _ _ _ HE) as B2. rewrite (Rabs_pos_eq E) in B2 by lra.
  set (T := M1 * E). assert (T0 : 0 <= T) by (apply Rmult_le_pos; lra). set (e := M1 * eta). assert (e0 : 0 <= e) by (apply Rmult_le_pos; lra).
  assert (P1 : Rabs (q * E2 - Qe * E) <= (g * h - 1) * T + g * e).
  { replace (q * E2 - Qe * E) with ((q - Qe) * E2 + Qe * (E2 - E)) by ring. eapply Rle_trans; [apply Rabs_triang|]. assert (Rabs ((q - Qe) * E2) <= (g - 1) * M1 * (h * E + eta)) by (apply mult_le; [exact Ce|lra]). assert (Rabs (Qe * (E2 - E)) <= M1 * ((h - 1) * E + eta)) by (apply mult_le; assumption). unfold T, e. lra. }
  assert (QT : Rabs (Qe * E) <= T) by (apply mult_le; [exact Ca|rewrite Rabs_pos_eq; lra]). pose proof (rnd_err u eta B (z_rnd l) A ltac:(lra) _ _ _ P1) as K1.
  assert (gh : 1 <= g * h) by nra. set (G1 := (1 + 4 * u) * g). assert (G11 : g <= G1) by (unfold G1; assert (0 <= u * g) by (apply Rmult_le_pos; lra); lra). set (a1 := z_rnd l (q * E2)) in *.
  assert (K2 : Rabs (a1 - Qe * E) <= (G1 * h - 1) * T + (G1 * e + eta)).
  { eapply Rle_trans; [exact K1|]. assert (u * Rabs (Qe * E) <= u * T) by (apply Rmult_le_compat_l; lra). assert (0 <= u * (g * h * T)) by (apply Rmult_le_pos; [lra|apply Rmult_le_pos; lra]). assert (0 <= u * (g * e)) by (apply Rmult_le_pos; [lra|apply Rmult_le_pos; lra]). unfold G1. lra. }
  set (Y := T * N). assert (Y0 : 0 <= Y) by (apply Rmult_le_pos; lra). set (f := j * (N * (G1 * e + eta))). assert (f0 : 0 <= f). { apply Rmult_le_pos; [lra|]. apply Rmult_le_pos; [lra|]. assert (0 <= G1 * e) by (apply Rmult_le_pos; lra). lra. }
  assert (P2 : Rabs (a1 * Lp - Qe * E * L) <= (G1 * j * h - 1) * Y + f).
  { replace (a1 * Lp - Qe * E * L) with ((a1 - Qe * E) * Lp + Qe * E * (Lp - L)) by ring. eapply Rle_trans; [apply Rabs_triang|]. assert (Rabs ((a1 - Qe * E) * Lp) <= ((G1 * h - 1) * T + (G1 * e + eta)) * (j * N)) by (apply mult_le; assumption). assert (Rabs (Qe * E * (Lp - L)) <= T * ((j - 1) * N)) by (apply mult_le; assumption). unfold Y, f. lra. }
  assert (QY : Rabs (Qe * E * L) <= Y) by (apply mult_le; assumption). pose proof (rnd_err u eta B (z_rnd l) A ltac:(lra) _ _ _ P2) as K3. replace (Qe * L * E) with (Qe * E * L) by ring. eapply Rle_trans; [exact K3|].
  assert (u * Rabs (Qe * E * L) <= u * Y) by (apply Rmult_le_compat_l; lra). assert (Gj : 1 <= G1 * j) by nra. assert (Gjh : 1 <= G1 * j * h) by nra. assert (0 <= u * (G1 * j * h * Y)) by (apply Rmult_le_pos; [lra|apply Rmult_le_pos; lra]). assert (uf : 0 <= u * f) by (apply Rmult_le_pos; lra).
  replace (g * j * ((1 + 4 * u) * (1 + 4 * u))) with ((1 + 4 * u) * (G1 * j)) by (unfold G1; ring). replace (M1 * N * E) with Y by (unfold Y, T; ring).
  assert (F : f <= G1 * j * (M1 * N + N) * eta). { unfold f, e. assert (0 <= j * N * eta * (G1 - 1)) by (apply Rmult_le_pos; [apply Rmult_le_pos; [apply Rmult_le_pos; lra|lra]|lra]). lra. }
  assert (uF : u * f <= u * (G1 * j * (M1 * N + N) * eta)) by (apply Rmult_le_compat_l; lra). assert (0 <= u * (G1 * j * (M1 * N + N) * eta)) by lra. lra.
Qed.
Lemma fourth u : 0 <= u <= 1 / 1000 -> (1 + 4 * u) ^ 4 - 1 <= 20 * u.
Proof.
  intros H. assert (a : u * u <= u * (1 / 1000)) by (apply Rmult_le_compat_l; lra). assert (b : u * (u * u) <= u * (1 / 1000)) by (apply Rmult_le_compat_l; lra). assert (c : u * (u * (u * u)) <= u * (1 / 1000)) by (apply Rmult_le_compat_l; lra). replace ((1 + 4 * u) ^ 4 - 1) with (16 * u + 96 * (u * u) + 256 * (u * (u * u)) + 256 * (u * (u * (u * u)))) by ring. lra.
Qed.
Lemma laguerre_value u eta B l f_exp ee f_pow vp kp ea ec s2 h q p x0 y0 Am w x y r phi Q :
  arithmetic u eta B (z_rnd l) -> 0 <= u <= 1 / 1000 -> 0 <= eta <= u -> accurate_exp f_exp ee eta -> 0 <= ee -> accurate_ipow f_pow vp eta -> 0 <= vp <= 4 * u * INR kp -> accurate_zlib l ea ec -> 0 <= ea -> 0 <= ec ->
  near (4 * u) 0 (sqrt 2) s2 -> stored_laguerre u p (Z.abs_nat q) h -> (Z.abs q <= B)%Z -> eta <= u / INR (fact p) ->
  let A' := z_rnd l Am in let w' := z_rnd l w in
  0 < w' -> eta <= u * w' -> 4 * eta <= (u * w') ^ 2 -> eta <= u * Rabs A' -> 1 <= Q -> 0 <= r <= Q * w' -> z_rnd l (x - z_rnd l x0) = r * cos phi -> z_rnd l (y - z_rnd l y0) = r * sin phi ->
  let z := lag_error u ee kp (Z.abs_nat q) p Q in z <= 1 / 2 ->
  let N := laguerre p (INR (Z.abs_nat q)) (- (2 * Q ^ 2)) in let M := Rabs A' * (sqrt 2 * Q) ^ Z.abs_nat q * N in let E := exp (- r ^ 2 / w' ^ 2) in
  let e := component_error u eta (M * E) (amplitude_error z eta M N E) (angular_error u eta ea ec q) in
  let v := fl_laguerre l f_exp f_pow s2 h x0 y0 Am w q x y in let v' := lg_mode A' w' q p r phi in
  Rabs (fst v - fst v') <= e /\ Rabs (snd v - snd v') <= e.
Proof.
  intros A Hu He Fe Hee Fp Hvp Lz Hea Hec Hs Sh Hq Ef A' w' Hw Ew Ew2 Ea HQ Hr Dx Dy z Hz N M E e v v'.
  pose proof (sin2_cos2 phi) as SC. unfold Rsqr in SC. set (dx := z_rnd l (x - z_rnd l x0)) in *. set (dy := z_rnd l (y - z_rnd l y0)) in *.
  assert (Es : dx ^ 2 + dy ^ 2 = r ^ 2). { rewrite Dx, Dy. replace ((r * cos phi) ^ 2 + (r * sin phi) ^ 2) with (r ^ 2 * (sin phi * sin phi + cos phi * cos phi)) by ring. rewrite SC. ring. }
  assert (HS : dx ^ 2 + dy ^ 2 <= (Q * w') ^ 2) by (rewrite Es; apply pow_incr; exact Hr). assert (Rt : sqrt (dx ^ 2 + dy ^ 2) = r) by (rewrite Es; apply sqrt_pow2; lra).
  destruct (zl_angle _ _ _ Lz dx dy) as (psi & Hpsi & Px & Py & Ha). rewrite Rt in Px, Py.
  assert (Ev : v' = lg_mode A' w' q p r psi). { unfold v'. rewrite <- (lg_value_mode 0 0 A' w' q p r phi), <- (lg_value_mode 0 0 A' w' q p r psi) by lra. rewrite <- Dx, <- Dy, <- Px, <- Py. reflexivity. }
  destruct (s_clo u eta B l A Hu He dx dy w' Q Hw Ew Ew2 HQ HS s2 Hs) as [Cs M1]. rewrite Rt in Cs. pose proof (t_clo u eta B l A Hu He dx dy w' Q Hw Ew2 HQ HS) as Ct. destruct (e_clo u eta B l A Hu He dx dy w' Q Hw Ew2 HQ HS) as [Ce Ce0]. rewrite Es in Ct, Ce.
  set (r2' := z_rnd l (z_rnd l (dx ^ 2) + z_rnd l (dy ^ 2))) in *. set (w2' := z_rnd l (w' ^ 2)) in *. set (k := Z.abs_nat q) in *.
  pose proof (ipow_clo u eta Hu He f_pow vp kp 5 _ _ _ k Fp Hvp M1 Cs) as Cp. assert (Q2 : 1 <= Q ^ 2) by nra. pose proof (laguerre_clo u eta B l A Hu He 5 (2 * Q ^ 2) _ _ p k h ltac:(lra) Ct Sh Ef) as CL. fold N in CL.
  set (pw := f_pow _ k) in *. set (Lp := fl_polyval l h _) in *. assert (M1k : 1 <= (sqrt 2 * Q) ^ k) by (apply pow_R1_Rle, M1).
  assert (Cq : clo u (S (0 + (5 * k + kp + 1))) (Rabs A' * (sqrt 2 * Q) ^ k) (A' * (sqrt 2 * r / w') ^ k) (z_rnd l (A' * pw))).
  { apply (clo_rnd u eta B l A ltac:(lra) He); [apply (clo_mul u ltac:(lra)); [apply clo_exact|exact Cp]|]. right. assert (u * Rabs A' * 1 <= u * Rabs A' * (sqrt 2 * Q) ^ k) by (apply Rmult_le_compat_l; [apply Rmult_le_pos; [lra|apply Rabs_pos]|exact M1k]). lra. }
  destruct Ce as [_ Ce]. set (t' := z_rnd l (r2' / w2')) in *. set (d := ((1 + 4 * u) ^ 4 - 1) * Q ^ 2) in *. pose proof (exp_close f_exp ee eta (r ^ 2 / w' ^ 2) t' d Fe Hee Ce0 Ce) as KE. replace (- (r ^ 2 / w' ^ 2)) with (- r ^ 2 / w' ^ 2) in KE by (unfold Rdiv; ring). fold E in KE.
  assert (d0 : 0 <= d) by (pose proof (Rabs_pos (t' - r ^ 2 / w' ^ 2)); lra). assert (E0 : 0 < E) by apply exp_pos. set (hh := exp d * (1 + ee)) in *. assert (ed : 1 <= exp d) by (pose proof (exp_ineq1_le d); lra). assert (h1 : 1 <= hh) by (unfold hh; nra).
  pose proof (amp_close u eta B l _ _ _ _ _ _ _ _ E (f_exp (- t')) hh A Hu ltac:(lra) Cq CL E0 h1 KE) as Am1. replace (S (0 + (5 * k + kp + 1)) + (1 + (5 + 2) * p) + 2)%nat with (5 * k + kp + 7 * p + 5)%nat in Am1 by lia.
  assert (Eq : f_exp (- t') = f_exp (z_rnd l (- r2' / w2'))). { f_equal. unfold t'. rewrite <- (ar_odd _ _ _ _ A). f_equal. unfold Rdiv. ring. } rewrite Eq in Am1.
  set (amp' := z_rnd l (z_rnd l (z_rnd l (A' * pw) * _) * Lp)) in *. set (amp := A' * (sqrt 2 * r / w') ^ k * laguerre p (INR k) (2 * r ^ 2 / w' ^ 2) * E) in *. fold M in Am1.
  pose proof (clo_pos _ _ _ _ _ CL) as N0. assert (M0 : 0 <= M) by (apply Rmult_le_pos; [apply Rmult_le_pos; [apply Rabs_pos|lra]|exact N0]).
  set (K := (5 * k + kp + 7 * p + 5)%nat) in *. set (g := (1 + 4 * u) ^ K) in *.
  assert (Tz : g * hh <= 1 + 2 * z).
  { unfold lag_error in z. fold K in z. apply Rle_trans with (exp z); [|apply exp_small; split; [|exact Hz]]. 2:{ unfold z. pose proof (pos_INR K). assert (0 <= 4 * u * (INR K + 5 * Q ^ 2)) by (apply Rmult_le_pos; lra). lra. }
    pose proof (pow_exp (4 * u) K ltac:(lra)) as Pk. fold g in Pk. pose proof (exp_ineq1_le ee) as Pe. assert (Dd : d <= 20 * u * Q ^ 2) by (apply Rmult_le_compat_r; [lra|apply fourth, Hu]). assert (g0 : 0 <= g) by (apply pow_le; lra).
    apply Rle_trans with (exp (INR K * (4 * u)) * (exp d * exp ee)). - apply Rmult_le_compat; [exact g0|lra|exact Pk|]. unfold hh. apply Rmult_le_compat_l; lra.
    - rewrite <- !exp_plus. destruct (Rle_lt_or_eq_dec (INR K * (4 * u) + (d + ee)) z ltac:(unfold z; lra)) as [LL|LL]; [left; apply exp_increasing, LL|right; f_equal; exact LL]. }
  assert (g1 : 1 <= g) by (apply pow_1; lra). assert (g2 : g <= 2). { assert (g * 1 <= g * hh) by (apply Rmult_le_compat_l; lra). lra. }
  assert (AE : Rabs (amp' - amp) <= amplitude_error z eta M N E).
  { eapply Rle_trans; [exact Am1|]. unfold amplitude_error. assert (0 <= M * E) by (apply Rmult_le_pos; lra). apply Rplus_le_compat; [apply Rmult_le_compat_r; lra|]. apply Rmult_le_compat_r; [lra|]. assert (g * (M + N) <= 2 * (M + N)) by (apply Rmult_le_compat_r; lra). lra. }
  assert (AM : Rabs amp <= M * E). { unfold amp, M. apply mult_le; [|rewrite Rabs_pos_eq; lra]. apply mult_le; [exact (proj1 Cq)|exact (proj1 CL)]. }
  set (ae := amplitude_error z eta M N E) in *. set (eq := angular_error u eta ea ec q) in *.
  assert (CC : forall c c', Rabs c <= 1 -> Rabs (c' - c) <= eq -> Rabs (z_rnd l (amp' * c') - amp * c) <= e).
  { intros c c' Hc Hcc. unfold e, component_error. apply (to_rounded u eta B l A ltac:(lra)). - replace (M * E) with (M * E * 1) by ring. apply mult_le; assumption.
    - replace (amp' * c' - amp * c) with ((amp' - amp) * c' + amp * (c' - c)) by ring. eapply Rle_trans; [apply Rabs_triang|]. assert (Rabs c' <= 1 + eq) by (pose proof (abs_le_add _ _ _ Hcc); lra). assert (Rabs ((amp' - amp) * c') <= ae * (1 + eq)) by (apply mult_le; assumption). assert (Rabs (amp * (c' - c)) <= M * E * eq) by (apply mult_le; assumption). lra. }
  assert (Iq : z_rnd l (IZR q) = IZR q) by (apply (exact_int u eta B l A 0%nat 0%nat), Hq). assert (q0 : 0 <= IZR (Z.abs q)) by (apply IZR_le; lia). assert (Aq : Rabs (- IZR q) = IZR (Z.abs q)) by (rewrite Rabs_Ropp, abs_IZR; reflexivity).
  set (t := z_rnd l (- z_rnd l (IZR q) * z_atan2 l dy dx)). assert (Tt : Rabs (t - - IZR q * psi) <= rounded u eta (IZR (Z.abs q) * PI) (IZR (Z.abs q) * ea)).
  { unfold t. rewrite Iq. apply (to_rounded u eta B l A ltac:(lra)). - apply mult_le; lra. - replace (- IZR q * z_atan2 l dy dx - - IZR q * psi) with (- IZR q * (z_atan2 l dy dx - psi)) by ring. apply mult_le; lra. }
  assert (Ve : v = (z_rnd l (amp' * z_cos l t), z_rnd l (amp' * z_sin l t))) by reflexivity. rewrite Ve, Ev. unfold lg_mode. fold k E amp. unfold cis, Cmult, RtoC. cbn [fst snd].
  replace (amp * cos (- IZR q * psi) - 0 * sin (- IZR q * psi)) with (amp * cos (- IZR q * psi)) by ring. replace (amp * sin (- IZR q * psi) + 0 * cos (- IZR q * psi)) with (amp * sin (- IZR q * psi)) by ring.
  (split; apply CC); [apply cos_abs| |apply FlZernFacts2.sin_abs|]; unfold eq, angular_error.
  - pose proof (zl_cos _ _ _ Lz t) as C1. pose proof (cos_lipschitz t (- IZR q * psi)) as C2. replace (z_cos l t - cos (- IZR q * psi)) with ((z_cos l t - cos t) + (cos t - cos (- IZR q * psi))) by ring. eapply Rle_trans; [apply Rabs_triang|]. lra.
  - pose proof (zl_sin _ _ _ Lz t) as C1. pose proof (sin_lipschitz t (- IZR q * psi)) as C2. replace (z_sin l t - sin (- IZR q * psi)) with ((z_sin l t - sin t) + (sin t - sin (- IZR q * psi))) by ring. eapply Rle_trans; [apply Rabs_triang|]. lra.
Qed.
Lemma fl_polyval_id l h x : (forall t, z_rnd l t = t) -> fl_polyval l h x = polyval h x.
Proof. intros Hl. unfold fl_polyval, polyval. destruct h as [|c h]; [reflexivity|]. revert c. induction h as [|d h IH]; intros c; cbn [fold_left]; [reflexivity|]. rewrite !Hl. apply IH. Qed.
Lemma size_pos p al x : 0 <= x -> 0 <= laguerre p (INR al) (- x).
Proof.
  intros Hx. rewrite <- laguerre_abs. unfold polyval. destruct (laguerre_coef p al) as [|c t]; cbn [map]; [lra|]. pose proof (Rabs_pos c) as C0. revert C0. generalize (Rabs c). induction t as [|d t IH]; intros a Ha; cbn [map fold_left]; [exact Ha|]. apply IH. pose proof (Rabs_pos d). assert (0 <= a * x) by (apply Rmult_le_pos; lra). lra.
Qed.
Lemma no_rounding l q p x0 y0 Am w r phi : (forall t, z_rnd l t = t) -> (forall y x, z_atan2 l y x = atan2 y x) -> (forall t, z_cos l t = cos t) -> (forall t, z_sin l t = sin t) -> 0 < w -> 0 <= r ->
  fl_laguerre l exp pow (sqrt 2) (laguerre_coef p (Z.abs_nat q)) x0 y0 Am w q (x0 + r * cos phi) (y0 + r * sin phi) = lg_mode Am w q p r phi.
Proof.
  intros Hl Ha Hc Hs Hw Hr. rewrite <- (lg_value_mode x0 y0 Am w q p r phi) by lra. unfold fl_laguerre, lg_value. rewrite !Hl, !fl_polyval_id, !Hc, !Hs, !Ha by exact Hl. unfold cis, Cmult, RtoC. cbn [fst snd]. f_equal; ring.
Qed.
Lemma laguerre_exact u p al : 0 <= u -> stored_laguerre u p al (laguerre_coef p al).
Proof. intros Hu. unfold stored_laguerre. induction (laguerre_coef p al) as [|c t IH]; constructor; [|exact IH]. unfold near. replace (c - c) with 0 by ring. rewrite Rabs_R0. pose proof (Rabs_pos c). assert (0 <= 4 * u * Rabs c) by (apply Rmult_le_pos; lra). lra. Qed.
Lemma fact_small p : (p <= 20)%nat -> INR (fact p) <= 32 ^ p.
Proof.
  induction p as [|p IH]; intros H; [cbn; lra|]. rewrite fact_simpl, mult_INR. cbn [pow]. apply Rmult_le_compat; [apply pos_INR|apply pos_INR| |apply IH; lia]. replace 32 with (INR 32) by (rewrite INR_IZR_INZ; reflexivity). apply le_INR. lia.
Qed.
Lemma laguerre_double l f_exp f_pow h q p x0 y0 Am w x y r phi :
  z_rnd l = binary64 -> accurate_exp f_exp (/ 2 ^ 52) (/ 2 ^ 1075) -> accurate_ipow f_pow (/ 2 ^ 52) (/ 2 ^ 1075) -> accurate_zlib l (/ 2 ^ 50) (/ 2 ^ 50) -> stored_laguerre (/ 2 ^ 53) p (Z.abs_nat q) h -> (Z.abs_nat q + p <= 20)%nat ->
  let A' := binary64 Am in let w' := binary64 w in / 2 ^ 480 <= w' -> / 2 ^ 1022 <= Rabs A' ->
  binary64 (x - binary64 x0) = r * cos phi -> binary64 (y - binary64 y0) = r * sin phi -> 0 <= r <= 20 * w' ->
  let N := laguerre p (INR (Z.abs_nat q)) (- (2 * 20 ^ 2)) in let M := Rabs A' * (sqrt 2 * 20) ^ Z.abs_nat q * N in
  let e := M * exp (- r ^ 2 / w' ^ 2) / 2 ^ 37 + 3 * (M + N + 1) / 2 ^ 1075 in
  let v := fl_laguerre l f_exp f_pow (binary64 (sqrt 2)) h x0 y0 Am w q x y in let v' := lg_mode A' w' q p r phi in
  Rabs (fst v - fst v') <= e /\ Rabs (snd v - snd v') <= e.
Proof.
  intros Hl Fe Fp Lz Sh Hqp A' w' Hw Ha Dx Dy Hr N M e v v'. pose proof binary64_arithmetic as A. assert (P : forall k, 0 < / 2 ^ k) by (intros; apply Rinv_0_lt_compat, pow_lt; lra).
  assert (Pm : forall a b, (b <= a)%nat -> / 2 ^ a <= / 2 ^ b). { intros a b Le. apply Rinv_le_contravar; [apply pow_lt; lra|]. apply Rle_pow; [lra|exact Le]. }
  assert (Pp : forall a b, / 2 ^ (a + b) = / 2 ^ a * / 2 ^ b) by (intros; rewrite pow_add, Rinv_mult; reflexivity).
  assert (Px : forall a b c, (a + b = c)%nat -> / 2 ^ a = 2 ^ b * / 2 ^ c). { intros a b c <-. rewrite Pp. field. split; apply Rgt_not_eq, pow_lt; lra. }
  assert (U : / 2 ^ 53 <= 1 / 1000). { apply Rle_trans with (/ 2 ^ 10); [apply Pm; lia|]. replace (2 ^ 10) with 1024 by ring. lra. }
  assert (et : forall t, / 2 ^ 1022 <= t -> / 2 ^ 1075 <= / 2 ^ 53 * t). { intros t Ht. change 1075%nat with (53 + 1022)%nat. rewrite Pp. apply Rmult_le_compat_l; [apply Rlt_le, P|exact Ht]. }
  pose proof (P 53%nat) as P53. pose proof (P 1075%nat) as P1075. pose proof (P 52%nat). pose proof (P 50%nat). pose proof (P 480%nat). pose proof (Pm 1075%nat 53%nat ltac:(lia)) as Pe.
  assert (E52 : / 2 ^ 52 = 2 * / 2 ^ 53) by (rewrite (Px 52%nat 1%nat 53%nat) by lia; ring). assert (E50 : / 2 ^ 50 = 8 * / 2 ^ 53) by (rewrite (Px 50%nat 3%nat 53%nat) by lia; ring). assert (E37 : / 2 ^ 37 = 65536 * / 2 ^ 53) by (rewrite (Px 37%nat 16%nat 53%nat) by lia; ring).
  assert (W2 : 4 * / 2 ^ 1075 <= (/ 2 ^ 53 * w') ^ 2). { assert (Pw : / 2 ^ 533 <= / 2 ^ 53 * w') by (change 533%nat with (53 + 480)%nat; rewrite Pp; apply Rmult_le_compat_l; lra). assert (Q1 : (/ 2 ^ 533) ^ 2 <= (/ 2 ^ 53 * w') ^ 2) by (apply pow_incr; split; [apply Rlt_le, P|exact Pw]). replace ((/ 2 ^ 533) ^ 2) with (/ 2 ^ 533 * / 2 ^ 533) in Q1 by (cbn [pow]; ring). rewrite <- Pp in Q1. pose proof (Pm 1073%nat (533 + 533)%nat ltac:(lia)) as Q2. rewrite (Px 1073%nat 2%nat 1075%nat) in Q2 by lia. replace (2 ^ 2) with 4 in Q2 by ring. lra. }
  assert (Nr : near (4 * / 2 ^ 53) 0 (sqrt 2) (binary64 (sqrt 2))).
  { unfold near. pose proof (ar_error _ _ _ _ A (sqrt 2)) as K. assert (S1 : 1 <= sqrt 2) by (rewrite <- sqrt_1 at 1; apply sqrt_le_1; lra). rewrite (Rabs_pos_eq (sqrt 2)) in * by lra. assert (/ 2 ^ 53 * 1 <= / 2 ^ 53 * sqrt 2) by (apply Rmult_le_compat_l; lra). lra. }
  assert (Ef : / 2 ^ 1075 <= / 2 ^ 53 / INR (fact p)). { apply et. apply Rinv_le_contravar; [apply INR_fact_lt_0|]. eapply Rle_trans; [apply fact_small; lia|]. replace 32 with (2 ^ 5) by ring. rewrite <- pow_mult. apply Rle_pow; [lra|lia]. }
  set (z := lag_error (/ 2 ^ 53) (/ 2 ^ 52) 1 (Z.abs_nat q) p 20). assert (Z : 0 <= z <= 16384 * / 2 ^ 53).
  { unfold z, lag_error. assert (K : INR (5 * Z.abs_nat q + 1 + 7 * p + 5) <= 146) by (replace 146 with (INR 146) by (rewrite INR_IZR_INZ; reflexivity); apply le_INR; lia). pose proof (pos_INR (5 * Z.abs_nat q + 1 + 7 * p + 5)) as K0. assert (0 <= / 2 ^ 53 * INR (5 * Z.abs_nat q + 1 + 7 * p + 5) <= / 2 ^ 53 * 146) by (split; [apply Rmult_le_pos; lra|apply Rmult_le_compat_l; lra]). rewrite E52. split; lra. }
  assert (U16 : 65536 * / 2 ^ 53 <= 1 / 1000) by (rewrite <- E37; apply Rle_trans with (/ 2 ^ 10); [apply Pm; lia|]; replace (2 ^ 10) with 1024 by ring; lra).
  pose proof (laguerre_value (/ 2 ^ 53) (/ 2 ^ 1075) (2 ^ 53) l f_exp (/ 2 ^ 52) f_pow (/ 2 ^ 52) 1 (/ 2 ^ 50) (/ 2 ^ 50) (binary64 (sqrt 2)) h q p x0 y0 Am w x y r phi 20) as K. rewrite Hl in K. cbv zeta in K. fold A' w' z N in K. fold M in K.
  specialize (K A ltac:(lra) ltac:(lra) Fe ltac:(lra) Fp ltac:(cbn [INR]; lra) Lz ltac:(lra) ltac:(lra) Nr Sh ltac:(lia) Ef ltac:(lra)). assert (Hw2 : / 2 ^ 1022 <= w') by (pose proof (Pm 1022%nat 480%nat ltac:(lia)); lra). specialize (K (et _ Hw2) W2 (et _ Ha) ltac:(lra) Hr Dx Dy ltac:(lra)).
  enough (B : component_error (/ 2 ^ 53) (/ 2 ^ 1075) (M * exp (- r ^ 2 / w' ^ 2)) (amplitude_error z (/ 2 ^ 1075) M N (exp (- r ^ 2 / w' ^ 2))) (angular_error (/ 2 ^ 53) (/ 2 ^ 1075) (/ 2 ^ 50) (/ 2 ^ 50) q) <= e) by (destruct K as [K1 K2]; split; eapply Rle_trans; [exact K1|exact B|exact K2|exact B]).
  clear K. unfold e. set (E := exp _). assert (E0 : 0 < E) by apply exp_pos. assert (N0 : 0 <= N) by (apply size_pos; lra). assert (M0 : 0 <= M). { apply Rmult_le_pos; [|exact N0]. apply Rmult_le_pos; [apply Rabs_pos|]. apply pow_le. apply Rmult_le_pos; [apply sqrt_pos|lra]. }
  set (U0 := / 2 ^ 53) in *. set (eta := / 2 ^ 1075) in *. assert (Ang : 0 <= angular_error U0 eta (/ 2 ^ 50) (/ 2 ^ 50) q <= 250 * U0).
  { unfold angular_error, FlZernSpec.rounded. assert (k0 : 0 <= IZR (Z.abs q)) by (apply IZR_le; lia). assert (k1 : IZR (Z.abs q) <= 20) by (apply IZR_le; lia). pose proof PI_4 as P4. pose proof PI_RGT_0. rewrite E50. assert (c1 : 0 <= IZR (Z.abs q) * PI <= 20 * 4) by (split; [apply Rmult_le_pos; lra|apply Rmult_le_compat; lra]). assert (c2 : 0 <= IZR (Z.abs q) * (8 * U0) <= 20 * (8 * U0)) by (split; [apply Rmult_le_pos; lra|apply Rmult_le_compat_r; lra]).
    assert (c3 : 0 <= U0 * (IZR (Z.abs q) * PI + IZR (Z.abs q) * (8 * U0)) <= U0 * 81) by (split; [apply Rmult_le_pos; lra|apply Rmult_le_compat_l; lra]). lra. }
  set (a := angular_error _ _ _ _ _) in *. unfold component_error, amplitude_error, FlZernSpec.rounded. set (G := M * E). assert (G0 : 0 <= G) by (apply Rmult_le_pos; lra). rewrite (Rmult_plus_distr_r _ 1 eta), Rmult_1_l. set (sg := 2 * (M + N) * eta + eta). assert (s0 : 0 <= sg) by (assert (0 <= 2 * (M + N) * eta) by (apply Rmult_le_pos; lra); unfold sg; lra).
  assert (UG : 0 <= U0 * G) by (apply Rmult_le_pos; lra). assert (b1 : 0 <= 2 * z * G <= 32768 * (U0 * G)). { split; [apply Rmult_le_pos; lra|]. assert (z * G <= 16384 * U0 * G) by (apply Rmult_le_compat_r; lra). lra. }
  assert (b2 : 0 <= G * a <= 250 * (U0 * G)). { split; [apply Rmult_le_pos; lra|]. assert (G * a <= G * (250 * U0)) by (apply Rmult_le_compat_l; lra). lra. }
  assert (b3 : (2 * z * G + sg) * (1 + a) <= (2 * z * G + sg) * (1001 / 1000)) by (apply Rmult_le_compat_l; lra). assert (b4 : 0 <= (2 * z * G + sg) * (1 + a)) by (apply Rmult_le_pos; lra).
  set (X := (2 * z * G + sg) * (1 + a) + G * a) in *. assert (X0 : 0 <= X) by (unfold X; lra). assert (X1 : X <= 34000 * (U0 * G) + 1001 / 1000 * sg) by (unfold X; lra). assert (b5 : U0 * X <= 1 / 1000 * X) by (apply Rmult_le_compat_r; lra). unfold Rdiv at 1 2. fold eta. rewrite E37. replace (3 * (M + N + 1) * eta) with (3 / 2 * sg + 3 / 2 * eta) by (unfold sg; field). lra.
Qed.
(** A correctly rounded power function, a double-precision library, and a point 5 beam widths from the centre. *)
Lemma lag_case : accurate_ipow (fun s k => binary64 (s ^ k)) (/ 2 ^ 52) (/ 2 ^ 1075) /\ accurate_zlib rounded_lib (/ 2 ^ 50) (/ 2 ^ 50) /\ stored_laguerre (/ 2 ^ 53) 2 1 (laguerre_coef 2 1) /\ / 2 ^ 480 <= binary64 1 /\ / 2 ^ 1022 <= Rabs (binary64 1) /\
  binary64 (5 - binary64 0) = 5 * cos 0 /\ binary64 (0 - binary64 0) = 5 * sin 0 /\ 0 <= 5 <= 20 * binary64 1.
Proof.
  pose proof binary64_arithmetic as A. assert (P : forall k, 0 < / 2 ^ k) by (intros; apply Rinv_0_lt_compat, pow_lt; lra).
  assert (I : forall k, (Z.abs k <= 2 ^ 53)%Z -> binary64 (IZR k) = IZR k). { intros k Hk. pose proof (exact_int _ _ _ rounded_lib A 0%nat 0%nat k Hk) as K. exact K. }
  pose proof (I 0%Z ltac:(lia)) as I0. pose proof (I 1%Z ltac:(lia)) as I1. pose proof (I 5%Z ltac:(lia)) as I5.
  assert (L1 : forall k, / 2 ^ k <= 1) by (intros; rewrite <- Rinv_1; apply Rinv_le_contravar; [lra|apply pow_R1_Rle; lra]).
  split; [|split; [exact rounded_lib_accurate|split; [apply laguerre_exact, Rlt_le, P|split; [rewrite I1; apply L1|split; [rewrite I1, Rabs_R1; apply L1|]]]]].
  - intros s k. pose proof (ar_error _ _ _ _ A (s ^ k)) as K. rewrite RPow_abs. pose proof (Rabs_pos (s ^ k)) as K0. assert (/ 2 ^ 53 <= / 2 ^ 52) by (apply Rinv_le_contravar; [apply pow_lt; lra|apply Rle_pow; [lra|lia]]). assert (/ 2 ^ 53 * Rabs (s ^ k) <= / 2 ^ 52 * Rabs (s ^ k)) by (apply Rmult_le_compat_r; lra). lra.
  - rewrite I0, !Rminus_0_r, I0, I1, I5, cos_0, sin_0. repeat split; lra.
Qed.
(** The size of a polynomial is of the order of its values. *)
Lemma lag_size : laguerre 0 1 (-8) = 1 /\ laguerre 1 1 (-8) = 10 /\ laguerre 1 1 8 = -6.
Proof. repeat split; cbn; lra. Qed.
