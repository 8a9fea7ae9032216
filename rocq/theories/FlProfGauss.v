(** Gaussian beams satisfy the hypotheses on elementary profiles. *)
From Coq Require Import Reals ZArith List Bool Lia Lra Psatz.
From Verif Require Import Cx Sums PyBase ProfileModel ModeSpec ModeFacts ModeThms FloatModel FloatSpec FloatFacts FlSimSpec FlSimFacts WideSpec FlAnaModel FlAnaFacts FlZernModel FlZernSpec FlZernFacts FlHermModel FlHermSpec FlHermFacts FlHermThms FlZernFacts2 FlZernThms FlProfModel FlProfSpec FlProfThms.
Import ListNotations.
Open Scope R_scope.

Lemma slope c : Rabs (- (2 * c) * exp (- c ^ 2)) <= 1.
Proof.
  rewrite Rabs_mult, (Rabs_pos_eq (exp _)) by apply Rlt_le, exp_pos. rewrite exp_Ropp. apply Rmult_le_reg_r with (exp (c ^ 2)); [apply exp_pos|]. rewrite Rmult_assoc, Rinv_l by apply Rgt_not_eq, exp_pos. rewrite Rmult_1_r, Rmult_1_l. pose proof (exp_ineq1_le (c ^ 2)) as E. rewrite Rabs_Ropp. apply Rabs_le. pose proof (pow2_ge_0 (c - 1)). pose proof (pow2_ge_0 (c + 1)). lra.
Qed.
Lemma bell_lt a b : a < b -> Rabs (exp (- b ^ 2) - exp (- a ^ 2)) <= Rabs (b - a).
Proof.
  intros H. destruct (MVT_cor2 (fun t => exp (- t ^ 2)) (fun t => - (2 * t) * exp (- t ^ 2)) a b H) as (c & E & _).
  - intros t _. replace (- (2 * t) * exp (- t ^ 2)) with (exp (- t ^ 2) * (- (INR 2 * t ^ 1))) by (cbn [INR pow]; ring). apply (derivable_pt_lim_comp (fun t => - t ^ 2) exp); [apply derivable_pt_lim_opp; exact (derivable_pt_lim_pow t 2)|apply derivable_pt_lim_exp].
  - cbv beta in E. rewrite E, Rabs_mult. pose proof (slope c) as S1. assert (Rabs (- (2 * c) * exp (- c ^ 2)) * Rabs (b - a) <= 1 * Rabs (b - a)) by (apply Rmult_le_compat_r; [apply Rabs_pos|exact S1]). lra.
Qed.
Lemma bell_lipschitz a b : Rabs (exp (- b ^ 2) - exp (- a ^ 2)) <= Rabs (b - a).
Proof.
  destruct (Rtotal_order a b) as [H|[->|H]]; [apply bell_lt, H| |].
  - replace (exp (- b ^ 2) - exp (- b ^ 2)) with 0 by ring. rewrite Rabs_R0. apply Rabs_pos.
  - rewrite (Rabs_minus_sym (exp _)), (Rabs_minus_sym b). apply bell_lt, H.
Qed.
Lemma bell_range a : 0 < exp (- a ^ 2) <= 1.
Proof. split; [apply exp_pos|]. rewrite <- exp_0. pose proof (pow2_ge_0 a). destruct (Req_dec (- a ^ 2) 0) as [->|N]; [lra|left; apply exp_increasing; lra]. Qed.
Lemma hg00 x0 y0 a w x y : 0 < w -> hg_mode x0 y0 a w 0 0 x y = a * (exp (- ((x - x0) / w) ^ 2) * exp (- ((y - y0) / w) ^ 2)).
Proof. intros Hw. unfold hg_mode. rewrite !(proj1 (hermite_low_orders _)). rewrite <- exp_plus. replace (- ((x - x0) / w) ^ 2 + - ((y - y0) / w) ^ 2) with (- ((x - x0) ^ 2 + (y - y0) ^ 2) / w ^ 2) by (field; lra). ring. Qed.
Lemma bells_lipschitz a b c d : Rabs (exp (- b ^ 2) * exp (- d ^ 2) - exp (- a ^ 2) * exp (- c ^ 2)) <= Rabs (b - a) + Rabs (d - c).
Proof.
  pose proof (bell_lipschitz a b) as P. pose proof (bell_lipschitz c d) as Q. pose proof (bell_range a) as A. pose proof (bell_range d) as D.
  replace (exp (- b ^ 2) * exp (- d ^ 2) - exp (- a ^ 2) * exp (- c ^ 2)) with ((exp (- b ^ 2) - exp (- a ^ 2)) * exp (- d ^ 2) + exp (- a ^ 2) * (exp (- d ^ 2) - exp (- c ^ 2))) by ring. eapply Rle_trans; [apply Rabs_triang|].
  assert (Rabs ((exp (- b ^ 2) - exp (- a ^ 2)) * exp (- d ^ 2)) <= Rabs (b - a) * 1) by (apply mult_le; [exact P|rewrite Rabs_pos_eq; lra]). assert (Rabs (exp (- a ^ 2) * (exp (- d ^ 2) - exp (- c ^ 2))) <= 1 * Rabs (d - c)) by (apply mult_le; [rewrite Rabs_pos_eq; lra|exact Q]). lra.
Qed.
Lemma gaussian_accurate u eta B l f_exp f_pow ee s2 hn hm h x0 y0 a w basic X Y dx dy Q :
  arithmetic u eta B (z_rnd l) -> 0 <= u <= 1 / 1000 -> 0 <= eta <= u -> accurate_exp f_exp ee eta -> 0 <= ee -> near (4 * u) 0 (sqrt 2) s2 -> stored_hermite u 0 hn -> stored_hermite u 0 hm ->
  let vx := getR h x0 in let vy := getR h y0 in let va := getR h a in let vw := getR h w in
  (forall x y, basic (PHG x0 y0 a w 0 0) x y = fl_hermite l f_exp s2 hn hm vx vy va vw x y) -> z_rnd l vx = vx -> z_rnd l vy = vy -> z_rnd l va = va -> z_rnd l vw = vw ->
  0 < vw -> eta <= u * vw -> eta <= u * Rabs va -> 1 <= Q -> X + dx + Rabs vx <= Q * vw -> Y + dy + Rabs vy <= Q * vw -> herm_error u ee 0 0 Q Q <= 1 / 2 ->
  accurate l f_pow basic h (PHG x0 y0 a w 0 0) X Y dx dy 0 (Rabs va) (2 * herm_error u ee 0 0 Q Q * Rabs va + (2 * Rabs va + 1) * eta + Rabs va / vw * dx + Rabs va / vw * dy).
Proof.
  intros A Hu He Fe Hee Hs Sn Sm vx vy va vw Hb Rx Ry Ra Rw Hw Ew Ea HQ HX HY Hz. assert (W0 : 0 < / vw) by (apply Rinv_0_lt_compat, Hw). pose proof (Rabs_pos va) as a0. assert (K0 : 0 <= Rabs va / vw) by (apply Rmult_le_pos; lra).
  assert (z0 : 0 <= herm_error u ee 0 0 Q Q). { unfold herm_error. pose proof (pow2_ge_0 Q). pose proof (pos_INR (5 + 6 * (0 + 0))). assert (0 <= 4 * u * (INR (5 + 6 * (0 + 0)) + 7 * (Q ^ 2 + Q ^ 2))) by (apply Rmult_le_pos; lra). lra. }
  apply (lipschitz_accurate l f_pow basic h _ (fun x y => hg_mode vx vy va vw 0 0 x y)); [exact I|exact K0|exact K0| | |].
  - intros x y Hx Hy. split.
    + cbn [func]. fold vx vy va vw. destruct (Req_EM_T vw 0) as [C|_]; [lra|]. rewrite hg_value_mode by lra. reflexivity.
    + rewrite Hb. assert (N : forall t v d, Rabs t <= d -> d + Rabs v <= Q * vw -> Rabs ((t - v) / vw) <= Q). { intros t v d H1 H2. unfold Rdiv. rewrite Rabs_mult, (Rabs_pos_eq (/ vw)) by lra. apply Rmult_le_reg_r with vw; [exact Hw|]. rewrite Rmult_assoc, Rinv_l, Rmult_1_r by lra. eapply Rle_trans; [apply Rabs_triang|]. rewrite Rabs_Ropp. lra. }
      pose proof (hermite_value u eta B l f_exp ee s2 hn hm 0 0 vx vy va vw x y Q Q A Hu He Fe Hee Hs Sn Sm) as K. cbv zeta in K. rewrite Rx, Ry, Ra, Rw in K. specialize (K Hw Ew Ea HQ HQ (N x vx _ Hx HX) (N y vy _ Hy HY) Hz). cbn [hermite_size] in K. rewrite !Rmult_1_r in K. eapply Rle_trans; [exact K|]. apply Rplus_le_compat_r.
      apply Rmult_le_compat_l; [lra|]. set (E := exp _). assert (E1 : E <= 1). { unfold E. rewrite <- exp_0. pose proof (pow2_ge_0 (x - vx)). pose proof (pow2_ge_0 (y - vy)). assert (L : - ((x - vx) ^ 2 + (y - vy) ^ 2) / vw ^ 2 <= 0). { unfold Rdiv. assert (0 < / vw ^ 2) by (apply Rinv_0_lt_compat, pow_lt, Hw). assert (0 <= ((x - vx) ^ 2 + (y - vy) ^ 2) * / vw ^ 2) by (apply Rmult_le_pos; lra). lra. } destruct L as [L| ->]; [left; apply exp_increasing, L|right; reflexivity]. }
      assert (Rabs va * E <= Rabs va * 1) by (apply Rmult_le_compat_l; lra). lra.
  - intros x y _ _. split; [apply Rabs_pos|]. rewrite hg00 by exact Hw. rewrite Rabs_mult. pose proof (bell_range ((x - vx) / vw)) as P1. pose proof (bell_range ((y - vy) / vw)) as P2. assert (T : exp (- ((x - vx) / vw) ^ 2) * exp (- ((y - vy) / vw) ^ 2) <= 1 * 1) by (apply Rmult_le_compat; lra). rewrite (Rabs_pos_eq (_ * _)) by (apply Rmult_le_pos; lra).
    assert (Rabs va * (exp (- ((x - vx) / vw) ^ 2) * exp (- ((y - vy) / vw) ^ 2)) <= Rabs va * (1 * 1)) by (apply Rmult_le_compat_l; lra). lra.
  - intros x y x' y' _ _ _ _. rewrite !hg00 by exact Hw. rewrite <- Rmult_minus_distr_l, Rabs_mult. pose proof (bells_lipschitz ((x - vx) / vw) ((x' - vx) / vw) ((y - vy) / vw) ((y' - vy) / vw)) as L.
    replace ((x' - vx) / vw - (x - vx) / vw) with ((x' - x) * / vw) in L by (field; lra). replace ((y' - vy) / vw - (y - vy) / vw) with ((y' - y) * / vw) in L by (field; lra). rewrite !Rabs_mult, (Rabs_pos_eq (/ vw)) in L by lra.
    apply Rmult_le_compat_l with (r := Rabs va) in L; [|exact a0]. unfold Rdiv. lra.
Qed.
(** A unit Gaussian beam, moved. *)
Lemma moved_gaussian l f_exp f_pow s t x y : z_rnd l = binary64 -> accurate_exp f_exp (/ 2 ^ 52) (/ 2 ^ 1075) -> accurate_zlib l (/ 2 ^ 50) (/ 2 ^ 50) -> accurate_power f_pow (/ 2 ^ 52) (/ 2 ^ 1075) -> Rabs s <= 4 -> Rabs t <= 4 -> Rabs x <= 4 -> Rabs y <= 4 ->
  let h := fst (alloc_reals heap0 [0; 0; 1; 1]) in let p := p_shift (PHG 0%nat 1%nat 2%nat 3%nat 0 0) s t in let basic := fun (_ : prof) x y => fl_hermite l f_exp (binary64 (sqrt 2)) (hermite_coef 0) (hermite_coef 0) 0 0 1 1 x y in
  hg_new heap0 0 0 1 1 0 0 = Ok (h, PHG 0%nat 1%nat 2%nat 3%nat 0 0) /\
  exists v, fl_call l f_pow basic h p x y = Some v /\ Rabs (v - exp (- ((x - s) ^ 2 + (y - t) ^ 2))) <= / 2 ^ 39.
Proof.
  intros Hl Fe Lz Fp Hs Ht Hx Hy h p basic. split; [reflexivity|]. pose proof binary64_arithmetic as A. assert (P : forall k, 0 < / 2 ^ k) by (intros; apply Rinv_0_lt_compat, pow_lt; lra).
  assert (Pm : forall a b, (b <= a)%nat -> / 2 ^ a <= / 2 ^ b). { intros a b Le. apply Rinv_le_contravar; [apply pow_lt; lra|]. apply Rle_pow; [lra|exact Le]. }
  assert (Pp : forall a b, / 2 ^ (a + b) = / 2 ^ a * / 2 ^ b) by (intros; rewrite pow_add, Rinv_mult; reflexivity).
  assert (Px : forall a b c, (a + b = c)%nat -> / 2 ^ a = 2 ^ b * / 2 ^ c). { intros a b c <-. rewrite Pp. field. split; apply Rgt_not_eq, pow_lt; lra. }
  assert (U : / 2 ^ 53 <= 1 / 1000000). { apply Rle_trans with (/ 2 ^ 20); [apply Pm; lia|]. replace (2 ^ 20) with 1048576 by ring. lra. }
  pose proof (P 53%nat) as u0. pose proof (P 1075%nat) as e0. pose proof (Pm 1075%nat 53%nat ltac:(lia)) as e1. assert (E52 : / 2 ^ 52 = 2 * / 2 ^ 53) by (rewrite (Px 52%nat 1%nat 53%nat) by lia; ring). assert (E39 : / 2 ^ 39 = 16384 * / 2 ^ 53) by (rewrite (Px 39%nat 14%nat 53%nat) by lia; ring).
  assert (Nr : near (4 * / 2 ^ 53) 0 (sqrt 2) (binary64 (sqrt 2))).
  { unfold near. pose proof (ar_error _ _ _ _ A (sqrt 2)) as K. assert (S1 : 1 <= sqrt 2) by (rewrite <- sqrt_1 at 1; apply sqrt_le_1; lra). rewrite (Rabs_pos_eq (sqrt 2)) in * by lra. assert (/ 2 ^ 53 * 1 <= / 2 ^ 53 * sqrt 2) by (apply Rmult_le_compat_l; lra). lra. }
  assert (I : forall k, (Z.abs k <= 2 ^ 53)%Z -> z_rnd l (IZR k) = IZR k). { intros k Hk. rewrite Hl. exact (FlZernFacts2.exact_int _ _ _ rounded_lib A 0%nat 0%nat k Hk). }
  assert (I0 : z_rnd l 0 = 0) by (apply (I 0%Z); lia). assert (I1 : z_rnd l 1 = 1) by (apply (I 1%Z); lia).
  set (u := / 2 ^ 53) in *. set (eta := / 2 ^ 1075) in *. assert (Sh : forall r, Rabs r <= 4 -> 0 <= shift_error u eta 4 (u * 4 + eta) r <= 20 * u). { intros r Hr. pose proof (Rabs_pos r). unfold shift_error, rounded. assert (0 <= u * Rabs r <= u * 4) by (split; [apply Rmult_le_pos; lra|apply Rmult_le_compat_l; lra]). set (ur := u * Rabs r) in *. assert (T : 0 <= u * (4 + Rabs r + (u * 4 + eta + (ur + eta))) <= u * 9) by (split; [apply Rmult_le_pos; lra|apply Rmult_le_compat_l; lra]). lra. }
  pose proof (Sh s Hs) as Ss. pose proof (Sh t Ht) as St. set (ds := shift_error u eta 4 (u * 4 + eta) s) in *. set (dt := shift_error u eta 4 (u * 4 + eta) t) in *.
  assert (Hz : herm_error u (/ 2 ^ 52) 0 0 10 10 = 5622 * u). { unfold herm_error. rewrite E52. replace (INR (5 + 6 * (0 + 0))) with 5 by (cbn; ring). ring. }
  rewrite <- Hl in A. pose proof (gaussian_accurate u eta (2 ^ 53) l f_exp f_pow (/ 2 ^ 52) (binary64 (sqrt 2)) (hermite_coef 0) (hermite_coef 0) h 0%nat 1%nat 2%nat 3%nat basic (4 + Rabs s) (4 + Rabs t) ds dt 10) as G.
  cbv zeta in G. change (getR h 0%nat) with 0 in G. change (getR h 1%nat) with 0 in G. change (getR h 2%nat) with 1 in G. change (getR h 3%nat) with 1 in G. rewrite Rabs_R0, Rabs_R1 in G. rewrite Hz in G.
  specialize (G A ltac:(lra) ltac:(lra) Fe ltac:(lra) Nr (stored_exact u 0 ltac:(lra)) (stored_exact u 0 ltac:(lra)) (fun _ _ => eq_refl) I0 I0 I1 I1 ltac:(lra) ltac:(lra) ltac:(lra) ltac:(lra) ltac:(lra) ltac:(lra) ltac:(lra)).
  assert (Bd : bounds u eta (/ 2 ^ 50) (/ 2 ^ 52) l f_pow basic h p 4 4 (u * 4 + eta) (u * 4 + eta) 0 1 (2 * (5622 * u) * 1 + (2 * 1 + 1) * eta + 1 / 1 * ds + 1 / 1 * dt)). { apply b_shift. apply b_basic; [exact Logic.I|lra|exact G]. }
  destruct (call_close u eta (/ 2 ^ 50) (/ 2 ^ 50) (/ 2 ^ 52) (2 ^ 53) l f_pow basic h A ltac:(lra) Lz Fp ltac:(lra) p 4 4 _ _ _ x y Bd Hx Hy) as (v & v' & F & F' & _ & D).
  exists v'. split; [exact F'|]. cbn [func p p_shift] in F. change (getR h 3%nat) with 1 in F. destruct (Req_EM_T 1 0) as [C|_]; [lra|]. change (getR h 0%nat) with 0 in F. change (getR h 1%nat) with 0 in F. change (getR h 2%nat) with 1 in F. rewrite hg_value_mode in F by lra. injection F as F. rewrite hg00 in F by lra. rewrite <- exp_plus in F.
  replace (- ((x - s) ^ 2 + (y - t) ^ 2)) with (- ((x - s - 0) / 1) ^ 2 + - ((y - t - 0) / 1) ^ 2) by field. rewrite Rmult_1_l in F. rewrite F. eapply Rle_trans; [exact D|]. rewrite E39. lra.
Qed.
