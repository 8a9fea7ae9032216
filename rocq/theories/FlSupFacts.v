(** Rounding errors of super-Gaussian profiles. *)
From Coq Require Import Reals ZArith List Bool Lia Lra Psatz.
From Verif Require Import Cx Sums PyBase ProfileModel ModeSpec ModeFacts ModeThms FloatModel FloatSpec FloatFacts FlSimSpec FlSimFacts WideSpec FlAnaModel FlAnaFacts FlAnaThms FlZernModel FlZernThms FlHermModel FlHermSpec FlHermFacts FlHermThms FlSupModel FlSupSpec.
Import ListNotations.
Open Scope R_scope.

Lemma power_pos s p : 0 <= power s p.
Proof. unfold power. destruct (Rlt_dec 0 s); [left; apply exp_pos|lra]. Qed.
Lemma power_le s S0 p : 1 <= p -> 0 <= s <= S0 -> 0 < S0 -> power s p <= Rpower S0 p.
Proof. intros Hp H H0. unfold power. destruct (Rlt_dec 0 s); [apply Rle_Rpower_l; lra|left; apply exp_pos]. Qed.
(** The mean value theorem. *)
Lemma power_step a b p : 1 <= p -> 0 <= a <= b -> 0 < b -> power b p - power a p <= p * Rpower b (p - 1) * (b - a).
Proof.
  intros Hp H Hb. pose proof (exp_pos ((p - 1) * ln b)) as Q. fold (Rpower b (p - 1)) in Q. unfold power. destruct (Rlt_dec 0 b); [|lra]. destruct (Rlt_dec 0 a) as [Ha|Ha].
  - destruct (Req_dec a b) as [->|N]; [replace (b - b) with 0 by ring; rewrite Rmult_0_r; lra|].
    destruct (MVT_cor2 (fun x => Rpower x p) (fun x => p * Rpower x (p - 1)) a b ltac:(lra)) as (c & E & Hc); [intros c Hc; apply derivable_pt_lim_power; lra|]. cbv beta in E. rewrite E. apply Rmult_le_compat_r; [lra|]. apply Rmult_le_compat_l; [lra|]. apply Rle_Rpower_l; lra.
  - assert (a = 0) by lra. subst a. replace (Rpower b p) with (Rpower b (p - 1) * b). 2:{ rewrite <- (Rpower_1 b) at 2 by lra. rewrite <- Rpower_plus. f_equal. ring. }
    assert (0 <= (p - 1) * (Rpower b (p - 1) * b)) by (apply Rmult_le_pos; [lra|apply Rmult_le_pos; lra]). lra.
Qed.
Lemma power_close s s' S0 p c : 1 <= p -> 0 <= s <= S0 -> 0 <= s' -> 0 < S0 -> 0 <= c -> p * c <= 1 / 2 -> Rabs (s' - s) <= c * S0 -> Rabs (power s' p - power s p) <= 2 * (p * c) * Rpower S0 p.
Proof.
  intros Hp Hs Hs' H0 Hc Pc D. apply Rcomplements.Rabs_le_between in D. assert (cS : 0 <= c * S0) by (apply Rmult_le_pos; lra). pose proof (exp_pos (p * ln S0)) as Q. fold (Rpower S0 p) in Q.
  assert (K : forall a b, 0 <= a <= b -> b <= S0 + c * S0 -> b - a <= c * S0 -> power b p - power a p <= 2 * (p * c) * Rpower S0 p).
  { intros a b H Hb Hd. destruct (Rlt_dec 0 b) as [b0|b0]. 2:{ assert (a = 0) by lra. assert (b = 0) by lra. subst. assert (0 <= 2 * (p * c) * Rpower S0 p) by (apply Rmult_le_pos; [apply Rmult_le_pos; [lra|apply Rmult_le_pos; lra]|lra]). lra. }
    eapply Rle_trans; [apply power_step; assumption|]. assert (B1 : Rpower b (p - 1) <= Rpower S0 (p - 1) * 2).
    { apply Rle_trans with (Rpower (S0 * (1 + c)) (p - 1)); [apply Rle_Rpower_l; lra|]. rewrite <- Rpower_mult_distr by lra. apply Rmult_le_compat_l; [left; apply exp_pos|]. unfold Rpower.
      assert (L : ln (1 + c) <= c). { destruct (Req_dec c 0) as [->|N]; [rewrite Rplus_0_r, ln_1; lra|]. rewrite <- (ln_exp c) at 2. apply Rlt_le, ln_increasing; [lra|]. apply exp_ineq1. lra. }
      assert (L0 : 0 <= ln (1 + c)). { rewrite <- ln_1. destruct (Req_dec c 0) as [->|N]; [rewrite Rplus_0_r; lra|]. apply Rlt_le, ln_increasing; lra. }
      assert (Z : 0 <= (p - 1) * ln (1 + c) <= 1 / 2). { split; [apply Rmult_le_pos; lra|]. assert ((p - 1) * ln (1 + c) <= (p - 1) * c) by (apply Rmult_le_compat_l; lra). lra. }
      pose proof (exp_small _ Z). lra. }
    pose proof (exp_pos ((p - 1) * ln b)) as Qb. fold (Rpower b (p - 1)) in Qb. apply Rle_trans with (p * (Rpower S0 (p - 1) * 2) * (c * S0)).
    - apply Rmult_le_compat; try lra; [apply Rmult_le_pos; lra|]. apply Rmult_le_compat_l; lra.
    - right. replace (Rpower S0 p) with (Rpower S0 (p - 1) * S0); [ring|]. rewrite <- (Rpower_1 S0) at 2 by lra. rewrite <- Rpower_plus. f_equal. ring. }
  apply Rabs_le. destruct (Rle_dec s s') as [L|L].
  - pose proof (K s s' ltac:(lra) ltac:(lra) ltac:(lra)). assert (power s p <= power s' p). { unfold power. destruct (Rlt_dec 0 s), (Rlt_dec 0 s'); try lra. apply Rle_Rpower_l; lra. left. apply exp_pos. } lra.
  - pose proof (K s' s ltac:(lra) ltac:(lra) ltac:(lra)). assert (power s' p <= power s p). { unfold power. destruct (Rlt_dec 0 s), (Rlt_dec 0 s'); try lra. apply Rle_Rpower_l; lra. left. apply exp_pos. } lra.
Qed.
Lemma exp_close f_exp ee eta t t' d : accurate_exp f_exp ee eta -> 0 <= ee -> 0 <= t' -> Rabs (t' - t) <= d -> Rabs (f_exp (- t') - exp (- t)) <= (exp d * (1 + ee) - 1) * exp (- t) + eta.
Proof.
  intros Fe Hee S0 Se. pose proof (Fe (- t') ltac:(lra)) as Fs. pose proof (exp_pos (- t)) as E0. assert (d0 : 0 <= d) by (pose proof (Rabs_pos (t' - t)); lra). apply Rcomplements.Rabs_le_between in Se. set (E := exp (- t)) in *.
  assert (U1 : exp (- t') <= E * exp d). { unfold E. rewrite <- exp_plus. destruct (Rle_lt_or_eq_dec (- t') (- t + d) ltac:(lra)) as [L|L]; [left; apply exp_increasing, L|right; f_equal; exact L]. }
  assert (U2 : E <= exp (- t') * exp d). { unfold E. rewrite <- exp_plus. destruct (Rle_lt_or_eq_dec (- t) (- t' + d) ltac:(lra)) as [L|L]; [left; apply exp_increasing, L|right; f_equal; exact L]. }
  assert (ed : 1 <= exp d) by (pose proof (exp_ineq1_le d); lra). set (H := exp d) in *. pose proof (exp_pos (- t')) as E0'. set (E1 := exp (- t')) in *.
  assert (U3 : E - E1 <= (H - 1) * E). { destruct (Rle_dec E E1) as [K|K]; [assert (0 <= (H - 1) * E) by (apply Rmult_le_pos; lra); lra|]. assert ((H - 1) * E1 <= (H - 1) * E) by (apply Rmult_le_compat_l; lra). lra. }
  apply Rcomplements.Rabs_le_between in Fs. assert (eE : ee * E1 <= ee * (E * H)) by (apply Rmult_le_compat_l; lra). assert (HE : 0 <= H * ee * E) by (apply Rmult_le_pos; [apply Rmult_le_pos|]; lra). apply Rabs_le. lra.
Qed.
