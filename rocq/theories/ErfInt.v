(** The Gaussian integral and orthogonality of the Hermite functions on the line. *)
From Coq Require Import Reals Lra ZArith Arith List Bool Lia.
From Coquelicot Require Import Coquelicot.
From Verif Require Import Sums PyBase ProfileModel ProfSpec ModeSpec ModeFacts GaussInt.
Open Scope R_scope.

Definition g (x : R) : R := exp (- x ^ 2).
Definition I (x : R) : R := RInt g 0 x.
Definition k (x t : R) : R := exp (- x ^ 2 * (1 + t ^ 2)) / (1 + t ^ 2).
Definition J (x : R) : R := RInt (k x) 0 1.
Lemma one_sq t : 0 < 1 + t ^ 2. Proof. pose proof (pow2_ge_0 t). lra. Qed.
Lemma g_ex x : ex_derive g x. Proof. unfold g. auto_derive. trivial. Qed.
Lemma g_cont x : continuous g x. Proof. apply (ex_derive_continuous g), g_ex. Qed.
Lemma g_int a b : ex_RInt g a b. Proof. apply (ex_RInt_continuous g). intros; apply g_cont. Qed.
Lemma I_derive x : is_derive I x (g x).
Proof.
  apply (is_derive_RInt g I 0 x).
  - exists posreal_one. intros y _. exact (RInt_correct g 0 y (g_int 0 y)).
  - apply g_cont.
Qed.
Lemma k_derive x t : is_derive (fun u => k u t) x (- 2 * x * exp (- x ^ 2 * (1 + t ^ 2))).
Proof. pose proof (one_sq t). unfold k. auto_derive; [lra|]. change (t * (t * 1)) with (t ^ 2). change (x * (x * 1)) with (x ^ 2). field. lra. Qed.
Lemma k_int x : ex_RInt (k x) 0 1.
Proof.
  apply (ex_RInt_continuous (k x)). intros t _. apply (ex_derive_continuous (k x)). pose proof (one_sq t). unfold k. auto_derive. cbn in *. lra.
Qed.
Lemma k2_cont x t : continuity_2d_pt (fun u v => Derive (fun z => k z v) u) x t.
Proof.
  apply continuity_2d_pt_filterlim. apply (continuous_ext (fun z : R * R => - 2 * fst z * exp (- fst z ^ 2 * (1 + snd z ^ 2)))).
  { intros [u v]. cbn [fst snd]. symmetry. apply is_derive_unique, k_derive. }
  assert (Cf : forall z : R * R, continuous fst z) by (intros z; apply continuous_fst). assert (Cs : forall z : R * R, continuous snd z) by (intros z; apply continuous_snd).
  apply (continuous_mult (fun z : R * R => - 2 * fst z) (fun z : R * R => exp (- fst z ^ 2 * (1 + snd z ^ 2)))).
  - apply (continuous_comp fst (fun u => - 2 * u)); [apply Cf|]. apply (ex_derive_continuous (fun u => -2 * u)). auto_derive. trivial.
  - apply (continuous_comp (fun z : R * R => - fst z ^ 2 * (1 + snd z ^ 2)) exp); [|apply (ex_derive_continuous exp); auto_derive; trivial].
    apply (continuous_mult (fun z : R * R => - fst z ^ 2) (fun z : R * R => 1 + snd z ^ 2)).
    + apply (continuous_comp fst (fun u => - u ^ 2)); [apply Cf|]. apply (ex_derive_continuous (fun u => - u ^ 2)). auto_derive. trivial.
    + apply (continuous_comp snd (fun u => 1 + u ^ 2)); [apply Cs|]. apply (ex_derive_continuous (fun u => 1 + u ^ 2)). auto_derive. trivial.
Qed.
Lemma J_derive (x : R) : is_derive J x (- 2 * g x * I x).
Proof.
  assert (D : is_derive J x (RInt (fun t => Derive (fun u => k u t) x) 0 1)).
  { apply (is_derive_RInt_param k 0 1 x).
    - exists posreal_one. intros y _ t _. eexists. apply k_derive.
    - intros t _. apply k2_cont.
    - exists posreal_one. intros y _. apply k_int. }
  replace (- 2 * g x * I x) with (RInt (fun t => Derive (fun u => k u t) x) 0 1); [exact D|].
  apply is_RInt_unique. apply (is_RInt_ext (fun t => scal (- 2 * g x) (scal x (g (x * t + 0))))).
  - intros t _. apply eq_sym. etransitivity; [exact (is_derive_unique _ _ _ (k_derive x t))|]. unfold scal; cbn; unfold mult; cbn. unfold g.
    replace (- (x * (x * 1)) * (1 + t * (t * 1))) with (- x ^ 2 + - (x * t + 0) ^ 2) by ring. rewrite exp_plus. ring.
  - apply (is_RInt_scal (fun t => scal x (g (x * t + 0))) 0 1 (- 2 * g x) (I x)). apply (is_RInt_comp_lin g x 0 0 1).
    assert (E0 : x * 0 + 0 = 0) by ring. assert (E1 : x * 1 + 0 = x) by ring. rewrite E0, E1. exact (RInt_correct g 0 x (g_int 0 x)).
Qed.
Lemma J_0 : J 0 = PI / 4.
Proof.
  unfold J. apply is_RInt_unique. replace (PI / 4) with (atan 1 - atan 0) by (rewrite atan_1, atan_0; ring).
  apply (is_RInt_derive atan (k 0)).
  - intros x _. pose proof (one_sq x). replace (k 0 x) with (/ (1 + x ^ 2)); [|unfold k; replace (- 0 ^ 2 * (1 + x ^ 2)) with 0 by ring; rewrite exp_0; field; lra].
    apply is_derive_Reals. apply derivable_pt_lim_atan.
  - intros t _. apply (ex_derive_continuous (k 0)). pose proof (one_sq t). unfold k. auto_derive. cbn in *. lra.
Qed.
Lemma IJ x : I x ^ 2 + J x = PI / 4.
Proof.
  assert (D : forall x, is_derive (fun t => I t ^ 2 + J t) x 0).
  { intros t. pose proof (I_derive t) as DI. pose proof (J_derive t) as DJ. evar_last.
    - apply (is_derive_plus (fun t => I t ^ 2) J); [apply (is_derive_pow I 2 t (g t) DI)|exact DJ].
    - unfold plus; cbn. ring. }
  assert (E0 : I 0 ^ 2 + J 0 = PI / 4). { unfold I. rewrite (RInt_point 0 g), J_0. unfold zero; cbn. ring. }
  rewrite <- E0. 
  destruct (MVT_gen (fun t => I t ^ 2 + J t) 0 x (fun _ => 0)) as [c [_ Hc]].
  - intros t _. apply D.
  - intros t _. apply continuity_pt_filterlim. apply (ex_derive_continuous (fun t => I t ^ 2 + J t)). exists 0. apply D.
  - rewrite Rmult_0_l in Hc. cbn beta in Hc. lra.
Qed.
Lemma J_bound x : 0 <= J x <= g x.
Proof.
  split.
  - apply RInt_ge_0; [lra|apply k_int|]. intros t _. unfold k. apply Rlt_le, Rdiv_lt_0_compat; [apply exp_pos|apply one_sq].
  - replace (g x) with (RInt (fun _ => g x) 0 1) by (rewrite RInt_const; unfold scal; cbn; unfold mult; cbn; ring).
    apply RInt_le; [lra|apply k_int|apply ex_RInt_const|]. intros t _. unfold k, g. pose proof (one_sq t) as H. pose proof (pow2_ge_0 t) as Ht. pose proof (pow2_ge_0 x) as Hx.
    apply Rle_trans with (exp (- x ^ 2 * (1 + t ^ 2))).
    + apply (Rmult_le_reg_r (1 + t ^ 2)); [exact H|]. unfold Rdiv. rewrite Rmult_assoc, Rinv_l, Rmult_1_r by lra. pose proof (exp_pos (- x ^ 2 * (1 + t ^ 2))). nra.
    + assert (E : - x ^ 2 * (1 + t ^ 2) <= - x ^ 2) by nra. destruct E as [E|E]; [apply Rlt_le, exp_increasing, E|rewrite E; apply Rle_refl].
Qed.
Lemma I_pos x : 0 <= x -> 0 <= I x.
Proof. intros H. apply RInt_ge_0; [exact H|apply g_int|]. intros t _. apply Rlt_le, exp_pos. Qed.
Lemma I_odd x : I (- x) = - I x.
Proof.
  unfold I. apply is_RInt_unique. pose proof (RInt_correct g 0 x (g_int 0 x)) as H.
  pose proof (is_RInt_comp_lin g (-1) 0 0 (- x) (RInt g 0 x)) as S. replace (-1 * 0 + 0) with 0 in S by ring. replace (-1 * - x + 0) with x in S by ring. specialize (S H).
  apply (is_RInt_opp _ 0 (- x)) in S. apply (is_RInt_ext (fun y => opp (scal (-1) (g (-1 * y + 0))))); [|exact S].
  intros t _. unfold opp, scal; cbn; unfold mult; cbn. unfold g. replace ((-1 * t + 0) ^ 2) with (t ^ 2) by ring. ring.
Qed.
Lemma I_lim : is_lim I p_infty (sqrt PI / 2).
Proof.
  assert (S0 : 0 < sqrt PI) by (apply sqrt_lt_R0, PI_RGT_0).
  assert (S1 : (sqrt PI / 2) ^ 2 = PI / 4). { unfold Rdiv. rewrite Rpow_mult_distr. replace (sqrt PI ^ 2) with PI; [field|]. rewrite <- Rsqr_pow2. symmetry. apply Rsqr_sqrt. pose proof PI_RGT_0. lra. }
  assert (L : is_lim (fun x => I x - sqrt PI / 2) p_infty 0).
  { assert (Q : pb (fun _ => 2 / sqrt PI)) by apply pb_const.
    apply (is_lim_le_le_loc (fun x => - (2 / sqrt PI * exp (- x ^ 2))) (fun x => 2 / sqrt PI * exp (- x ^ 2))).
    - exists 0. intros x Hx. pose proof (I_pos x ltac:(lra)) as HI. pose proof (IJ x) as E. pose proof (J_bound x) as B. change (exp (- x ^ 2)) with (g x).
      apply Rabs_le_between. set (s := sqrt PI / 2) in *.
      assert (P : Rabs (I x - s) * (I x + s) = J x).
      { rewrite <- (Rabs_right (I x + s)) by (unfold s; lra). rewrite <- Rabs_mult. replace ((I x - s) * (I x + s)) with (I x ^ 2 - s ^ 2) by ring. rewrite S1. rewrite Rabs_left1; lra. }
      replace (2 / sqrt PI) with (/ s) by (unfold s; field; lra). assert (Hs : 0 < s) by (unfold s; lra).
      apply (Rmult_le_reg_r s); [exact Hs|]. replace (/ s * g x * s) with (g x) by (field; lra). pose proof (Rabs_pos (I x - s)). nra.
    - replace (Finite 0) with (Rbar_opp (Finite 0)) by (cbn; f_equal; ring). apply is_lim_opp. exact (lim_pgauss _ Q).
    - exact (lim_pgauss _ Q). }
  apply (is_lim_ext (fun x => 1 * (I x - sqrt PI / 2) + 1 * (sqrt PI / 2))); [intros; ring|].
  replace (Finite (sqrt PI / 2)) with (Finite (1 * 0 + 1 * (sqrt PI / 2))) by (f_equal; ring). apply lim_lin; [exact L|apply is_lim_const].
Qed.
Lemma gauss_line : line g (sqrt PI).
Proof.
  exists I, (- (sqrt PI / 2)), (sqrt PI / 2). split; [exact I_derive|]. split; [exact g_cont|]. split; [|split; [exact I_lim|field]].
  apply is_lim_flip. apply (is_lim_ext (fun x => - I x)); [intros; symmetry; apply I_odd|]. exact (is_lim_opp I p_infty _ I_lim).
Qed.

(** ** Hermite functions *)
Definition H (n : nat) (x : R) : R := fst (hpair n x).
Lemma snd_H n x : snd (hpair n x) = H (S n) x.
Proof. unfold H. cbn [hpair]. destruct (hpair n x). reflexivity. Qed.
Lemma H_0 x : H 0 x = 1. Proof. reflexivity. Qed.
Lemma H_derive n x : is_derive (H n) x (2 * x * H n x - H (S n) x).
Proof. rewrite <- snd_H. apply hpair_derive. Qed.
Lemma H_derive_S n x : is_derive (H (S n)) x (2 * (INR n + 1) * H n x).
Proof. rewrite <- S_INR. apply (is_derive_ext (fun t => snd (hpair n t))); [intros; apply snd_H|]. apply hpair_derive. Qed.
Lemma H_ex n x : ex_derive (H n) x. Proof. eexists. apply H_derive. Qed.
Lemma pb_H n : pb (H n).
Proof.
  assert (G : pb (H n) /\ pb (H (S n))); [|apply G]. induction n as [|n [IH1 IH2]].
  - split; [exact (pb_const 1)|]. exact (pb_mult _ _ (pb_const 2) pb_id).
  - split; [exact IH2|]. apply (pb_ext (fun x => 2 * x * H (S n) x + (- 2 * INR (S n)) * H n x)).
    + intros x. rewrite <- (snd_H (S n)), <- snd_H. unfold H. change (hpair (S n) x) with (let (a, b) := hpair n x in (b, 2 * x * b - 2 * INR (S n) * a)). destruct (hpair n x). cbn [fst snd]. ring.
    + apply pb_plus; apply pb_mult; try assumption; [|apply pb_const]. exact (pb_mult _ _ (pb_const 2) pb_id).
Qed.
Lemma Hg_derive n x : is_derive (fun t => H n t * g t) x (- H (S n) x * g x).
Proof.
  evar_last; [apply (is_derive_mult (H n) g); [apply H_derive| |intros; apply Rmult_comm]|].
  - instantiate (1 := - 2 * x * g x). unfold g. auto_derive; [trivial|]. change (x * (x * 1)) with (x ^ 2). ring.
  - unfold plus, mult; cbn -[H g]. ring.
Qed.
Lemma H_down m x : is_derive (H m) x (match m with O => 0 | S k => 2 * (INR k + 1) * H k x end).
Proof. destruct m as [|m]; [|apply H_derive_S]. apply (is_derive_ext (fun _ => 1)); [intros; symmetry; apply H_0|]. auto_derive; trivial. Qed.
Lemma line_by_parts n m : line (fun x => - H (S n) x * H m x * g x + H n x * (match m with O => 0 | S k => 2 * (INR k + 1) * H k x end) * g x) 0.
Proof.
  exists (fun t => H n t * g t * H m t), 0, 0. split; [|split; [|split; [|split]]].
  - intros x. evar_last; [apply (is_derive_mult (fun t => H n t * g t) (H m)); [apply Hg_derive| |intros; apply Rmult_comm]|].
    + apply H_down.
    + unfold plus, mult; cbn -[H g INR]. ring.
  - intros x. apply (ex_derive_continuous (fun x => - H (S n) x * H m x * g x + H n x * (match m with O => 0 | S k => 2 * (INR k + 1) * H k x end) * g x)).
    pose proof (H_ex (S n) x). pose proof (H_ex m x). pose proof (H_ex n x). pose proof (g_ex x). destruct m as [|m]; [auto_derive; auto 20|]. pose proof (H_ex m x). auto_derive. auto 20.
  - apply (is_lim_ext (fun x => H n x * H m x * exp (- x ^ 2))); [intros; unfold g; ring|]. apply (lim_pgauss_m (fun x => H n x * H m x)), pb_mult; apply pb_H.
  - apply (is_lim_ext (fun x => H n x * H m x * exp (- x ^ 2))); [intros; unfold g; ring|]. apply (lim_pgauss (fun x => H n x * H m x)), pb_mult; apply pb_H.
  - ring.
Qed.
Lemma herm_orthogonal n : forall m, line (fun x => H n x * H m x * g x) (if (n =? m)%nat then sqrt PI * 2 ^ n * INR (fact n) else 0).
Proof.
  induction n as [|n IH]; intros [|m]; cbn [Nat.eqb].
  - apply (line_ext g); [intros; rewrite H_0; ring|]. apply (line_val _ (sqrt PI)); [cbn; ring|apply gauss_line].
  - apply (line_ext (fun x => (-1) * (- H (S m) x * H 0 x * g x + H m x * 0 * g x))); [intros x; rewrite H_0; ring|]. apply (line_val _ (-1 * 0)); [ring|]. apply line_scal. exact (line_by_parts m 0).
  - apply (line_ext (fun x => (-1) * (- H (S n) x * H 0 x * g x + H n x * 0 * g x))); [intros x; ring|]. apply (line_val _ (-1 * 0)); [ring|]. apply line_scal. exact (line_by_parts n 0).
  - apply (line_ext (fun x => (-1) * (- H (S n) x * H (S m) x * g x + H n x * (2 * (INR m + 1) * H m x) * g x) + (2 * (INR m + 1)) * (H n x * H m x * g x))); [intros x; ring|].
    eapply line_val; [|apply line_lin; [exact (line_by_parts n (S m))|apply IH]]. destruct (Nat.eqb_spec n m) as [->|]; [|ring]. rewrite fact_S. cbn [pow]. ring.
Qed.

(** ** Substitutions *)
Lemma lim_affine c d : 0 < c -> is_lim (fun x => c * x + d) p_infty p_infty.
Proof.
  intros Hc. apply is_lim_spec. intros M. cbn. exists ((M - d) / c). intros x Hx. apply (Rmult_lt_compat_l c) in Hx; [|exact Hc]. replace (c * ((M - d) / c)) with (M - d) in Hx by (field; lra). lra.
Qed.
Lemma lim_affine_m c d : 0 < c -> is_lim (fun x => c * x + d) m_infty m_infty.
Proof.
  intros Hc. apply is_lim_spec. intros M. cbn. exists ((M - d) / c). intros x Hx. apply (Rmult_lt_compat_l c) in Hx; [|exact Hc]. replace (c * ((M - d) / c)) with (M - d) in Hx by (field; lra). lra.
Qed.
Lemma line_subst f v c d : 0 < c -> line f v -> line (fun x => f (c * x + d)) (v / c).
Proof.
  intros Hc (F & K & L & D & C & HK & HL & ->). exists (fun x => / c * F (c * x + d)), (/ c * K), (/ c * L). split; [|split; [|split; [|split]]].
  - intros x. replace (f (c * x + d)) with (/ c * (c * f (c * x + d))) by (field; lra). apply (is_derive_scal (fun x => F (c * x + d)) x). 
    apply (is_derive_comp F (fun x => c * x + d) x (f (c * x + d)) c); [apply D|]. auto_derive; [trivial|ring].
  - intros x. apply (continuous_comp (fun x => c * x + d) f); [|apply C]. apply (ex_derive_continuous (fun x => c * x + d)). auto_derive. trivial.
  - apply (is_lim_scal_l (fun x => F (c * x + d)) (/ c) m_infty K). apply (is_lim_comp F (fun x => c * x + d) m_infty K m_infty HK (lim_affine_m c d Hc)). exists 0. intros y _. discriminate.
  - apply (is_lim_scal_l (fun x => F (c * x + d)) (/ c) p_infty L). apply (is_lim_comp F (fun x => c * x + d) p_infty L p_infty HL (lim_affine c d Hc)). exists 0. intros y _. discriminate.
  - field. lra.
Qed.
Lemma line_flip f v : line f v -> line (fun x => f (- x)) v.
Proof.
  intros (F & K & L & D & C & HK & HL & ->). exists (fun x => - F (- x)), (- L), (- K). split; [|split; [|split; [|split]]].
  - intros x. evar_last; [apply (is_derive_opp (fun x => F (- x)) x), (is_derive_comp F (fun x => - x) x); [apply D|]; instantiate (1 := -1); auto_derive; [trivial|ring]|]. unfold opp, scal; cbn; unfold mult; cbn. ring.
  - intros x. apply (continuous_comp (fun x => - x) f); [|apply C]. apply (ex_derive_continuous (fun x => - x)). auto_derive. trivial.
  - apply is_lim_flip. apply (is_lim_ext (fun x => - F x)); [intros; rewrite Ropp_involutive; reflexivity|]. exact (is_lim_opp F p_infty L HL).
  - apply (is_lim_opp (fun x => F (- x)) p_infty K). apply (is_lim_comp F (fun x => - x) p_infty K m_infty HK).
    + change m_infty with (Rbar_opp p_infty). apply is_lim_opp, is_lim_id.
    + exists 0. intros y _. discriminate.
  - ring.
Qed.
Lemma line_affine f v c d : c <> 0 -> line f v -> line (fun x => f (c * x + d)) (v / Rabs c).
Proof.
  intros Hc Hf. destruct (Rdichotomy _ _ Hc) as [Hn|Hp].
  - rewrite Rabs_left by exact Hn. apply (line_ext (fun x => f (- ((- c) * x + - d)))); [intros; f_equal; ring|]. apply (line_subst (fun x => f (- x)) v (- c) (- d)); [lra|]. apply line_flip, Hf.
  - rewrite Rabs_right by lra. apply line_subst; assumption.
Qed.
Lemma half_square f v c : 0 < c -> half f v -> half (fun r => 2 * c * r * f (c * r ^ 2)) v.
Proof.
  intros Hc (F & L & D & C & HL & ->). exists (fun r => F (c * r ^ 2)), L. split; [|split; [|split]].
  - intros x. apply (is_derive_comp F (fun r => c * r ^ 2) x (f (c * x ^ 2)) (2 * c * x)); [apply D|]. auto_derive; [trivial|ring].
  - intros x. apply (continuous_mult (fun r => 2 * c * r) (fun r => f (c * r ^ 2))); [apply (ex_derive_continuous (fun r => 2 * c * r)); auto_derive; trivial|].
    apply (continuous_comp (fun r => c * r ^ 2) f); [|apply C]. apply (ex_derive_continuous (fun r => c * r ^ 2)). auto_derive. trivial.
  - apply (is_lim_comp F (fun r => c * r ^ 2) p_infty L p_infty HL); [|exists 0; intros y _; discriminate].
    apply is_lim_spec. intros M. cbn. exists (Rmax 1 (M / c)). intros x Hx. pose proof (Rmax_l 1 (M / c)). pose proof (Rmax_r 1 (M / c)).
    apply Rlt_le_trans with (c * x); [|apply Rmult_le_compat_l; [lra|]; rewrite <- (Rmult_1_r x) at 1; change (x * (x * 1)) with (x ^ 2); replace (x ^ 2) with (x * x) by ring; apply Rmult_le_compat_l; lra]. replace M with (c * (M / c)) by (field; lra). apply Rmult_lt_compat_l; lra.
  - replace (c * 0 ^ 2) with 0 by ring. reflexivity.
Qed.
