(** Improper integrals of polynomials times exponentials. *)
From Coq Require Import Reals Lra ZArith Arith List Bool Lia.
From Coquelicot Require Import Coquelicot.
From Verif Require Import Sums.
Open Scope R_scope.

(** ** Polynomially bounded functions *)
Definition pb (P : R -> R) : Prop := exists C N, 0 <= C /\ forall x, Rabs (P x) <= C * (1 + Rabs x) ^ N.
Lemma one_le x : 1 <= 1 + Rabs x. Proof. pose proof (Rabs_pos x). lra. Qed.
Lemma pb_const c : pb (fun _ => c).
Proof. exists (Rabs c), 0%nat. split; [apply Rabs_pos|]. intros x. cbn [pow]. lra. Qed.
Lemma pb_id : pb (fun x => x).
Proof. exists 1, 1%nat. split; [lra|]. intros x. rewrite pow_1. lra. Qed.
Lemma pb_mult P Q : pb P -> pb Q -> pb (fun x => P x * Q x).
Proof.
  intros (C & N & HC & HP) (D & M & HD & HQ). exists (C * D), (N + M)%nat. split; [apply Rmult_le_pos; assumption|]. intros x. rewrite Rabs_mult, pow_add.
  replace (C * D * ((1 + Rabs x) ^ N * (1 + Rabs x) ^ M)) with ((C * (1 + Rabs x) ^ N) * (D * (1 + Rabs x) ^ M)) by ring.
  apply Rmult_le_compat; try apply Rabs_pos; auto.
Qed.
Lemma pb_plus P Q : pb P -> pb Q -> pb (fun x => P x + Q x).
Proof.
  intros (C & N & HC & HP) (D & M & HD & HQ). exists (C + D), (N + M)%nat. split; [lra|]. intros x. pose proof (one_le x) as H1.
  apply Rle_trans with (1 := Rabs_triang _ _). rewrite Rmult_plus_distr_r. apply Rplus_le_compat.
  - apply Rle_trans with (1 := HP x). apply Rmult_le_compat_l; [exact HC|]. apply Rle_pow; [exact H1|lia].
  - apply Rle_trans with (1 := HQ x). apply Rmult_le_compat_l; [exact HD|]. apply Rle_pow; [exact H1|lia].
Qed.
Lemma pb_pow k : pb (fun x => x ^ k).
Proof. induction k as [|k IH]; [exact (pb_const 1)|]. exact (pb_mult _ _ pb_id IH). Qed.
Lemma pb_ext P Q : (forall x, P x = Q x) -> pb P -> pb Q.
Proof. intros E (C & N & HC & H). exists C, N. split; [exact HC|]. intros x. rewrite <- E. apply H. Qed.
Lemma pb_rsum (c : nat -> R) n : pb (fun x => rsum n (fun i => c i * x ^ i)).
Proof.
  induction n as [|n IH]; [exact (pb_const 0)|]. cbn [rsum]. exact (pb_plus _ _ IH (pb_mult _ _ (pb_const (c n)) (pb_pow n))).
Qed.

(** ** Decay *)
Lemma exp_pow_bound n y : 0 < y -> y ^ n * exp (- y) <= INR (S n) ^ S n / y.
Proof.
  intros Hy. assert (Hn : 0 < INR (S n)) by (apply lt_0_INR; lia).
  assert (H : (y / INR (S n)) ^ S n <= exp y).
  { replace (exp y) with (exp (y / INR (S n)) ^ S n).
    - apply pow_incr. split; [apply Rlt_le, Rdiv_lt_0_compat; assumption|]. pose proof (exp_ineq1_le (y / INR (S n))). lra.
    - rewrite <- Rpower_pow by apply exp_pos. unfold Rpower. rewrite ln_exp. f_equal. field. lra. }
  unfold Rdiv in H. rewrite Rpow_mult_distr, pow_inv in H. assert (Hp : 0 < INR (S n) ^ S n) by (apply pow_lt, Hn).
  apply (Rmult_le_reg_r (y * exp y)); [apply Rmult_lt_0_compat; [exact Hy|apply exp_pos]|].
  replace (y ^ n * exp (- y) * (y * exp y)) with (y ^ S n * (exp (- y) * exp y)) by (cbn [pow]; ring). rewrite <- exp_plus, Rplus_opp_l, exp_0, Rmult_1_r.
  replace (INR (S n) ^ S n / y * (y * exp y)) with (INR (S n) ^ S n * exp y) by (field; lra).
  apply (Rmult_le_compat_l (INR (S n) ^ S n)) in H; [|lra]. replace (INR (S n) ^ S n * (y ^ S n * / INR (S n) ^ S n)) with (y ^ S n) in H by (field; lra). exact H.
Qed.
Lemma decay_pos P : pb P -> exists K, forall x, 0 <= x -> Rabs (P x * exp (- x)) <= K / (1 + x).
Proof.
  intros (C & N & HC & H). exists (C * exp 1 * INR (S N) ^ S N). intros x Hx. rewrite Rabs_mult, (Rabs_right (exp _)) by (apply Rle_ge, Rlt_le, exp_pos).
  pose proof (exp_pow_bound N (1 + x)) as B. specialize (B ltac:(lra)). specialize (H x). rewrite (Rabs_right x) in H by lra.
  replace (exp (- x)) with (exp 1 * exp (- (1 + x))) by (rewrite <- exp_plus; f_equal; ring).
  apply Rle_trans with (C * (1 + x) ^ N * (exp 1 * exp (- (1 + x)))).
  - apply Rmult_le_compat_r; [apply Rmult_le_pos; apply Rlt_le, exp_pos|exact H].
  - replace (C * (1 + x) ^ N * (exp 1 * exp (- (1 + x)))) with (C * exp 1 * ((1 + x) ^ N * exp (- (1 + x)))) by ring.
    replace (C * exp 1 * INR (S N) ^ S N / (1 + x)) with (C * exp 1 * (INR (S N) ^ S N / (1 + x))) by (unfold Rdiv; ring).
    apply Rmult_le_compat_l; [apply Rmult_le_pos; [exact HC|apply Rlt_le, exp_pos]|exact B].
Qed.
(** A function bounded by K / (1 + x) tends to 0. *)
Lemma lim_squeeze f K : (forall x, 0 <= x -> Rabs (f x) <= K / (1 + x)) -> is_lim f p_infty 0.
Proof.
  intros H. apply is_lim_spec. intros eps. cbn. set (k := Rabs K + 1). assert (Hk : 0 < k) by (unfold k; pose proof (Rabs_pos K); lra).
  exists (k / eps). intros x Hx. rewrite Rminus_0_r. assert (Hx0 : 0 < k / eps) by (apply Rdiv_lt_0_compat; [exact Hk|apply cond_pos]).
  apply Rle_lt_trans with (1 := H x ltac:(lra)). apply Rle_lt_trans with (k / (1 + x)).
  - apply Rmult_le_compat_r; [apply Rlt_le, Rinv_0_lt_compat; lra|]. unfold k. pose proof (Rle_abs K). lra.
  - apply (Rmult_lt_reg_r (1 + x)); [lra|]. unfold Rdiv. rewrite Rmult_assoc, Rinv_l, Rmult_1_r by lra.
    apply (Rmult_lt_compat_l eps) in Hx; [|apply cond_pos]. replace (eps * (k / eps)) with k in Hx by (field; pose proof (cond_pos eps); lra). pose proof (cond_pos eps). lra.
Qed.
Lemma lim_pexp P : pb P -> is_lim (fun x => P x * exp (- x)) p_infty 0.
Proof. intros H. destruct (decay_pos P H) as [K HK]. exact (lim_squeeze _ K HK). Qed.
Lemma sq_ge x : exp (- x ^ 2) <= exp 1 * exp (- x).
Proof.
  rewrite <- exp_plus. assert (E : - x ^ 2 <= 1 + - x). { pose proof (pow2_ge_0 (x - / 2)) as H. replace ((x - / 2) ^ 2) with (x ^ 2 - x + / 4) in H by field. lra. }
  destruct E as [E|E]; [apply Rlt_le, exp_increasing, E|rewrite E; apply Rle_refl].
Qed.
Lemma lim_pgauss P : pb P -> is_lim (fun x => P x * exp (- x ^ 2)) p_infty 0.
Proof.
  intros H. destruct (decay_pos P H) as [K HK]. apply (lim_squeeze _ (exp 1 * K)). intros x Hx. specialize (HK x Hx). rewrite Rabs_mult in *.
  rewrite (Rabs_right (exp (- x ^ 2))) by (apply Rle_ge, Rlt_le, exp_pos). rewrite (Rabs_right (exp (- x))) in HK by (apply Rle_ge, Rlt_le, exp_pos). apply Rle_trans with (Rabs (P x) * (exp 1 * exp (- x))).
  - apply Rmult_le_compat_l; [apply Rabs_pos|apply sq_ge].
  - replace (Rabs (P x) * (exp 1 * exp (- x))) with (exp 1 * (Rabs (P x) * exp (- x))) by ring. replace (exp 1 * K / (1 + x)) with (exp 1 * (K / (1 + x))) by (unfold Rdiv; ring).
    apply Rmult_le_compat_l; [apply Rlt_le, exp_pos|exact HK].
Qed.
Lemma pb_opp_arg P : pb P -> pb (fun x => P (- x)).
Proof. intros (C & N & HC & H). exists C, N. split; [exact HC|]. intros x. rewrite <- (Rabs_Ropp x). apply H. Qed.
Lemma is_lim_flip f (l : Rbar) : is_lim (fun x => f (- x)) p_infty l -> is_lim f m_infty l.
Proof.
  intros H. apply (is_lim_ext (fun x => f (- - x))); [intros; rewrite Ropp_involutive; reflexivity|].
  apply (is_lim_comp (fun x => f (- x)) (fun x => - x) m_infty l p_infty H).
  - change p_infty with (Rbar_opp m_infty). apply is_lim_opp, is_lim_id.
  - exists 0. intros y _. discriminate.
Qed.
Lemma lim_pgauss_m P : pb P -> is_lim (fun x => P x * exp (- x ^ 2)) m_infty 0.
Proof.
  intros H. apply is_lim_flip. apply (is_lim_ext (fun x => P (- x) * exp (- x ^ 2))); [intros x; f_equal; f_equal; ring|]. apply (lim_pgauss (fun x => P (- x))), pb_opp_arg, H.
Qed.

(** ** Half-line and line integrals through antiderivatives *)
Definition half (f : R -> R) (v : R) : Prop := exists F (L : R), (forall x, is_derive F x (f x)) /\ (forall x, continuous f x) /\ is_lim F p_infty L /\ v = L - F 0.
Definition line (f : R -> R) (v : R) : Prop :=
  exists F (K L : R), (forall x, is_derive F x (f x)) /\ (forall x, continuous f x) /\ is_lim F m_infty K /\ is_lim F p_infty L /\ v = L - K.
Lemma lim_filter F (L : R) (s : Rbar) : is_lim F s L -> (s = p_infty \/ s = m_infty) -> filterlim F (Rbar_locally s) (locally L).
Proof. intros H [-> | ->]; exact H. Qed.
Lemma gen_of f F (A B : (R -> Prop) -> Prop) (K L : R) : Filter A -> Filter B -> (forall x, is_derive F x (f x)) -> (forall x, continuous f x) ->
  filterlim F A (locally K) -> filterlim F B (locally L) -> is_RInt_gen f A B (L - K).
Proof.
  intros FA FB D C HA HB. apply (is_RInt_gen_ext (Derive F)).
  - exists (fun _ => True) (fun _ => True); [apply filter_true|apply filter_true|]. intros x y _ _ z _. apply is_derive_unique, D.
  - apply is_RInt_gen_Derive; try assumption; exists (fun _ => True) (fun _ => True); try apply filter_true; intros x y _ _ z _.
    + exists (f z). apply D.
    + apply (continuous_ext f); [intros t; symmetry; apply is_derive_unique, D|apply C].
Qed.
Lemma half_gen f v : half f v -> is_RInt_gen f (at_point 0) (Rbar_locally p_infty) v.
Proof.
  intros (F & L & D & C & HL & ->). apply (gen_of f F); try apply _; try assumption.
  intros P HP. unfold filtermap, at_point. apply locally_singleton, HP.
Qed.
Lemma line_gen f v : line f v -> is_RInt_gen f (Rbar_locally m_infty) (Rbar_locally p_infty) v.
Proof. intros (F & K & L & D & C & HK & HL & ->). apply (gen_of f F); try apply _; assumption. Qed.
Lemma half_ext f g v : (forall x, f x = g x) -> half f v -> half g v.
Proof.
  intros E (F & L & D & C & HL & HV). exists F, L. split; [intros x; rewrite <- E; apply D|]. split; [intros x; apply (continuous_ext f); [exact E|apply C]|]. split; assumption.
Qed.
Lemma line_ext f g v : (forall x, f x = g x) -> line f v -> line g v.
Proof.
  intros E (F & K & L & D & C & H). exists F, K, L. split; [intros x; rewrite <- E; apply D|]. split; [intros x; apply (continuous_ext f); [exact E|apply C]|]. exact H.
Qed.
Lemma lim_lin F G (a b k l : R) s : is_lim F s k -> is_lim G s l -> is_lim (fun x => a * F x + b * G x) s (a * k + b * l).
Proof.
  intros HF HG. apply (is_lim_plus (fun x => a * F x) (fun x => b * G x) s (a * k) (b * l)).
  - apply (is_lim_scal_l F a s k HF).
  - apply (is_lim_scal_l G b s l HG).
  - reflexivity.
Qed.
Lemma derive_lin F G (f g a b x : R) : is_derive F x f -> is_derive G x g -> is_derive (fun t => a * F t + b * G t) x (a * f + b * g).
Proof. intros HF HG. apply (is_derive_plus (fun t => a * F t) (fun t => b * G t) x (a * f) (b * g)); apply (is_derive_scal _ x); assumption. Qed.
Lemma cont_lin f g (a b x : R) : continuous f x -> continuous g x -> continuous (fun t => a * f t + b * g t) x.
Proof. intros Hf Hg. apply (continuous_plus (fun t => a * f t) (fun t => b * g t)); apply (continuous_scal_r _ (_ : R -> R)); assumption. Qed.
Lemma half_lin f g u v a b : half f u -> half g v -> half (fun x => a * f x + b * g x) (a * u + b * v).
Proof.
  intros (F & L & D & C & HL & ->) (G & M & D' & C' & HM & ->). exists (fun x => a * F x + b * G x), (a * L + b * M).
  split; [intros x; apply derive_lin; auto|]. split; [intros x; apply cont_lin; auto|]. split; [apply lim_lin; assumption|ring].
Qed.
Lemma line_lin f g u v a b : line f u -> line g v -> line (fun x => a * f x + b * g x) (a * u + b * v).
Proof.
  intros (F & K & L & D & C & HK & HL & ->) (G & K' & M & D' & C' & HK' & HM & ->). exists (fun x => a * F x + b * G x), (a * K + b * K'), (a * L + b * M).
  split; [intros x; apply derive_lin; auto|]. split; [intros x; apply cont_lin; auto|]. split; [apply lim_lin; assumption|]. split; [apply lim_lin; assumption|ring].
Qed.
Lemma half_val f u v : u = v -> half f u -> half f v. Proof. intros ->. exact (fun H => H). Qed.
Lemma line_val f u v : u = v -> line f u -> line f v. Proof. intros ->. exact (fun H => H). Qed.
Lemma half_zero : half (fun _ => 0) 0.
Proof. exists (fun _ => 0), 0. split; [intros x; auto_derive; trivial|]. split; [intros x; apply continuous_const|]. split; [apply is_lim_const|ring]. Qed.
Lemma line_zero : line (fun _ => 0) 0.
Proof. exists (fun _ => 0), 0, 0. split; [intros x; auto_derive; trivial|]. split; [intros x; apply continuous_const|]. split; [apply is_lim_const|]. split; [apply is_lim_const|ring]. Qed.
Lemma half_scal f u k : half f u -> half (fun x => k * f x) (k * u).
Proof. intros H. apply (half_ext (fun x => k * f x + 0 * 0)); [intros; ring|]. apply (half_val _ (k * u + 0 * 0)); [ring|]. exact (half_lin _ _ _ _ k 0 H half_zero). Qed.
Lemma line_scal f u k : line f u -> line (fun x => k * f x) (k * u).
Proof. intros H. apply (line_ext (fun x => k * f x + 0 * 0)); [intros; ring|]. apply (line_val _ (k * u + 0 * 0)); [ring|]. exact (line_lin _ _ _ _ k 0 H line_zero). Qed.
