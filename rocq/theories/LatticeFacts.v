(** Sums over the pixels of a disc compared with integrals. *)
From Coq Require Import Reals Lra Psatz ZArith Arith List Bool Lia.
From Coquelicot Require Import Coquelicot.
From Verif Require Import Sums.
Open Scope R_scope.

(** ** Telescoping cells *)
Lemma cells n F A V s h : 0 <= h ->
  (forall k, (k < n)%nat -> Rabs (h * F (s + (INR k + / 2) * h) - (A (s + (INR k + 1) * h) - A (s + INR k * h))) <= h * (V (s + (INR k + 1) * h) - V (s + INR k * h))) ->
  Rabs (h * rsum n (fun k => F (s + (INR k + / 2) * h)) - (A (s + INR n * h) - A s)) <= h * (V (s + INR n * h) - V s).
Proof.
  intros Hh. induction n as [|n IH]; intros H.
  - cbn [rsum INR]. replace (s + 0 * h) with s by ring. replace (h * 0 - (A s - A s)) with 0 by ring. rewrite Rabs_R0. lra.
  - cbn [rsum]. specialize (IH (fun k Hk => H k (Nat.lt_lt_succ_r _ _ Hk))). pose proof (H n (Nat.lt_succ_diag_r n)) as L. rewrite S_INR.
    match goal with |- Rabs ?x <= _ => replace x with ((h * rsum n (fun k => F (s + (INR k + / 2) * h)) - (A (s + INR n * h) - A s)) + (h * F (s + (INR n + / 2) * h) - (A (s + (INR n + 1) * h) - A (s + INR n * h)))) by ring end.
    eapply Rle_trans; [apply Rabs_triang|]. lra.
Qed.

(** ** Powers on [-1, 1] *)
Lemma pow_le1 x n : Rabs x <= 1 -> Rabs (x ^ n) <= 1.
Proof.
  intros H. rewrite <- RPow_abs. induction n as [|n IH]; cbn [pow]; [lra|]. pose proof (Rabs_pos x). assert (0 <= Rabs x ^ n) by (apply pow_le; lra). nra.
Qed.
Lemma pow_lip n x y : Rabs x <= 1 -> Rabs y <= 1 -> Rabs (x ^ n - y ^ n) <= INR n * Rabs (x - y).
Proof.
  intros Hx Hy. induction n as [|n IH]; [cbn [pow INR]; replace (1 - 1) with 0 by ring; rewrite Rabs_R0; lra|].
  rewrite S_INR. cbn [pow]. replace (x * x ^ n - y * y ^ n) with (x * (x ^ n - y ^ n) + y ^ n * (x - y)) by ring.
  eapply Rle_trans; [apply Rabs_triang|]. rewrite !Rabs_mult. pose proof (pow_le1 y n Hy). pose proof (Rabs_pos (x - y)). pose proof (Rabs_pos (x ^ n - y ^ n)). pose proof (Rabs_pos x). nra.
Qed.
Definition ipow (a : nat) (t : R) : R := t ^ S a / INR (S a).
Lemma ipow_derive a t : is_derive (ipow a) t (t ^ a).
Proof. unfold ipow. assert (INR (S a) <> 0) by (apply not_0_INR; lia). auto_derive; [trivial|]. replace (Nat.pred (S a)) with a by reflexivity. cbn [Nat.pred]. field. exact H. Qed.
Lemma ipow_lip a x y : Rabs x <= 1 -> Rabs y <= 1 -> Rabs (ipow a x - ipow a y) <= Rabs (x - y).
Proof.
  intros Hx Hy. unfold ipow. assert (0 < INR (S a)) by (apply lt_0_INR; lia). replace (x ^ S a / INR (S a) - y ^ S a / INR (S a)) with ((x ^ S a - y ^ S a) * / INR (S a)) by (field; lra).
  rewrite Rabs_mult, (Rabs_pos_eq (/ INR (S a))) by (left; apply Rinv_0_lt_compat; assumption). pose proof (pow_lip (S a) x y Hx Hy).
  apply (Rmult_le_reg_r (INR (S a))); [assumption|]. rewrite Rmult_assoc, Rinv_l by lra. lra.
Qed.
Lemma ipow_mid a l h : 0 <= h -> -1 <= l -> l + h <= 1 -> Rabs (h * (l + / 2 * h) ^ a - (ipow a (l + h) - ipow a l)) <= h * (INR a * h).
Proof.
  intros Hh Hl Hr. destruct (MVT_gen (ipow a) l (l + h) (fun t => t ^ a)) as (c & Hc & E).
  - intros x _. apply ipow_derive.
  - intros x _. apply continuity_pt_filterlim. apply (ex_derive_continuous (ipow a)). eexists. apply ipow_derive.
  - rewrite Rmin_left, Rmax_right in Hc by lra. rewrite E. replace (h * (l + / 2 * h) ^ a - c ^ a * (l + h - l)) with (h * ((l + / 2 * h) ^ a - c ^ a)) by ring.
    rewrite Rabs_mult, (Rabs_pos_eq h) by exact Hh. apply Rmult_le_compat_l; [exact Hh|]. eapply Rle_trans; [apply pow_lip; apply Rabs_le; lra|]. apply Rmult_le_compat_l; [apply pos_INR|]. apply Rabs_le. lra.
Qed.

(** ** One row *)
Definition clip (w t : R) : R := Rmax (- w) (Rmin w t).
Definition step (c t : R) : R := if Rle_dec c t then 1 else 0.
Definition slice (a : nat) (w x : R) : R := if Rlt_dec (Rabs x) w then x ^ a else 0.
Lemma clip_bounds w t : 0 <= w -> - w <= clip w t <= w.
Proof. intros H. unfold clip. split; [apply Rmax_l|]. apply Rmax_lub; [lra|]. apply Rmin_l. Qed.
Lemma clip_mono w s t : s <= t -> clip w s <= clip w t.
Proof. intros H. unfold clip. apply Rle_max_compat_l. apply Rle_min_compat_l. exact H. Qed.
Lemma clip_lip w s t : s <= t -> clip w t - clip w s <= t - s.
Proof. intros H. unfold clip, Rmax, Rmin. repeat destruct (Rle_dec _ _); lra. Qed.
Lemma step_mono c s t : s <= t -> step c s <= step c t.
Proof. intros H. unfold step. repeat destruct (Rle_dec _ _); lra. Qed.
Definition rowvar (a : nat) (w t : R) : R := INR a * clip w t + 2 * (step w t + step (- w) t).
Lemma slice_cell a w l h : 0 < h -> 0 <= w <= 1 ->
  Rabs (h * slice a w (l + / 2 * h) - (ipow a (clip w (l + h)) - ipow a (clip w l))) <= h * (rowvar a w (l + h) - rowvar a w l).
Proof.
  intros Hh Hw. unfold rowvar. pose proof (clip_mono w l (l + h) ltac:(lra)) as CM. pose proof (step_mono w l (l + h) ltac:(lra)) as SM. pose proof (step_mono (- w) l (l + h) ltac:(lra)) as SM'. pose proof (pos_INR a) as Ia.
  assert (P : 0 <= INR a * (clip w (l + h) - clip w l)) by (apply Rmult_le_pos; lra).
  destruct (Rle_dec (l + h) (- w)) as [C1|C1].
  { replace (clip w (l + h)) with (clip w l) by (unfold clip; rewrite !Rmin_right, !Rmax_left; lra). unfold slice. destruct (Rlt_dec _ _) as [X|X]; [apply Rabs_def2 in X; lra|].
    replace (h * 0 - _) with 0 by ring. rewrite Rabs_R0. nra. }
  destruct (Rle_dec w l) as [C2|C2].
  { replace (clip w (l + h)) with (clip w l) by (unfold clip; rewrite !Rmin_left; lra). unfold slice. destruct (Rlt_dec _ _) as [X|X]; [apply Rabs_def2 in X; lra|].
    replace (h * 0 - _) with 0 by ring. rewrite Rabs_R0. nra. }
  destruct (Rle_dec (- w) l) as [C3|C3]; [destruct (Rle_dec (l + h) w) as [C4|C4]|].
  - replace (clip w (l + h)) with (l + h) in * by (unfold clip; rewrite Rmin_right, Rmax_right; lra). replace (clip w l) with l in * by (unfold clip; rewrite Rmin_right, Rmax_right; lra).
    unfold slice. destruct (Rlt_dec _ _) as [X|X]; [|exfalso; apply X; apply Rabs_def1; lra]. eapply Rle_trans; [apply ipow_mid; lra|]. apply Rmult_le_compat_l; [lra|]. replace (l + h - l) with h by ring. nra.
  - assert (St : step w (l + h) - step w l = 1) by (unfold step; repeat destruct (Rle_dec _ _); lra).
    apply Rle_trans with (h * 2); [|apply Rmult_le_compat_l; lra].
    assert (X1 : Rabs (slice a w (l + / 2 * h)) <= 1). { unfold slice. destruct (Rlt_dec _ _); [apply pow_le1; lra|rewrite Rabs_R0; lra]. }
    assert (X2 : Rabs (ipow a (clip w (l + h)) - ipow a (clip w l)) <= h). { pose proof (clip_bounds w l). pose proof (clip_bounds w (l + h)). eapply Rle_trans; [apply ipow_lip; apply Rabs_le; lra|]. rewrite Rabs_pos_eq by lra. pose proof (clip_lip w l (l + h)). lra. }
    eapply Rle_trans; [apply Rabs_triang|]. rewrite Rabs_Ropp, Rabs_mult, (Rabs_pos_eq h) by lra. nra.
  - assert (St : step (- w) (l + h) - step (- w) l = 1) by (unfold step; repeat destruct (Rle_dec _ _); lra).
    apply Rle_trans with (h * 2); [|apply Rmult_le_compat_l; lra].
    assert (X1 : Rabs (slice a w (l + / 2 * h)) <= 1). { unfold slice. destruct (Rlt_dec _ _); [apply pow_le1; lra|rewrite Rabs_R0; lra]. }
    assert (X2 : Rabs (ipow a (clip w (l + h)) - ipow a (clip w l)) <= h). { pose proof (clip_bounds w l). pose proof (clip_bounds w (l + h)). eapply Rle_trans; [apply ipow_lip; apply Rabs_le; lra|]. rewrite Rabs_pos_eq by lra. pose proof (clip_lip w l (l + h)). lra. }
    eapply Rle_trans; [apply Rabs_triang|]. rewrite Rabs_Ropp, Rabs_mult, (Rabs_pos_eq h) by lra. nra.
Qed.
(** Centres of n cells of width h tiling [-n h/2, n h/2]. *)
Definition centre (n : nat) (h : R) (k : nat) : R := - (INR n * h / 2) + (INR k + / 2) * h.
Definition chord (a : nat) (w : R) : R := ipow a w - ipow a (- w).
Lemma row_sum a w n h : 0 < h -> 0 <= w <= 1 -> 2 <= INR n * h ->
  Rabs (h * rsum n (fun k => slice a w (centre n h k)) - chord a w) <= h * (2 * INR a + 4).
Proof.
  intros Hh Hw Hn. pose proof (cells n (slice a w) (fun t => ipow a (clip w t)) (rowvar a w) (- (INR n * h / 2)) h ltac:(lra)) as C. cbv beta in C.
  replace (- (INR n * h / 2) + INR n * h) with (INR n * h / 2) in C by field.
  assert (E1 : clip w (INR n * h / 2) = w) by (unfold clip; rewrite Rmin_left, Rmax_right; lra). assert (E2 : clip w (- (INR n * h / 2)) = - w) by (unfold clip; rewrite Rmin_right, Rmax_left; lra).
  rewrite E1, E2 in C. unfold chord, centre. eapply Rle_trans; [apply C|].
  - intros k _. pose proof (slice_cell a w (- (INR n * h / 2) + INR k * h) h Hh Hw) as L.
    replace (- (INR n * h / 2) + (INR k + / 2) * h) with (- (INR n * h / 2) + INR k * h + / 2 * h) by ring. replace (- (INR n * h / 2) + (INR k + 1) * h) with (- (INR n * h / 2) + INR k * h + h) by ring. exact L.
  - apply Rmult_le_compat_l; [lra|]. unfold rowvar. rewrite E1, E2. pose proof (pos_INR a). unfold step. repeat destruct (Rle_dec _ _); nra.
Qed.

(** ** All rows *)
Definition half (y : R) : R := sqrt (1 - y * y).
Lemma half_bounds y : 0 <= half y <= 1.
Proof.
  unfold half. split; [apply sqrt_pos|]. rewrite <- sqrt_1 at 2. destruct (Rle_dec 0 (1 - y * y)); [apply sqrt_le_1; nra|]. rewrite sqrt_neg_0 by lra. apply sqrt_pos.
Qed.
Lemma half_out y : 1 <= Rabs y -> half y = 0.
Proof. intros H. unfold half. apply sqrt_neg_0. pose proof (Rsqr_abs y) as E. unfold Rsqr in E. rewrite E. nra. Qed.
Lemma half_anti s t : 0 <= s -> s <= t -> half t <= half s.
Proof.
  intros H1 H2. unfold half. destruct (Rle_dec 0 (1 - t * t)); [apply sqrt_le_1; nra|]. rewrite sqrt_neg_0 by lra. apply sqrt_pos.
Qed.
Lemma half_even y : half (- y) = half y.
Proof. unfold half. f_equal. ring. Qed.
Lemma half_mono s t : t <= 0 -> s <= t -> half s <= half t.
Proof. intros. rewrite <- (half_even s), <- (half_even t). apply half_anti; lra. Qed.
Definition hvar (t : R) : R := if Rle_dec t 0 then half t else 2 - half t.
Lemma hvar_diff s t : s <= t -> Rabs (half s - half t) <= hvar t - hvar s.
Proof.
  intros H. unfold hvar. pose proof (half_bounds s). pose proof (half_bounds t). destruct (Rle_dec t 0), (Rle_dec s 0); try lra.
  - pose proof (half_mono s t). rewrite Rabs_left1; lra.
  - apply Rabs_le. lra.
  - pose proof (half_anti s t). rewrite Rabs_pos_eq; lra.
Qed.
Lemma chord_lip a u v : 0 <= u <= 1 -> 0 <= v <= 1 -> Rabs (chord a u - chord a v) <= 2 * Rabs (u - v).
Proof.
  intros Hu Hv. unfold chord. replace (ipow a u - ipow a (- u) - (ipow a v - ipow a (- v))) with ((ipow a u - ipow a v) - (ipow a (- u) - ipow a (- v))) by ring.
  pose proof (ipow_lip a u v ltac:(apply Rabs_le; lra) ltac:(apply Rabs_le; lra)). pose proof (ipow_lip a (- u) (- v) ltac:(apply Rabs_le; lra) ltac:(apply Rabs_le; lra)) as K. replace (- u - - v) with (- (u - v)) in K by ring. rewrite Rabs_Ropp in K.
  eapply Rle_trans; [apply Rabs_triang|]. rewrite Rabs_Ropp. lra.
Qed.
Lemma chord_0 a : chord a 0 = 0.
Proof. unfold chord. rewrite Ropp_0. ring. Qed.
Lemma chord_bound a u : 0 <= u <= 1 -> Rabs (chord a u) <= 2.
Proof. intros H. pose proof (chord_lip a u 0 H ltac:(lra)) as L. rewrite chord_0, !Rminus_0_r in L. rewrite (Rabs_pos_eq u) in L by lra. lra. Qed.
Definition column (a b : nat) (y : R) : R := y ^ b * chord a (half y).
Lemma column_clip a b y : column a b y = clip 1 y ^ b * chord a (half y).
Proof.
  unfold column. destruct (Rle_dec 1 (Rabs y)) as [H|H]; [rewrite half_out by exact H; rewrite chord_0; ring|].
  replace (clip 1 y) with y; [reflexivity|]. assert (Rabs y < 1) as L by lra. apply Rabs_def2 in L. unfold clip. rewrite Rmin_right, Rmax_right; lra.
Qed.
Definition colvar (b : nat) (t : R) : R := 2 * INR b * clip 1 t + 2 * hvar t.
Lemma column_diff a b s t : s <= t -> Rabs (column a b s - column a b t) <= colvar b t - colvar b s.
Proof.
  intros H. rewrite !column_clip. unfold colvar.
  replace (clip 1 s ^ b * chord a (half s) - clip 1 t ^ b * chord a (half t)) with ((clip 1 s ^ b - clip 1 t ^ b) * chord a (half s) + clip 1 t ^ b * (chord a (half s) - chord a (half t))) by ring.
  pose proof (clip_bounds 1 s ltac:(lra)). pose proof (clip_bounds 1 t ltac:(lra)). pose proof (clip_mono 1 s t H).
  pose proof (pow_lip b (clip 1 s) (clip 1 t) ltac:(apply Rabs_le; lra) ltac:(apply Rabs_le; lra)) as L1. rewrite (Rabs_left1 (clip 1 s - clip 1 t)) in L1 by lra.
  pose proof (chord_bound a (half s) (half_bounds s)) as L2. pose proof (pow_le1 (clip 1 t) b ltac:(apply Rabs_le; lra)) as L3. pose proof (chord_lip a (half s) (half t) (half_bounds s) (half_bounds t)) as L4. pose proof (hvar_diff s t H) as L5.
  eapply Rle_trans; [apply Rabs_triang|]. rewrite !Rabs_mult. pose proof (Rabs_pos (clip 1 s ^ b - clip 1 t ^ b)). pose proof (Rabs_pos (chord a (half s))). pose proof (Rabs_pos (clip 1 t ^ b)). pose proof (Rabs_pos (chord a (half s) - chord a (half t))).
  assert (Rabs (clip 1 s ^ b - clip 1 t ^ b) * Rabs (chord a (half s)) <= INR b * - (clip 1 s - clip 1 t) * 2) by (apply Rmult_le_compat; assumption).
  assert (Rabs (clip 1 t ^ b) * Rabs (chord a (half s) - chord a (half t)) <= 1 * (2 * (hvar t - hvar s))) by (apply Rmult_le_compat; lra). lra.
Qed.
Lemma half_continuous y : continuous half y.
Proof.
  unfold half. apply (continuous_comp (fun y => 1 - y * y) sqrt); [apply (ex_derive_continuous (fun y => 1 - y * y)); auto_derive; trivial|]. apply continuous_sqrt.
Qed.
Lemma column_continuous a b y : continuous (column a b) y.
Proof.
  unfold column. apply (continuous_mult (fun y => y ^ b) (fun y => chord a (half y))); [apply (ex_derive_continuous (fun y => y ^ b)); auto_derive; trivial|].
  apply (continuous_comp half (chord a)); [apply half_continuous|]. apply (ex_derive_continuous (chord a)). unfold chord, ipow. auto_derive; trivial.
Qed.
Lemma column_int a b s t : ex_RInt (column a b) s t.
Proof. apply (ex_RInt_continuous (V := R_CompleteNormedModule)). intros; apply column_continuous. Qed.
Lemma column_cell a b l h : 0 < h -> Rabs (h * column a b (l + / 2 * h) - RInt (column a b) l (l + h)) <= h * (colvar b (l + h) - colvar b l).
Proof.
  intros Hh. set (c := column a b (l + / 2 * h)). set (v := colvar b (l + h) - colvar b l).
  assert (B : forall t, l <= t <= l + h -> Rabs (column a b t - c) <= v).
  { intros t Ht. unfold c, v. assert (Mo : forall s u, s <= u -> colvar b s <= colvar b u). { intros s u Hsu. pose proof (column_diff a b s u Hsu) as D. pose proof (Rabs_pos (column a b s - column a b u)). lra. }
    pose proof (Mo l t ltac:(lra)). pose proof (Mo t (l + h) ltac:(lra)). pose proof (Mo l (l + / 2 * h) ltac:(lra)). pose proof (Mo (l + / 2 * h) (l + h) ltac:(lra)).
    destruct (Rle_dec t (l + / 2 * h)) as [L|L]; [pose proof (column_diff a b t (l + / 2 * h) L); lra|]. pose proof (column_diff a b (l + / 2 * h) t ltac:(lra)) as D. rewrite Rabs_minus_sym. lra. }
  pose proof (RInt_le (fun _ => c - v) (column a b) l (l + h) ltac:(lra) (ex_RInt_const _ _ _) (column_int a b _ _)) as U1.
  pose proof (RInt_le (column a b) (fun _ => c + v) l (l + h) ltac:(lra) (column_int a b _ _) (ex_RInt_const _ _ _)) as U2.
  rewrite RInt_const in U1, U2. unfold scal in U1, U2; cbn in U1, U2; unfold mult in U1, U2; cbn in U1, U2.
  assert (Q1 : (l + h - l) * (c - v) <= RInt (column a b) l (l + h)). { apply U1. intros t Ht. pose proof (B t ltac:(lra)) as Bt. apply Rabs_le_between in Bt. lra. }
  assert (Q2 : RInt (column a b) l (l + h) <= (l + h - l) * (c + v)). { apply U2. intros t Ht. pose proof (B t ltac:(lra)) as Bt. apply Rabs_le_between in Bt. lra. }
  apply Rabs_le. lra.
Qed.
Lemma column_out a b s t : s <= t -> (t <= -1 \/ 1 <= s) -> RInt (column a b) s t = 0.
Proof.
  intros L H. rewrite (RInt_ext _ (fun _ => 0)); [rewrite RInt_const; unfold scal; cbn; unfold mult; cbn; ring|].
  intros x Hx. rewrite Rmin_left, Rmax_right in Hx by exact L. unfold column. rewrite half_out, chord_0; [apply Rmult_0_r|]. destruct H; [rewrite Rabs_left1 by lra; lra|rewrite Rabs_pos_eq by lra; lra].
Qed.
Definition moment (a b : nat) : R := RInt (column a b) (-1) 1.
Lemma column_sum a b n h : 0 < h -> 2 <= INR n * h -> Rabs (h * rsum n (fun k => column a b (centre n h k)) - moment a b) <= h * (4 * INR b + 4).
Proof.
  intros Hh Hn. pose proof (cells n (column a b) (fun t => RInt (column a b) 0 t) (colvar b) (- (INR n * h / 2)) h ltac:(lra)) as C. cbv beta in C.
  assert (Ch : forall s t u, RInt (column a b) s u - RInt (column a b) s t = RInt (column a b) t u).
  { intros s t u. assert (E : RInt (column a b) s t + RInt (column a b) t u = RInt (column a b) s u) by exact (RInt_Chasles (column a b) s t u (column_int a b _ _) (column_int a b _ _)). lra. }
  rewrite Ch in C. set (e := INR n * h / 2) in *. replace (- e + INR n * h) with e in C by (unfold e; field).
  assert (M : RInt (column a b) (- e) e = moment a b).
  { unfold moment. pose proof (Ch (- e) (-1) e) as E1. pose proof (Ch (-1) 1 e) as E2. rewrite (column_out a b (- e) (-1)) in E1 by (unfold e; lra). rewrite (column_out a b 1 e) in E2 by (unfold e; lra). lra. }
  rewrite M in C. unfold centre. fold e. eapply Rle_trans; [apply C|].
  - intros k _. rewrite Ch. pose proof (column_cell a b (- e + INR k * h) h Hh) as L.
    replace (- e + (INR k + / 2) * h) with (- e + INR k * h + / 2 * h) by ring. replace (- e + (INR k + 1) * h) with (- e + INR k * h + h) by ring. exact L.
  - apply Rmult_le_compat_l; [lra|]. unfold colvar, hvar.
    replace (clip 1 e) with 1 by (unfold clip, e; rewrite Rmin_left, Rmax_right; lra). replace (clip 1 (- e)) with (- (1)) by (unfold clip, e; rewrite Rmin_right, Rmax_left; lra).
    rewrite (half_out e) by (unfold e; rewrite Rabs_pos_eq; lra). rewrite (half_out (- e)) by (unfold e; rewrite Rabs_left1; lra). pose proof (pos_INR b). repeat destruct (Rle_dec _ _); lra.
Qed.
Definition in_disc (x y : R) (v : R) : R := if Rlt_dec (x ^ 2 + y ^ 2) 1 then v else 0.
Lemma in_disc_slice a b x y : in_disc x y (x ^ a * y ^ b) = y ^ b * slice a (half y) x.
Proof.
  unfold in_disc, slice. destruct (Rlt_dec (x ^ 2 + y ^ 2) 1) as [H|H], (Rlt_dec (Rabs x) (half y)) as [G|G]; try ring; exfalso.
  - apply G. unfold half. rewrite <- sqrt_Rsqr_abs. apply sqrt_lt_1_alt. unfold Rsqr. nra.
  - apply H. unfold half in G. destruct (Rle_dec 0 (1 - y * y)) as [P|P].
    + rewrite <- sqrt_Rsqr_abs in G. apply sqrt_lt_0_alt in G. unfold Rsqr in G. nra.
    + rewrite sqrt_neg_0 in G by lra. pose proof (Rabs_pos x). lra.
Qed.
Lemma rsum_abs n f : Rabs (rsum n f) <= rsum n (fun k => Rabs (f k)).
Proof. induction n as [|n IH]; cbn [rsum]; [rewrite Rabs_R0; lra|]. eapply Rle_trans; [apply Rabs_triang|]. lra. Qed.
(** The sum over the pixels in the disc, against the moment of the disc. *)
Lemma disc_sum a b ny nx h : 0 < h <= 1 -> 2 <= INR nx * h -> 2 <= INR ny * h ->
  Rabs (h * h * rsum2 ny nx (fun i j => in_disc (centre nx h j) (centre ny h i) (centre nx h j ^ a * centre ny h i ^ b)) - moment a b) <= h * (12 * INR a + 4 * INR b + 28).
Proof.
  intros Hh Hx Hy. pose proof (column_sum a b ny h ltac:(lra) Hy) as C. pose proof (row_sum 0 1 ny h ltac:(lra) ltac:(lra) Hy) as N. cbn [INR] in N.
  assert (R1 : Rabs (h * h * rsum2 ny nx (fun i j => in_disc (centre nx h j) (centre ny h i) (centre nx h j ^ a * centre ny h i ^ b)) - h * rsum ny (fun k => column a b (centre ny h k))) <= h * (h * (2 * INR a + 4)) * rsum ny (fun k => slice 0 1 (centre ny h k))).
  { unfold rsum2. rewrite Rmult_assoc, <- Rmult_minus_distr_l, Rabs_mult, (Rabs_pos_eq h), Rmult_assoc by lra. apply Rmult_le_compat_l; [lra|]. rewrite <- !rsum_scal_l, <- rsum_minus. eapply Rle_trans; [apply rsum_abs|].
    apply rsum_le. intros i _. set (y := centre ny h i). rewrite (rsum_ext nx _ (fun j => y ^ b * slice a (half y) (centre nx h j))) by (intros; apply in_disc_slice). rewrite rsum_scal_l. unfold column.
    replace (h * (y ^ b * rsum nx (fun j => slice a (half y) (centre nx h j))) - y ^ b * chord a (half y)) with (y ^ b * (h * rsum nx (fun j => slice a (half y) (centre nx h j)) - chord a (half y))) by ring. rewrite Rabs_mult.
    unfold slice at 2. destruct (Rlt_dec (Rabs y) 1) as [L|L].
    - cbn [pow]. rewrite Rmult_1_r. pose proof (row_sum a (half y) nx h ltac:(lra) (half_bounds y) Hx) as S. pose proof (pow_le1 y b ltac:(lra)). pose proof (Rabs_pos (y ^ b)). pose proof (Rabs_pos (h * rsum nx (fun j => slice a (half y) (centre nx h j)) - chord a (half y))). nra.
    - rewrite half_out by lra. rewrite chord_0, (rsum_ext nx _ (fun _ => 0)), rsum_0; [rewrite Rmult_0_r, Rminus_0_r, Rabs_R0; lra|]. intros j _. unfold slice. destruct (Rlt_dec _ _) as [X|X]; [pose proof (Rabs_pos (centre nx h j)); lra|reflexivity]. }
  assert (N2 : h * rsum ny (fun k => slice 0 1 (centre ny h k)) <= 6). { apply Rabs_le_between in N. unfold chord, ipow in N. cbn [pow INR] in N. lra. }
  assert (N0 : 0 <= rsum ny (fun k => slice 0 1 (centre ny h k))). { apply rsum_ge_0. intros i _. unfold slice. cbn [pow]. destruct (Rlt_dec _ _); lra. }
  replace (h * h * rsum2 ny nx (fun i j => in_disc (centre nx h j) (centre ny h i) (centre nx h j ^ a * centre ny h i ^ b)) - moment a b) with ((h * h * rsum2 ny nx (fun i j => in_disc (centre nx h j) (centre ny h i) (centre nx h j ^ a * centre ny h i ^ b)) - h * rsum ny (fun k => column a b (centre ny h k))) + (h * rsum ny (fun k => column a b (centre ny h k)) - moment a b)) by ring.
  eapply Rle_trans; [apply Rabs_triang|]. pose proof (pos_INR a). 
  assert (h * (h * (2 * INR a + 4)) * rsum ny (fun k => slice 0 1 (centre ny h k)) <= h * ((2 * INR a + 4) * 6)).
  { rewrite !Rmult_assoc. apply Rmult_le_compat_l; [lra|]. rewrite (Rmult_comm h), Rmult_assoc. apply Rmult_le_compat_l; [lra|]. rewrite Rmult_comm. exact N2. }
  lra.
Qed.
