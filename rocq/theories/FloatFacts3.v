(** Amplitudes, grey levels and powers under rounding (C95, C99). *)
From Coq Require Import Reals Lra Psatz ZArith Arith List Bool Lia.
From Flocq Require Import Core.
From Coquelicot Require Import Complex.
From Verif Require Import Cx PyBase ProfileModel SlmModel LibModel DmdModel AmpFacts FloatModel FloatSpec FloatFacts FloatFacts2.
Open Scope R_scope.

Section Range.
Variables (a : fpu) (u eta : R) (B : Z).
Hypotheses (H : arithmetic u eta B (rnd a)) (HB : (2 ^ 22 <= B)%Z).
Let HB0 : (2 ^ 20 <= B)%Z. Proof. lia. Qed.
Let Z0 : rnd a 0 = 0. Proof. exact (fl_0 _ _ _ _ H HB0). Qed.
Let Z1 : rnd a 1 = 1. Proof. exact (fl_1 _ _ _ _ H HB0). Qed.
Let Z12 : rnd a (1 / 2) = 1 / 2. Proof. exact (fl_12 _ _ _ _ H HB0). Qed.
Let M x y : x <= y -> rnd a x <= rnd a y. Proof. exact (ar_monotone _ _ _ _ H x y). Qed.

(** ** Normalised amplitudes *)
Lemma ratio_fin p q : 0 <= p -> (p <> 0 -> 0 < q) -> fl_ratio a p q = Fin (if Req_EM_T p 0 then 0 else rnd a (p / q)) /\ 0 <= (if Req_EM_T p 0 then 0 else rnd a (p / q)).
Proof.
  intros Hp Hq. unfold fl_ratio, xdiv. destruct (Req_EM_T p 0) as [E|E]; [split; [reflexivity|lra]|]. assert (Q := Hq E).
  destruct (Req_EM_T q 0) as [F|F]; [lra|]. split; [reflexivity|]. rewrite <- Z0. apply M. apply Rmult_le_pos; [exact Hp|]. left. apply Rinv_0_lt_compat. exact Q.
Qed.
Lemma amplitudes ny nx amp_out amp_in : (forall i j, (i < ny)%nat -> (j < nx)%nat -> 0 <= amp_out i j /\ (amp_out i j <> 0 -> 0 < amp_in i j)) ->
  (exists i j, (i < ny)%nat /\ (j < nx)%nat /\ amp_out i j <> 0 /\ 0 < rnd a (amp_out i j / amp_in i j)) ->
  exists A, (forall i j, (i < ny)%nat -> (j < nx)%nat -> fl_amp_scaled a ny nx amp_out amp_in i j = Fin (A i j) /\ 0 <= A i j <= 1 /\ rnd a (A i j) = A i j /\
    (amp_out i j = 0 -> A i j = 0)) /\ exists i j, (i < ny)%nat /\ (j < nx)%nat /\ A i j = 1.
Proof.
  intros Hs (i0 & j0 & Hi0 & Hj0 & N0 & P0).
  set (r := fun i j => if Req_EM_T (amp_out i j) 0 then 0 else rnd a (amp_out i j / amp_in i j)).
  assert (E : forall i j, (i < ny)%nat -> (j < nx)%nat -> fl_ratio a (amp_out i j) (amp_in i j) = Fin (r i j) /\ 0 <= r i j).
  { intros i j Hi Hj. destruct (Hs i j Hi Hj) as [S1 S2]. exact (ratio_fin _ _ S1 S2). }
  destruct (xmax2_fin r ny nx ltac:(lia) ltac:(lia)) as (m & Em & Lm & i1 & j1 & Hi1 & Hj1 & Am).
  assert (X1 : forall f g n, (forall j, (j < n)%nat -> f j = g j) -> xmax1 f n = xmax1 g n).
  { intros f g n. induction n as [|n IH]; intros Q; [reflexivity|]. cbn [xmax1]. rewrite IH, Q by (intros; try apply Q; lia). reflexivity. }
  assert (X2 : forall f g n n', (forall i j, (i < n)%nat -> (j < n')%nat -> f i j = g i j) -> xmax2 f n n' = xmax2 g n n').
  { intros f g n n'. induction n as [|n IH]; intros Q; [reflexivity|]. cbn [xmax2]. rewrite IH by (intros; apply Q; lia). f_equal. apply X1. intros. apply Q; lia. }
  assert (Em' : reduce_max (T2 ny nx (fun i j => fl_ratio a (amp_out i j) (amp_in i j))) = Fin m).
  { cbn [reduce_max]. rewrite <- Em. apply X2. intros i j Hi Hj. exact (proj1 (E i j Hi Hj)). }
  assert (Pm : 0 < m).
  { apply Rlt_le_trans with (r i0 j0); [|apply Lm; assumption]. unfold r. destruct (Req_EM_T (amp_out i0 j0) 0); [contradiction|exact P0]. }
  exists (fun i j => rnd a (r i j / m)). split.
  - intros i j Hi Hj. destruct (E i j Hi Hj) as [E1 E2]. split; [|split; [split|split]].
    + unfold fl_amp_scaled. rewrite Em', E1. unfold xdiv. destruct (Req_EM_T m 0); [lra|reflexivity].
    + rewrite <- Z0. apply M. apply Rmult_le_pos; [exact E2|]. left. apply Rinv_0_lt_compat. exact Pm.
    + rewrite <- Z1. apply M. apply Rmult_le_reg_r with m; [exact Pm|]. unfold Rdiv. rewrite Rmult_assoc, Rinv_l by lra. rewrite Rmult_1_r, Rmult_1_l. apply Lm; assumption.
    + apply (ar_stable _ _ _ _ H).
    + intros Z. unfold r. destruct (Req_EM_T (amp_out i j) 0); [|contradiction]. unfold Rdiv. rewrite Rmult_0_l. exact Z0.
  - exists i1, j1. split; [exact Hi1|]. split; [exact Hj1|]. rewrite Am. unfold Rdiv. rewrite Rinv_r by lra. exact Z1.
Qed.

(** ** Grey levels and thresholds *)
Hypothesis L : library a.
Lemma level x : -1 <= x <= 1 -> 0 <= rnd a (rnd a (x / 2) + rnd a (1 / 2)) <= 1 /\ (x <= 0 -> rnd a (rnd a (x / 2) + rnd a (1 / 2)) <= 1 / 2).
Proof.
  intros [X1 X2]. rewrite Z12.
  assert (Q1 : rnd a (x / 2) <= 1 / 2) by (rewrite <- Z12; apply M; lra).
  assert (Q2 : - (1 / 2) <= rnd a (x / 2)) by (rewrite <- Z12, <- (ar_odd _ _ _ _ H); apply M; lra).
  repeat split.
  - rewrite <- Z0. apply M. lra.
  - rewrite <- Z1. apply M. lra.
  - intros N. apply Rle_trans with (rnd a (1 / 2)); [apply M|rewrite Z12; lra]. assert (rnd a (x / 2) <= 0) by (rewrite <- Z0; apply M; lra). lra.
Qed.
Lemma ideal_range neg A pin pout x y p theta : 0 <= A -> rnd a A = A -> 0 <= fl_ideal a neg A pin pout x y p theta <= A.
Proof.
  intros HA HR. unfold fl_ideal. destruct (level _ (lib_cos a L (rnd a (fl_grating_phase a x y theta p - rnd a ((if neg then - pout else pout) - (if neg then - pin else pin)))))) as [[G0 G1] _].
  unfold fl_fringe. cbv zeta. split.
  - rewrite <- Z0 at 1. apply M. apply Rmult_le_pos; assumption.
  - rewrite <- HR at 2. apply M. rewrite <- (Rmult_1_r A) at 2. apply Rmult_le_compat_l; assumption.
Qed.
Lemma simple_on neg A pin pout x y p theta : 0 <= A <= 1 -> fl_simple a neg A pin pout x y p theta = true -> 1 / 2 < A /\ 0 < fl_fringe a neg pin pout x y p theta.
Proof.
  intros [A0 A1]. unfold fl_simple. destruct (Rlt_dec _ _) as [S|]; [intros _|discriminate]. rewrite Z12 in S. unfold fl_ideal in S.
  assert (F := lib_cos a L (rnd a (fl_grating_phase a x y theta p - rnd a ((if neg then - pout else pout) - (if neg then - pin else pin))))).
  change (f_cos a (rnd a (fl_grating_phase a x y theta p - rnd a ((if neg then - pout else pout) - (if neg then - pin else pin))))) with (fl_fringe a neg pin pout x y p theta) in F.
  destruct (level _ F) as [[G0 G1] G2]. set (g := rnd a (rnd a (fl_fringe a neg pin pout x y p theta / 2) + rnd a (1 / 2))) in *. clearbody g.
  assert (K : forall z, z <= 1 / 2 -> ~ 1 / 2 < rnd a z) by (intros z Hz; apply Rle_not_lt; rewrite <- Z12; apply M; exact Hz).
  split; apply Rnot_le_lt; intros N; apply (K (A * g)); try exact S.
  - assert (A * g <= A * 1) by (apply Rmult_le_compat_l; assumption). lra.
  - assert (G := G2 N). assert (A * g <= 1 * (1 / 2)) by (apply Rmult_le_compat; lra). lra.
Qed.
Lemma simple_monotone neg A A' pin pout x y p theta : 0 <= A <= A' -> fl_simple a neg A pin pout x y p theta = true -> fl_simple a neg A' pin pout x y p theta = true.
Proof.
  intros [A0 A1]. unfold fl_simple. destruct (Rlt_dec _ _) as [S|]; [intros _|discriminate]. destruct (Rlt_dec _ _) as [|N]; [reflexivity|]. exfalso. apply N.
  eapply Rlt_le_trans; [exact S|]. unfold fl_ideal. apply M. apply Rmult_le_compat_r; [|exact A1].
  exact (proj1 (proj1 (level _ (lib_cos a L (rnd a (fl_grating_phase a x y theta p - rnd a ((if neg then - pout else pout) - (if neg then - pin else pin)))))))).
Qed.
Lemma random_range neg A pin pout x y p theta r v : fl_random a neg A pin pout x y p theta r v = true -> v < 1 /\ (0 <= v -> A <> 0).
Proof.
  unfold fl_random. cbv zeta. destruct (Rlt_dec _ _) as [S|]; [intros _|discriminate]. rewrite Z12 in S. split.
  - eapply Rlt_le_trans; [exact S|]. apply Rle_trans with (rnd a 1); [apply M|lra].
    assert (T1 := lib_tanh a L (rnd a (rnd a r * rnd a (f_acos a (fl_fringe a neg pin pout x y p theta) + f_asin a A)))).
    assert (T2 := lib_tanh a L (rnd a (rnd a r * rnd a (f_acos a (fl_fringe a neg pin pout x y p theta) - f_asin a A)))).
    assert (Z2 : rnd a 2 = 2) by (apply (fl_int _ _ _ _ H 2); lia).
    assert (D : rnd a (f_tanh a (rnd a (rnd a r * rnd a (f_acos a (fl_fringe a neg pin pout x y p theta) + f_asin a A))) - f_tanh a (rnd a (rnd a r * rnd a (f_acos a (fl_fringe a neg pin pout x y p theta) - f_asin a A)))) <= 2).
    { apply Rle_trans with (rnd a 2); [apply M; lra|lra]. } lra.
  - intros V E. subst A. rewrite (lib_asin0 a L) in S. rewrite Rplus_0_r, Rminus_0_r in S. unfold Rminus in S. rewrite Rplus_opp_r, Z0, Rmult_0_r, Z0 in S. lra.
Qed.

(** ** Powers *)
Lemma part_shrinks x g : rnd a x = x -> 0 <= g <= 1 -> Rabs (rnd a (x * g)) <= Rabs x.
Proof.
  intros Hx [G0 G1].
  assert (Hm : rnd a (- x) = - x) by (rewrite (ar_odd _ _ _ _ H), Hx; reflexivity).
  unfold Rabs at 2. destruct (Rcase_abs x) as [N|P]; apply Rabs_le.
  - rewrite Ropp_involutive. split; [apply Rle_trans with (rnd a x); [lra|apply M; nra]|apply Rle_trans with (rnd a (- x)); [apply M; nra|lra]].
  - split; [apply Rle_trans with (rnd a (- x)); [lra|apply M; nra]|apply Rle_trans with (rnd a x); [apply M; nra|lra]].
Qed.
Lemma grey_product z g : representable (rnd a) z -> fl_cmul a z (grey_factor g) = (rnd a (fst z * g), rnd a (snd z * g)).
Proof.
  intros [F1 F2]. unfold fl_cmul, grey_factor. cbn [fst snd]. rewrite !Rmult_0_r, Z0, Rminus_0_r, Rplus_0_l, !(ar_stable _ _ _ _ H). reflexivity.
Qed.
Lemma bool_product z b : representable (rnd a) z -> fl_cmul a z (bool_factor b) = if b then z else (0, 0).
Proof.
  intros [F1 F2]. change (bool_factor b) with (if b then grey_factor 1 else grey_factor 0). destruct b; rewrite grey_product by (split; assumption).
  - rewrite !Rmult_1_r, F1, F2. destruct z; reflexivity.
  - rewrite !Rmult_0_r, Z0. reflexivity.
Qed.
Lemma intensity_mono z w : Rabs (fst z) <= Rabs (fst w) -> Rabs (snd z) <= Rabs (snd w) -> fl_intensity a z <= fl_intensity a w.
Proof.
  intros A1 A2. unfold fl_intensity. rewrite <- (pow2_abs (fst z)), <- (pow2_abs (snd z)), <- (pow2_abs (fst w)), <- (pow2_abs (snd w)).
  apply M. apply Rplus_le_compat; apply M; apply pow_incr; split; try apply Rabs_pos; assumption.
Qed.
Lemma intensity_ge0 z : 0 <= fl_intensity a z.
Proof.
  unfold fl_intensity. rewrite <- Z0. apply M. apply Rplus_le_le_0_compat; rewrite <- Z0; apply M; apply pow2_ge_0.
Qed.
Lemma intensity_0 : fl_intensity a (0, 0) = 0.
Proof. unfold fl_intensity. cbn [fst snd]. replace (0 ^ 2) with 0 by ring. rewrite Z0, Rplus_0_l, Z0. reflexivity. Qed.
Lemma sum_mono f g t : over t (fun i j => f i j <= g i j) -> fl_sum a f t <= fl_sum a g t.
Proof. induction t as [i j|l IHl r IHr]; cbn [over fl_sum]; [auto|]. intros [H1 H2]. apply M. apply Rplus_le_compat; auto. Qed.
Lemma sum_ext f g t : over t (fun i j => f i j = g i j) -> fl_sum a f t = fl_sum a g t.
Proof. induction t as [i j|l IHl r IHr]; cbn [over fl_sum]; [auto|]. intros [H1 H2]. rewrite IHl, IHr by assumption. reflexivity. Qed.
Lemma over_imp (P Q : nat -> nat -> Prop) t : over t P -> (forall i j, P i j -> Q i j) -> over t Q.
Proof. intros HP HQ. induction t; cbn [over] in *; [auto|]. destruct HP. auto. Qed.
Lemma sum_0 t : fl_sum a (fun _ _ => 0) t = 0.
Proof. induction t as [i j|l IHl r IHr]; cbn [fl_sum]; [reflexivity|]. rewrite IHl, IHr, Rplus_0_l. exact Z0. Qed.
Section Power.
Variables (u' eta' : R) (B' : Z) (H' : arithmetic u' eta' B' (dbl a)) (HB' : (2 ^ 22 <= B')%Z).
Lemma times_mono w s s' area : 0 <= area -> s <= s' -> fl_times a w s area <= fl_times a w s' area.
Proof.
  intros Ha Hs. destruct w; cbn [fl_times]; [apply M|apply (ar_monotone _ _ _ _ H')]; apply Rmult_le_compat_r; try assumption. rewrite <- Z0. apply M, Ha.
Qed.
Lemma times_0 w area : fl_times a w 0 area = 0.
Proof. destruct w; cbn [fl_times]; rewrite Rmult_0_l; [exact Z0|]. apply (fl_0 _ _ _ _ H'). lia. Qed.
Variables (field : nat -> nat -> C) (area : R) (w : promotion) (t : summation).
Hypotheses (Hf : over t (fun i j => representable (rnd a) (field i j))) (Ha : 0 <= area).
Lemma power_ge0 fi : 0 <= fl_power a w area fi t.
Proof.
  unfold fl_power. rewrite <- (times_0 w area). apply times_mono; [exact Ha|]. rewrite <- (sum_0 t). apply sum_mono. apply (over_imp _ _ t Hf). intros. apply intensity_ge0.
Qed.
Lemma grey_passive g : over t (fun i j => 0 <= g i j <= 1) -> fl_power a w area (fun i j => fl_cmul a (field i j) (grey_factor (g i j))) t <= fl_power a w area field t.
Proof.
  intros Hg. unfold fl_power.
  apply times_mono; [exact Ha|]. apply sum_mono. assert (Hb : over t (fun i j => representable (rnd a) (field i j) /\ 0 <= g i j <= 1)).
  { clear Ha. induction t; cbn [over] in *; [auto|]. destruct Hf, Hg. auto. }
  apply (over_imp _ _ t Hb). intros i j [F G]. rewrite grey_product by exact F.
  apply intensity_mono; cbn [fst snd]; apply part_shrinks; try exact G; apply F.
Qed.
Lemma bool_power s : fl_power a w area (fun i j => fl_cmul a (field i j) (bool_factor (s i j))) t =
  fl_times a w (fl_sum a (fun i j => if s i j then fl_intensity a (field i j) else 0) t) area.
Proof.
  unfold fl_power. f_equal. apply sum_ext. apply (over_imp _ _ t Hf). intros i j F. rewrite bool_product by exact F. destruct (s i j); [reflexivity|apply intensity_0].
Qed.
Lemma more_mirrors s s' : over t (fun i j => s i j = true -> s' i j = true) ->
  fl_power a w area (fun i j => fl_cmul a (field i j) (bool_factor (s i j))) t <= fl_power a w area (fun i j => fl_cmul a (field i j) (bool_factor (s' i j))) t.
Proof.
  intros Hs. rewrite !bool_power. apply times_mono; [exact Ha|]. apply sum_mono. apply (over_imp _ _ t Hs). intros i j Q.
  assert (G := intensity_ge0 (field i j)). destruct (s i j); [rewrite Q by reflexivity; lra|destruct (s' i j); lra].
Qed.
Lemma all_on s : over t (fun i j => s i j = true) -> fl_power a w area (fun i j => fl_cmul a (field i j) (bool_factor (s i j))) t = fl_power a w area field t.
Proof.
  intros Hs. rewrite bool_power. unfold fl_power. f_equal. apply sum_ext. apply (over_imp _ _ t Hs). intros i j E. rewrite E. reflexivity.
Qed.
Lemma all_off s : over t (fun i j => s i j = false) -> fl_power a w area (fun i j => fl_cmul a (field i j) (bool_factor (s i j))) t = 0.
Proof.
  intros Hs. rewrite bool_power. rewrite (sum_ext _ (fun _ _ => 0)), sum_0; [apply times_0|]. apply (over_imp _ _ t Hs). intros i j E. rewrite E. reflexivity.
Qed.
End Power.
End Range.
