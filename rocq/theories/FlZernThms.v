(** Theorems on the rounding errors of Zernike modes in the form they are stated in PropsFlZern.v. *)
From Coq Require Import Reals ZArith List Bool Lia Lra Psatz.
From Flocq Require Import Core.
From Verif Require Import Cx Sums PyBase ProfileModel ZernSpec ZernBound ZernThms AnaSpec AnaFacts AnalysisModel FloatModel FloatSpec FloatFacts FloatFacts4 FlSimSpec FlSimFacts FlAnaModel FlAnaSpec FlAnaFacts FlAnaFacts2 FlAnaFacts3 FlAnaThms FlZernModel FlZernSpec FlZernFacts FlZernFacts2.
Import ListNotations.
Open Scope R_scope.

Lemma modes u eta B w xi B'' l q ea ec ny nx radius n m nrm coef :
  arithmetic u eta B (z_rnd l) -> arithmetic w xi B'' (flt q) -> (2 ^ 44 <= B'')%Z -> 0 <= u <= 1 / 8 -> 0 <= eta -> accurate_zlib l ea ec -> 0 <= ea -> 0 <= ec ->
  (Z.of_nat ny * Z.of_nat ny + Z.of_nat nx * Z.of_nat nx <= B)%Z -> (Z.of_nat ny <= 2 ^ 20)%Z -> (Z.of_nat nx <= 2 ^ 20)%Z -> (Z.abs m <= B)%Z ->
  0 < radius -> eta <= u / 2 -> eta <= u * radius -> 8 * eta * radius <= u -> zvalid n m -> stored_coefficients u n m coef -> stored_norm u l n m nrm ->
  evaluates (off_rim l ny nx radius) ny nx radius false (mode_error u eta ea ec (Z.to_nat n) m (weight (zern_coef n m)) (znorm n m true)) n m (fl_mode q l ny nx radius n m nrm false coef).
Proof. intros A A'' HB'' Hu He L Hea Hec HB Hy Hx Hm HR E1 E2 E3 V. apply (modes_close u eta B l q w xi B''); assumption. Qed.
Lemma znorm_ge1 n m : zvalid n m -> 1 <= znorm n m true.
Proof. intros [H _]. assert (0 <= IZR n) by (apply IZR_le; lia). unfold znorm. rewrite <- sqrt_1 at 1. destruct (m =? 0)%Z; apply sqrt_le_1; lra. Qed.
Lemma norm_sqrt n m : znorm n m true = sqrt (if (m =? 0)%Z then IZR (n + 1) else IZR (2 * n + 2)).
Proof. unfold znorm. destruct (m =? 0)%Z; rewrite ?plus_IZR, ?mult_IZR; reflexivity. Qed.
Lemma norm_stored u eta B w xi B'' l q n m : arithmetic u eta B (z_rnd l) -> arithmetic w xi B'' (flt q) -> 0 <= w <= u -> u <= 1 / 8 -> 0 <= xi <= u / 2 -> 0 <= eta <= u / 2 -> zvalid n m -> stored_norm u l n m (fl_norm q n m).
Proof.
  intros A A'' Hw Hu Hxi He V. unfold stored_norm, fl_norm. rewrite <- norm_sqrt. pose proof (znorm_ge1 n m V) as S1. set (s := znorm n m true) in *.
  pose proof (ar_error _ _ _ _ A'' s) as E. rewrite (Rabs_pos_eq s) in E by lra. pose proof (rnd_err u eta B (z_rnd l) A ltac:(lra) _ _ _ E) as K. rewrite (Rabs_pos_eq s) in K by lra. eapply Rle_trans; [exact K|].
  assert (w * s <= u * s) by (apply Rmult_le_compat_r; lra). assert (xi <= u / 2 * s) by (assert (u / 2 * 1 <= u / 2 * s) by (apply Rmult_le_compat_l; lra); lra). assert (eta <= u / 2 * s) by (assert (u / 2 * 1 <= u / 2 * s) by (apply Rmult_le_compat_l; lra); lra).
  assert (u * (s + (w * s + xi)) <= u * (s + 3 / 2 * u * s)) by (apply Rmult_le_compat_l; lra). assert (0 <= u * s) by (apply Rmult_le_pos; lra). assert (u * (u * s) <= 1 / 8 * (u * s)) by (apply Rmult_le_compat_r; lra). lra.
Qed.
Lemma coef_00 : zern_coef 0 0 = [1].
Proof. unfold zern_coef. change (Z.abs 0) with 0%Z. change ((0 - 0) / 2 + 1)%Z with 1%Z. change (Z.to_nat (0 + 1)) with 1%nat. change (Z.to_nat 1) with 1%nat. cbn [seq repeat zern_fill Z.of_nat]. unfold zern_entry. cbn. unfold Pos.to_nat. cbn. f_equal. field. Qed.
Lemma coef_1 m : m = 1%Z \/ m = (-1)%Z -> zern_coef 1 m = [1; 0].
Proof. intros H. unfold zern_coef. replace (Z.abs m) with 1%Z by (destruct H; subst; reflexivity). change ((1 - 1) / 2 + 1)%Z with 1%Z. change (Z.to_nat 1) with 1%nat. change (Z.to_nat (1 + 1)) with 2%nat. cbn [seq repeat zern_fill Z.of_nat]. unfold zern_entry. cbn. unfold Pos.to_nat. cbn. f_equal. field. Qed.
Lemma coef_20 : zern_coef 2 0 = [2; 0; -1].
Proof. unfold zern_coef. change (Z.abs 0) with 0%Z. change ((2 - 0) / 2 + 1)%Z with 2%Z. change (Z.to_nat 2) with 2%nat. change (Z.to_nat (2 + 1)) with 3%nat. cbn [seq repeat zern_fill Z.of_nat]. unfold zern_entry. cbn. unfold Pos.to_nat. cbn. f_equal; [field|]. f_equal. f_equal. field. Qed.
Lemma trivial_coef n m : In (n, m) [(0, 0); (1, -1); (1, 1); (2, 0)]%Z -> zvalid n m /\ (Z.abs m <= 1)%Z /\ (Z.to_nat n <= 2)%nat /\ weight (zern_coef n m) <= 3 /\ 0 <= weight (zern_coef n m) /\ znorm n m true <= 2.
Proof.
  assert (S1 : sqrt (0 + 1) <= 2) by (rewrite Rplus_0_l, sqrt_1; lra). assert (S2 : sqrt (2 * 1 + 2) <= 2) by (rewrite sqrt4; lra). assert (S3 : sqrt (2 + 1) <= 2) by (replace 2 with (sqrt (2 * 1 + 2)) at 2 by apply sqrt4; apply sqrt_le_1; lra).
  cbn [In]. intros [E|[E|[E|[E|[]]]]]; injection E as <- <-; (split; [split; [lia|reflexivity]|]); (split; [lia|]); (split; [lia|]).
  - rewrite coef_00. unfold weight. cbn [fold_right]. rewrite Rabs_R1. split; [lra|]. split; [lra|]. unfold znorm. cbn [Z.eqb]. exact S1.
  - rewrite coef_1 by (right; reflexivity). unfold weight. cbn [fold_right]. rewrite Rabs_R1, Rabs_R0. split; [lra|]. split; [lra|]. unfold znorm. cbn [Z.eqb]. exact S2.
  - rewrite coef_1 by (left; reflexivity). unfold weight. cbn [fold_right]. rewrite Rabs_R1, Rabs_R0. split; [lra|]. split; [lra|]. unfold znorm. cbn [Z.eqb]. exact S2.
  - rewrite coef_20. unfold weight. cbn [fold_right]. replace (-1) with (- (1)) by lra. rewrite Rabs_Ropp, Rabs_R1, Rabs_R0, (Rabs_pos_eq 2) by lra. split; [lra|]. split; [lra|]. unfold znorm. cbn [Z.eqb]. exact S3.
Qed.
Lemma small_error u eta ea ec n m L s : 0 < u <= 1 / 10000 -> 0 <= eta <= u / 100 -> 0 <= ea <= 8 * u -> 0 <= ec <= 8 * u -> (Z.abs m <= 1)%Z -> (n <= 2)%nat -> 0 <= L <= 3 -> 0 <= s <= 2 ->
  0 <= mode_error u eta ea ec n m L s <= 500 * u.
Proof.
  intros Hu He Ha Hc Hm Hn HL Hs.
  assert (Pw : forall k, (k <= 11)%nat -> 1 <= (1 + 4 * u) ^ k <= 1 + 4.1 * INR k * u).
  { intros k Hk. split; [apply pow_R1_Rle; lra|]. induction k as [|k IH]; [cbn; lra|]. specialize (IH ltac:(lia)). cbn [pow]. rewrite S_INR. assert (K0 := pos_INR k). assert (K1 : INR k <= 11) by (replace 11 with (INR 11) by (cbn; lra); apply le_INR; lia).
    assert ((1 + 4 * u) * (1 + 4 * u) ^ k <= (1 + 4 * u) * (1 + 4.1 * INR k * u)) by (apply Rmult_le_compat_l; lra). assert (INR k * u <= 11 * (1 / 10000)) by (apply Rmult_le_compat; lra). assert (u * (INR k * u) <= u * (11 * (1 / 10000))) by (apply Rmult_le_compat_l; lra). lra. }
  pose proof PI_RGT_0 as P0. pose proof PI_4 as P4. assert (M : 0 <= IZR (Z.abs m) <= 1) by (split; apply IZR_le; lia).
  assert (Hq : 0 <= angular_error u eta ea ec m <= 21 * u).
  { unfold angular_error, rounded. set (M' := IZR (Z.abs m)) in *. assert (0 <= M' * PI <= 4) by (split; [apply Rmult_le_pos; lra|]; replace 4 with (1 * 4) by ring; apply Rmult_le_compat; lra). assert (0 <= M' * ea <= 8 * u) by (split; [apply Rmult_le_pos; lra|]; replace (8 * u) with (1 * (8 * u)) by ring; apply Rmult_le_compat; lra).
    assert (0 <= u * (M' * PI + M' * ea)) by (apply Rmult_le_pos; lra). assert (u * (M' * PI + M' * ea) <= u * 4.1) by (apply Rmult_le_compat_l; lra). lra. }
  assert (Hr : 0 <= radial_error u eta n L <= 140 * u).
  { unfold radial_error. pose proof (Pw (1 + 5 * n)%nat ltac:(lia)) as W1. pose proof (Pw (5 * n)%nat ltac:(lia)) as W2. assert (N0 := pos_INR n). assert (N2 : INR n <= 2) by (replace 2 with (INR 2) by (cbn; lra); apply le_INR; lia).
    assert (I1 : INR (1 + 5 * n) = 1 + 5 * INR n) by (rewrite plus_INR, mult_INR; cbn; lra). assert (I2 : INR (5 * n) = 5 * INR n) by (rewrite mult_INR; cbn; lra). rewrite I1 in W1. rewrite I2 in W2.
    assert (INR n * u <= 2 * u) by (apply Rmult_le_compat_r; lra). set (p1 := (1 + 4 * u) ^ (1 + 5 * n)) in *. set (p2 := (1 + 4 * u) ^ (5 * n)) in *.
    assert (0 <= (p1 - 1) * L <= 45.1 * u * 3) by (split; [apply Rmult_le_pos; lra|apply Rmult_le_compat; lra]). assert (q1 : 0 <= 3 * INR n * p2 <= 7) by (split; [apply Rmult_le_pos; lra|]; assert (INR n * p2 <= 2 * 1.1) by (apply Rmult_le_compat; lra); lra).
    assert (0 <= 3 * INR n * p2 * eta <= 7 * (u / 100)) by (split; [apply Rmult_le_pos; lra|apply Rmult_le_compat; lra]). lra. }
  unfold mode_error. set (e0 := radial_error u eta n L) in *. set (eq := angular_error u eta ea ec m) in *. unfold rounded. cbv zeta.
  set (er := e0 + u * (1 + e0) + eta). assert (Er : 0 <= er <= 142 * u). { unfold er. assert (0 <= u * (1 + e0)) by (apply Rmult_le_pos; lra). assert (u * (1 + e0) <= u * 1.1) by (apply Rmult_le_compat_l; lra). lra. }
  assert (Eq : 0 <= er * eq <= u). { split; [apply Rmult_le_pos; lra|]. assert (er * eq <= 142 * u * (21 * u)) by (apply Rmult_le_compat; lra). assert (u * u <= u * (1 / 10000)) by (apply Rmult_le_compat_l; lra). lra. }
  set (ez := er * (1 + eq) + eq + u * (1 + (er * (1 + eq) + eq)) + eta). assert (Ez : 0 <= ez <= 166 * u). { unfold ez. set (t := er * (1 + eq) + eq). assert (T : 0 <= t <= 164 * u) by (unfold t; lra). assert (0 <= u * (1 + t)) by (apply Rmult_le_pos; lra). assert (u * (1 + t) <= u * 1.1) by (apply Rmult_le_compat_l; lra). lra. }
  set (t := 4 * u * s * (1 + ez) + s * ez). assert (T : 0 <= t <= 345 * u).
  { unfold t. assert (0 <= s * ez <= 2 * (166 * u)) by (split; [apply Rmult_le_pos; lra|apply Rmult_le_compat; lra]). assert (0 <= u * s <= u * 2) by (split; [apply Rmult_le_pos; lra|apply Rmult_le_compat_l; lra]). assert (0 <= u * s * (1 + ez) <= u * 2 * 1.1) by (split; [apply Rmult_le_pos; lra|apply Rmult_le_compat; lra]). lra. }
  assert (0 <= u * (s + t)) by (apply Rmult_le_pos; lra). assert (u * (s + t) <= u * 2.1) by (apply Rmult_le_compat_l; lra). lra.
Qed.
(** Tilts, piston and defocus: at most 500 u. *)
Lemma trivial_modes u eta B w xi B'' l q ea ec ny nx radius n m coef :
  arithmetic u eta B (z_rnd l) -> arithmetic w xi B'' (flt q) -> (2 ^ 44 <= B'')%Z -> 0 < u <= 1 / 10000 -> 0 <= w <= u -> 0 <= xi <= u / 2 -> 0 <= eta <= u / 100 -> accurate_zlib l ea ec -> 0 <= ea <= 8 * u -> 0 <= ec <= 8 * u ->
  (Z.of_nat ny * Z.of_nat ny + Z.of_nat nx * Z.of_nat nx <= B)%Z -> (1 <= B)%Z -> (Z.of_nat ny <= 2 ^ 20)%Z -> (Z.of_nat nx <= 2 ^ 20)%Z ->
  0 < radius -> eta <= u * radius -> 8 * eta * radius <= u -> In (n, m) [(0, 0); (1, -1); (1, 1); (2, 0)]%Z -> stored_coefficients u n m coef ->
  evaluates (off_rim l ny nx radius) ny nx radius false (500 * u) n m (fl_mode q l ny nx radius n m (fl_norm q n m) false coef).
Proof.
  intros A A'' HB'' Hu Hw Hxi He L Ha Hc HB HB1 Hy Hx HR E2 E3 In SC. destruct (trivial_coef n m In) as (V & m1 & n2 & W3 & W0 & N2). pose proof (znorm_pos n m V) as N0.
  intros z Hz i j Hi Hj G. eapply Rle_trans; [apply (modes u eta B w xi B'' l q ea ec ny nx radius n m (fl_norm q n m) coef) with (i := i) (j := j); try eassumption; try lra; try lia|].
  - apply (norm_stored u eta B w xi B''); try assumption; lra.
  - apply small_error; try assumption; lra.
Qed.
Lemma removal_double q l h ny nx radius t coef F f (d : bool) g : flt q = binary64 -> np q = binary64 -> sc q = binary64 -> z_rnd l = binary64 -> accurate_zlib l (/ 2 ^ 50) (/ 2 ^ 50) ->
  (forall n m, In (n, m) [(0, 0); (1, -1); (1, 1); (2, 0)]%Z -> coef n m = zern_coef n m) ->
  (Z.of_nat ny <= 2 ^ 20)%Z -> (Z.of_nat nx <= 2 ^ 20)%Z -> / 2 ^ 1000 <= radius <= 2 ^ 1000 -> clear_radius q ny nx radius -> adds_selected q ny nx radius t -> (depth t <= 50)%nat -> / 2 ^ 1000 <= F ->
  (forall i j, (i < ny)%nat -> (j < nx)%nat -> Rabs (f i j) <= F) ->
  remove_trivial_phase h ny nx f radius d = Ok (Some g) ->
  forall i j, (i < ny)%nat -> (j < nx)%nat -> off_rim l ny nx radius i j -> Rabs (fl_removal q l ny nx radius t coef f d i j - g i j) <= F / 2 ^ 29.
Proof.
  intros Q1 Q2 Q3 Q4 L Co Hy Hx HR CR AS Dp HF0 HF E i j Hi Hj G. pose proof binary64_arithmetic as A.
  assert (P : forall n, 0 < / 2 ^ n) by (intros; apply Rinv_0_lt_compat, pow_lt; lra). assert (Pm : forall n m, (m <= n)%nat -> / 2 ^ n <= / 2 ^ m). { intros n m Le. apply Rinv_le_contravar; [apply pow_lt; lra|]. apply Rle_pow; [lra|exact Le]. }
  assert (F0 : 0 < F) by (pose proof (P 1000%nat); lra). assert (R0' : 0 < radius) by (pose proof (P 1000%nat); lra).
  assert (et : forall k, (k <= 75)%nat -> forall X, / 2 ^ 1000 <= X -> / 2 ^ 1075 <= / 2 ^ k * X). { intros k Hk X HX. apply Rle_trans with (/ 2 ^ k * / 2 ^ 1000). - rewrite <- Rinv_mult, <- pow_add. apply Pm. lia. - apply Rmult_le_compat_l; [apply Rlt_le, P|exact HX]. }
  assert (U : / 2 ^ 53 <= 1 / 10000). { apply Rle_trans with (/ 2 ^ 14); [apply Pm; lia|]. replace (2 ^ 14) with 16384 by ring. lra. }
  assert (e500 : 500 * / 2 ^ 53 <= / 2 ^ 44). { replace (2 ^ 53) with (512 * 2 ^ 44) by ring. rewrite Rinv_mult. pose proof (P 44%nat). lra. }
  assert (Et : / 2 ^ 1075 <= / 2 ^ 53 / 100). { apply Rle_trans with (/ 2 ^ 60); [apply Pm; lia|]. replace (2 ^ 60) with (128 * 2 ^ 53) by ring. rewrite Rinv_mult. pose proof (P 53%nat). lra. }
  pose proof (P 53%nat) as P53. pose proof (P 1075%nat) as P1075. pose proof (P 50%nat) as P50. assert (P50' : / 2 ^ 50 <= 8 * / 2 ^ 53). { replace (2 ^ 53) with (8 * 2 ^ 50) by ring. rewrite Rinv_mult. lra. }
  assert (K : Rabs (fl_removal q l ny nx radius t coef f d i j - g i j) <= (if d then 17600 else 2700) * / 2 ^ 44 * F).
  { unfold fl_removal. apply (removal (/ 2 ^ 53) (/ 2 ^ 1075) (2 ^ 53) (/ 2 ^ 53) (/ 2 ^ 1075) (2 ^ 53) (/ 2 ^ 53) (/ 2 ^ 1075) (2 ^ 53) q h ny nx radius t _ (off_rim l ny nx radius) (/ 2 ^ 44) (/ 2 ^ 44) F f d g); try assumption; try lia; try (rewrite ?Q1, ?Q2, ?Q3; exact A); try (apply Rlt_le, P).
    - intros i0 j0 I. left. apply in_inside in I. lra.
    - split; [apply Rlt_le, P|lra].
    - apply Rle_trans with (/ 2 ^ 10); [apply Pm; lia|]. replace (2 ^ 10) with 1024 by ring. lra.
    - apply Pm. lia.
    - apply Pm. lia.
    - eapply Rle_trans; [apply small_pow; lia|]. apply Pm. lia.
    - apply et; [lia|exact HF0].
    - apply et; [lia|exact HF0].
    - intros; apply HF; assumption.
    - intros n m I. assert (I' : In (n, m) [(0, 0); (1, -1); (1, 1); (2, 0)]%Z) by (destruct d; cbn [app In] in *; tauto).
      intros z Hz i0 j0 Hi0 Hj0 G0. eapply Rle_trans; [|exact e500]. apply (trivial_modes (/ 2 ^ 53) (/ 2 ^ 1075) (2 ^ 53) (/ 2 ^ 53) (/ 2 ^ 1075) (2 ^ 53) l q (/ 2 ^ 50) (/ 2 ^ 50) ny nx radius n m (coef n m)); try assumption; try lra; try lia; try (rewrite ?Q1, ?Q4; exact A).
      + nia.
      + rewrite (Co n m I'). unfold stored_coefficients. clear - P53. induction (zern_coef n m) as [|c cs IH]; constructor; [|exact IH]. unfold near. replace (c - c) with 0 by ring. rewrite Rabs_R0. pose proof (Rabs_pos c). assert (0 <= 4 * / 2 ^ 53 * Rabs c) by (apply Rmult_le_pos; lra). lra. }
  eapply Rle_trans; [exact K|]. replace (2 ^ 44) with (32768 * 2 ^ 29) by ring. rewrite Rinv_mult. pose proof (P 29%nat). unfold Rdiv. rewrite (Rmult_comm F). apply Rmult_le_compat_r; [lra|]. destruct d; lra.
Qed.
(** A correctly rounded library. *)
Definition rounded_lib : zlib := {| z_rnd := binary64; z_atan2 := fun y x => binary64 (atan2 y x); z_cos := fun t => binary64 (cos t); z_sin := fun t => binary64 (sin t) |}.
Lemma rounded_lib_accurate : accurate_zlib rounded_lib (/ 2 ^ 50) (/ 2 ^ 50).
Proof.
  pose proof binary64_arithmetic as A. assert (P : forall n, 0 < / 2 ^ n) by (intros; apply Rinv_0_lt_compat, pow_lt; lra).
  assert (e1 : / 2 ^ 53 * 4 + / 2 ^ 1075 <= / 2 ^ 50). { assert (/ 2 ^ 1075 <= / 2 ^ 53) by (apply Rinv_le_contravar; [apply pow_lt; lra|apply Rle_pow; [lra|lia]]). replace (2 ^ 53) with (8 * 2 ^ 50) in * by ring. rewrite Rinv_mult in *. pose proof (P 50%nat). lra. }
  assert (K : forall x, Rabs x <= 4 -> Rabs (binary64 x - x) <= / 2 ^ 50). { intros x H. pose proof (ar_error _ _ _ _ A x). assert (/ 2 ^ 53 * Rabs x <= / 2 ^ 53 * 4) by (apply Rmult_le_compat_l; [apply Rlt_le, P|exact H]). lra. }
  pose proof PI_4 as P4. split; cbn [rounded_lib z_atan2 z_cos z_sin].
  - intros x y. exists (atan2 y x). pose proof (atan2_range y x) as At. assert (Ab : Rabs (atan2 y x) <= PI) by (apply Rabs_le; lra). split; [exact Ab|]. split; [symmetry; apply atan2_cos|]. split; [symmetry; apply atan2_sin|]. apply K. lra.
  - intros t. apply K. pose proof (cos_abs t). lra.
  - intros t. apply K. pose proof (sin_abs t). lra.
Qed.
Lemma coords_99 : let q := Build_numerics binary64 binary64 binary64 in z_rnd rounded_lib (fl_ana_x q 9 7) = px 9 7 /\ z_rnd rounded_lib (fl_ana_y q 9 2) = py 9 2 /\
  z_rnd rounded_lib (z_rnd rounded_lib (px 9 7 ^ 2) + z_rnd rounded_lib (py 9 2 ^ 2)) = px 9 7 ^ 2 + py 9 2 ^ 2.
Proof.
  intros q. assert (A := binary64_arithmetic). assert (H0 : (2 ^ 44 <= 2 ^ 53)%Z) by lia. assert (H1 : (Z.of_nat 9 * Z.of_nat 9 + Z.of_nat 9 * Z.of_nat 9 <= 2 ^ 53)%Z) by (cbn; lia). assert (H2 : (Z.of_nat 9 <= 2 ^ 20)%Z) by lia. assert (H3 : (2 < 9)%nat) by lia. assert (H4 : (7 < 9)%nat) by lia.
  destruct (coordinates (/ 2 ^ 53) (/ 2 ^ 1075) (2 ^ 53) rounded_lib q (/ 2 ^ 53) (/ 2 ^ 1075) (2 ^ 53) A A H0 9 9 H1 H2 H2 2 7 H3 H4) as (X & Y & Sx & _). split; [exact X|]. split; [exact Y|exact Sx].
Qed.
(** Radius the double nearest to the square root of 13: it is too small, but the pixel with x = 3, y = 2 is kept. *)
Lemma kept_pixel : let q := Build_numerics binary64 binary64 binary64 in let r := IZR 8118979690322419 / 2 ^ 51 in
  binary64 r = r /\ r ^ 2 < dist_sq 9 9 2 7 /\ fl_mode q rounded_lib 9 9 r 0 0 (fl_norm q 0 0) false [1] 2 7 = 1 /\ (forall z, samples_mode 9 9 r 0 0 false z -> z 2%nat 7%nat = 0).
Proof.
  intros q r. pose proof binary64_arithmetic as A.
  assert (D : dist_sq 9 9 2 7 = 13) by (unfold dist_sq, px, py; cbn [INR]; field).
  assert (R0' : 0 < r). { unfold r. apply Rmult_lt_0_compat; [lra|apply Rinv_0_lt_compat, pow_lt; lra]. }
  assert (E51 : 2 ^ 51 = 2251799813685248) by (rewrite pow_IZR; reflexivity).
  assert (B : binary64 r = r) by (apply (ar_exact _ _ _ _ A); lia).
  assert (R2 : r ^ 2 < 13). { unfold r. rewrite E51. lra. }
  assert (S1 : sqrt 13 < (8118979690322419 + 1 / 2) / 2251799813685248). { rewrite <- (sqrt_pow2 ((8118979690322419 + 1 / 2) / 2251799813685248)) by lra. apply sqrt_lt_1; lra. }
  assert (S2 : (8118979690322419 - 1 / 2) / 2251799813685248 < sqrt 13). { rewrite <- (sqrt_pow2 ((8118979690322419 - 1 / 2) / 2251799813685248)) at 1 by lra. apply sqrt_lt_1; lra. }
  assert (Bs : binary64 (sqrt 13) = r).
  { pose proof (nearest64 (sqrt 13) 8118979690322419 (-51)) as N. rewrite N; [|lia| |].
    - unfold r. rewrite E51. change (bpow radix2 (-51)) with (/ 2251799813685248). reflexivity.
    - change (bpow radix2 (-51)) with (/ 2251799813685248). replace (2 ^ 52) with 4503599627370496 by (rewrite pow_IZR; reflexivity). replace (2 ^ 53) with 9007199254740992 by (rewrite pow_IZR; reflexivity). split; lra.
    - change (bpow radix2 (- -51)) with 2251799813685248. apply Rabs_def1; lra. }
  split; [exact B|]. split; [rewrite D; exact R2|]. split.
  - destruct coords_99 as (X & Y & Sx). fold q in X, Y.
    unfold fl_mode. rewrite X, Y. unfold fl_zern_value, fl_rho. rewrite Sx. change (px 9 7 ^ 2 + py 9 2 ^ 2) with (dist_sq 9 9 2 7). rewrite D. cbn [rounded_lib z_rnd]. rewrite Bs, B. replace (r / r) with 1 by (field; lra).
    assert (B1 : binary64 1 = 1) by apply (r1 (/ 2 ^ 53) (/ 2 ^ 1075) (2 ^ 53) rounded_lib A ltac:(lia)). rewrite B1. destruct (Rlt_dec 1 1) as [K|_]; [lra|]. cbn [Z.eqb andb]. unfold fl_norm. cbn [Z.eqb]. change (0 + 1)%Z with 1%Z. rewrite sqrt_1. change (flt q 1) with (binary64 1). repeat rewrite ?B1, ?Rmult_1_r. reflexivity.
  - intros z Hz. rewrite (mode_00 9 9 r z R0' Hz) by lia. unfold disc. rewrite D. destruct (Rle_dec 13 (r ^ 2)) as [K|_]; [lra|reflexivity].
Qed.
Lemma case_removal : let q := Build_numerics binary64 binary64 binary64 in let t := Added (Added (Pixel 0 0) (Pixel 0 1)) (Pixel 0 2) in
  accurate_zlib rounded_lib (/ 2 ^ 50) (/ 2 ^ 50) /\ clear_radius q 1 3 2 /\ adds_selected q 1 3 2 t /\ (depth t <= 50)%nat /\ (forall j, (j < 3)%nat -> off_rim rounded_lib 1 3 2 0 j).
Proof.
  intros q t. destruct case_13 as (C & S & Dp). split; [exact rounded_lib_accurate|]. split; [exact C|]. split; [exact S|]. split; [exact Dp|]. intros j Hj. left.
  assert (H : j = 0%nat \/ j = 1%nat \/ j = 2%nat) by lia. unfold dist_sq, px, py. destruct H as [-> | [-> | ->]]; cbn [INR]; lra.
Qed.
Lemma decomposition_modes u eta B v theta B' w xi B'' l q ea ec h ny nx radius t coef e Zm F f T :
  arithmetic u eta B (z_rnd l) -> arithmetic u eta B (np q) -> arithmetic v theta B' (sc q) -> arithmetic w xi B'' (flt q) -> (2 ^ 44 <= B'')%Z -> 0 <= u <= 1 / 8 -> 0 <= w <= u -> 0 <= xi <= u / 2 -> 0 <= eta <= u / 2 -> 0 <= v -> 0 <= theta ->
  accurate_zlib l ea ec -> 0 <= ea -> 0 <= ec -> (Z.of_nat ny * Z.of_nat ny + Z.of_nat nx * Z.of_nat nx <= B)%Z -> (Z.of_nat T <= B)%Z -> (Z.of_nat ny <= 2 ^ 20)%Z -> (Z.of_nat nx <= 2 ^ 20)%Z ->
  0 < radius -> eta <= u * radius -> 8 * eta * radius <= u -> clear_radius q ny nx radius -> adds_selected q ny nx radius t -> 0 <= e -> 0 <= Zm ->
  (forall i j, (i < ny)%nat -> (j < nx)%nat -> off_rim l ny nx radius i j -> Rabs (f i j) <= F) -> (9 + 8 * (Z.of_nat T - 1) <= 2 ^ 53)%Z ->
  (forall k n m, (k < T)%nat -> zvalid n m -> (2 * Z.of_nat k = n * (n + 2) + m)%Z -> stored_coefficients u n m (coef n m) /\ mode_error u eta ea ec (Z.to_nat n) m (weight (zern_coef n m)) (znorm n m true) <= e /\ znorm n m true <= Zm) ->
  let er := coefficient_error u eta (depth t) F Zm e in
  exists cs g csf gf, zernike_decomposition h ny nx f radius (Z.of_nat T) false = Ok (map Some cs, Some g) /\ fl_zern_decomposition q l ny nx radius t coef f (Z.of_nat T) = Ok (csf, gf) /\ length cs = T /\
    Forall2 (fun c c' => Rabs (c' - c) <= er) cs csf /\
    (forall i j, (i < ny)%nat -> (j < nx)%nat -> off_rim l ny nx radius i j -> Rabs (gf i j - g i j) <= reconstruction_error w xi (term_error v theta (F * Zm) er Zm e) (F * Zm * Zm) T).
Proof.
  intros Al An As Af HB Hu Hw Hxi He Hv Hth L Ha Hc HB1 HT Hy Hx Hr Er1 Er2 CR AS He0 HZ HF HT2 HM er.
  apply (decomposition u eta B v theta B' w xi B'' q h ny nx radius t _ (off_rim l ny nx radius) false e Zm F f T); try assumption; try lra.
  - intros i j I. left. apply in_inside in I. lra.
  - intros k n m Hk V E. destruct (HM k n m Hk V E) as (S1 & S2 & S3). split.
    + intros z Hz i j Hi Hj G. eapply Rle_trans; [|exact S2]. apply (modes u eta B w xi B'' l q ea ec ny nx radius n m (fl_norm q n m) (coef n m)); try assumption; try lra.
      * destruct V as (V1 & V2). clear - V1 E HT Hk. assert (n <= Z.of_nat k \/ n <= 0)%Z by nia. lia.
      * apply (norm_stored u eta B w xi B'' l q n m); try assumption; lra.
    + intros z Hz i j Hi Hj G. eapply Rle_trans; [|exact S3]. apply (bounded_modes ny nx radius n m V Hr z Hz i j Hi Hj I).
Qed.
(** Three terms: piston and tilts. *)
Lemma three_terms u eta ea ec k n m : 0 < u <= 1 / 10000 -> 0 <= eta <= u / 100 -> 0 <= ea <= 8 * u -> 0 <= ec <= 8 * u -> (k < 3)%nat -> zvalid n m -> (2 * Z.of_nat k = n * (n + 2) + m)%Z ->
  stored_coefficients u n m (zern_coef n m) /\ mode_error u eta ea ec (Z.to_nat n) m (weight (zern_coef n m)) (znorm n m true) <= 500 * u /\ znorm n m true <= 2.
Proof.
  intros Hu He Ha Hc Hk V E. assert (I' : In (n, m) [(0, 0); (1, -1); (1, 1); (2, 0)]%Z). { destruct V as (V1 & V3). assert (n <= 1)%Z by (clear - V1 E Hk; nia). assert (n = 0 \/ n = 1)%Z by lia. cbn [In]. destruct H0 as [-> | ->]; [left; f_equal; lia|]. assert (m = -1 \/ m = 1)%Z as [-> | ->] by (assert (m = -1 \/ m = 0 \/ m = 1)%Z as [-> | [-> | ->]] by lia; [tauto|discriminate V3|tauto]); tauto. }
  destruct (trivial_coef n m I') as (_ & T1 & T2 & T3 & T4 & T5). split; [|split; [|exact T5]].
  - unfold stored_coefficients. clear - Hu. induction (zern_coef n m) as [|c cs IH]; constructor; [|exact IH]. unfold near. replace (c - c) with 0 by ring. rewrite Rabs_R0. pose proof (Rabs_pos c). assert (0 <= 4 * u * Rabs c) by (apply Rmult_le_pos; lra). lra.
  - apply small_error; try assumption; try lra. pose proof (znorm_ge1 n m V). lra.
Qed.
