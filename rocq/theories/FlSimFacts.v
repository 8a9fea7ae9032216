(** Error bounds for the powers of a rounded simulation (C103). *)
From Coq Require Import Reals Lra Psatz ZArith Arith List Bool Lia Permutation.
From Coquelicot Require Import Complex.
From Verif Require Import Cx Sums DFT GridFacts SimModel SimSpec SimFacts FloatModel FloatSpec FloatFacts FloatFacts2 FloatFacts3 FloatLink FlSimModel FlSimSpec NormFacts.
Open Scope R_scope.

Lemma near_add e d d' x x' y y' : 0 <= x -> 0 <= x' -> near e d x y -> near e d' x' y' -> near e (d + d') (x + x') (y + y').
Proof.
  unfold near. intros Hx Hx' H H'. rewrite (Rabs_pos_eq x) in H by exact Hx. rewrite (Rabs_pos_eq x') in H' by exact Hx'. rewrite (Rabs_pos_eq (x + x')) by lra.
  replace (y + y' - (x + x')) with (y - x + (y' - x')) by ring. eapply Rle_trans; [apply Rabs_triang|]. lra.
Qed.
Lemma pow_ge_1 v k : 0 <= v -> 1 <= (1 + v) ^ k. Proof. intros. apply pow_R1_Rle. lra. Qed.
Lemma pow_grows v v' k k' : 0 <= v <= v' -> (k <= k')%nat -> (1 + v) ^ k <= (1 + v') ^ k'.
Proof. intros Hv Hk. apply Rle_trans with ((1 + v') ^ k); [apply pow_incr; lra|apply Rle_pow; [lra|exact Hk]]. Qed.
(** near with relative error (1 + v)^k - 1. *)
Lemma near_pow v k k' d d' x y z : 0 <= v -> near ((1 + v) ^ k - 1) d x y -> near ((1 + v) ^ k' - 1) d' y z -> near ((1 + v) ^ (k + k') - 1) (d * (1 + v) ^ k' + d') x z.
Proof.
  intros Hv H1 H2. pose proof (pow_ge_1 v k' Hv) as P. pose proof (near_trans ((1 + v) ^ k - 1) d ((1 + v) ^ k' - 1) d' x y z ltac:(lra) H1 H2) as T. rewrite pow_add.
  replace ((1 + v) ^ k * (1 + v) ^ k' - 1) with ((1 + ((1 + v) ^ k - 1)) * (1 + ((1 + v) ^ k' - 1)) - 1) by ring.
  replace (d * (1 + v) ^ k') with (d * (1 + ((1 + v) ^ k' - 1))) by ring. exact T.
Qed.
Lemma near_one v e d x y : e <= v -> near e d x y -> near ((1 + v) ^ 1 - 1) d x y.
Proof. intros He. apply near_weaken; lra. Qed.
Lemma near_mult v k k' x x' y y' : 0 <= v -> near ((1 + v) ^ k - 1) 0 x x' -> near ((1 + v) ^ k' - 1) 0 y y' -> near ((1 + v) ^ (k + k') - 1) 0 (x * y) (x' * y').
Proof.
  intros Hv H1 H2. replace 0 with (0 * (1 + v) ^ k' + 0) by ring. apply (near_pow v k k' 0 0 _ (x' * y)); [exact Hv|apply near_factor, H1|].
  rewrite !(Rmult_comm x'). apply near_factor, H2.
Qed.
Lemma near_inv v x y : 0 <= v <= 1 / 2 -> 0 < x -> near (v / 2) 0 x y -> near ((1 + v) ^ 1 - 1) 0 (/ x) (/ y) /\ 0 < y.
Proof.
  unfold near. intros Hv Hx H. rewrite (Rabs_pos_eq x) in H by lra. apply Rcomplements.Rabs_le_between in H. assert (Hy : x / 2 < y) by nra. assert (Py : 0 < y) by lra. split; [|exact Py].
  assert (Ix : 0 < / x) by (apply Rinv_0_lt_compat, Hx). rewrite (Rabs_pos_eq (/ x)) by lra. replace ((1 + v) ^ 1 - 1) with v by ring. rewrite Rplus_0_r.
  replace (/ y - / x) with (/ x * ((x - y) / y)) by (field; lra). rewrite Rabs_mult, (Rabs_pos_eq (/ x)), (Rmult_comm v) by lra. apply Rmult_le_compat_l; [lra|].
  unfold Rdiv. rewrite Rabs_mult, Rabs_inv, (Rabs_pos_eq y) by lra. apply Rmult_le_reg_r with y; [exact Py|]. rewrite Rmult_assoc, Rinv_l, Rmult_1_r by lra. apply Rabs_le. nra.
Qed.

Section Bounds.
Variables (a : fpu) (u eta u' eta' : R) (B B' : Z).
Hypotheses (H : arithmetic u eta B (rnd a)) (HB : (2 ^ 22 <= B)%Z) (H' : arithmetic u' eta' B' (dbl a)) (HB' : (2 ^ 40 <= B')%Z).
Hypotheses (Hu : 0 <= u <= 1 / 8) (He : 0 <= eta) (Hu' : u' <= u) (He' : eta' <= eta).
Let Z0 : rnd a 0 = 0. Proof. apply (fl_0 _ _ _ _ H). lia. Qed.
Let HB22 : (2 ^ 22 <= B')%Z. Proof. lia. Qed.

Lemma near_rnd x : near u eta x (rnd a x). Proof. exact (ar_error _ _ _ _ H x). Qed.
Lemma near_dbl x : near u eta x (dbl a x).
Proof. apply (near_weaken u' eta'); try assumption. exact (ar_error _ _ _ _ H' x). Qed.
Lemma normal_rnd x : eta <= u * Rabs x -> near (2 * u) 0 x (rnd a x).
Proof. intros E. pose proof (near_rnd x) as N. unfold near in *. lra. Qed.
Lemma normal_dbl x : eta <= u * Rabs x -> near (2 * u) 0 x (dbl a x).
Proof. intros E. pose proof (near_dbl x) as N. unfold near in *. lra. Qed.

(** ** Sums and powers *)
Lemma intensity_near z : near ((1 + u) ^ 2 - 1) (4 * eta) (Cmod z ^ 2) (fl_intensity a z).
Proof.
  assert (E : Cmod z ^ 2 = fst z ^ 2 + snd z ^ 2). { unfold Cmod. rewrite pow2_sqrt; [reflexivity|]. assert (P1 := pow2_ge_0 (fst z)). assert (P2 := pow2_ge_0 (snd z)). lra. }
  rewrite E. unfold fl_intensity. pose proof (near_add u eta eta _ _ _ _ (pow2_ge_0 (fst z)) (pow2_ge_0 (snd z)) (near_rnd _) (near_rnd _)) as N.
  pose proof (near_trans _ _ _ _ _ _ _ (proj1 Hu) N (near_rnd _)) as T. eapply near_weaken; [| |exact T]; [lra|nra].
Qed.
Lemma lsum_ge_0 f l : (forall i j, 0 <= f i j) -> 0 <= lsum f l.
Proof. intros Hf. induction l as [|[i j] l IH]; cbn [lsum fold_right]; [unfold lsum; cbn; lra|]. unfold lsum in *. cbn. specialize (Hf i j). lra. Qed.
Lemma sum_near e d f g t : 0 <= e -> 0 <= d -> (forall i j, 0 <= f i j) -> (forall i j, near e d (f i j) (g i j)) ->
  near ((1 + e) * (1 + u) ^ depth t - 1) ((INR (length (pixels t)) * d + (INR (length (pixels t)) - 1) * eta) * (1 + u) ^ depth t) (lsum f (pixels t)) (fl_sum a g t).
Proof.
  intros Hpe Hpd Hf Hg. induction t as [i j|l IHl r IHr].
  - cbn [depth pixels length INR fl_sum pow]. unfold lsum. cbn. rewrite Rplus_0_r. eapply near_weaken; [| |apply Hg]; lra.
  - cbn [depth pixels fl_sum]. rewrite lsum_app, app_length, plus_INR.
    set (m := Nat.max (depth l) (depth r)) in *. pose proof (pow_ge_1 u m (proj1 Hu)) as Pm.
    assert (N1 : forall t, (1 <= length (pixels t))%nat). { induction t; cbn [pixels length]; [lia|]. rewrite app_length. lia. }
    assert (Nl := N1 l). assert (Nr := N1 r). apply le_INR in Nl, Nr. cbn [INR] in Nl, Nr.
    assert (W : forall t, (depth t <= m)%nat -> 1 <= INR (length (pixels t)) -> near ((1 + e) * (1 + u) ^ depth t - 1) ((INR (length (pixels t)) * d + (INR (length (pixels t)) - 1) * eta) * (1 + u) ^ depth t) (lsum f (pixels t)) (fl_sum a g t) ->
      near ((1 + e) * (1 + u) ^ m - 1) ((INR (length (pixels t)) * d + (INR (length (pixels t)) - 1) * eta) * (1 + u) ^ m) (lsum f (pixels t)) (fl_sum a g t)).
    { intros t D N. pose proof (pow_grows u u _ _ (conj (proj1 Hu) (Rle_refl u)) D) as G. apply near_weaken.
      - assert ((1 + e) * (1 + u) ^ depth t <= (1 + e) * (1 + u) ^ m) by (apply Rmult_le_compat_l; lra). lra.
      - apply Rmult_le_compat_l; [|exact G]. assert (0 <= INR (length (pixels t)) * d) by (apply Rmult_le_pos; lra). assert (0 <= (INR (length (pixels t)) - 1) * eta) by (apply Rmult_le_pos; lra). lra. }
    apply W in IHl; [|unfold m; lia|exact Nl]. apply W in IHr; [|unfold m; lia|exact Nr].
    pose proof (near_add _ _ _ _ _ _ _ (lsum_ge_0 f _ Hf) (lsum_ge_0 f _ Hf) IHl IHr) as A. pose proof (near_trans _ _ _ _ _ _ _ (proj1 Hu) A (near_rnd _)) as T.
    eapply near_weaken; [| |exact T]; cbn [pow]; [lra|].
    assert (1 <= (1 + u) ^ m * (1 + u)) by nra. assert (eta <= eta * ((1 + u) ^ m * (1 + u))) by nra. lra.
Qed.
Lemma power_sum_near ny nx f t : each_once ny nx t ->
  near ((1 + u) ^ (depth t + 2) - 1) (5 * INR (ny * nx) * eta * (1 + u) ^ depth t) (rsum2 ny nx (fun i j => Cmod (f i j) ^ 2)) (fl_sum a (fun i j => fl_intensity a (f i j)) t).
Proof.
  intros P. assert (L : length (pixels t) = (ny * nx)%nat) by (rewrite (Permutation_length P), prod_length, !seq_length; reflexivity).
  pose proof (pow_ge_1 u 2 (proj1 Hu)) as P2.
  pose proof (sum_near ((1 + u) ^ 2 - 1) (4 * eta) (fun i j => Cmod (f i j) ^ 2) (fun i j => fl_intensity a (f i j)) t ltac:(lra) ltac:(lra) (fun i j => pow2_ge_0 _) (fun i j => intensity_near _)) as S.
  rewrite (lsum_perm _ _ _ P), lsum_all, L in S. eapply near_weaken; [| |exact S].
  - rewrite pow_add. lra.
  - pose proof (pow_ge_1 u (depth t) (proj1 Hu)). apply Rmult_le_compat_r; [lra|]. assert (0 <= INR (ny * nx)) by apply pos_INR. nra.
Qed.
Lemma times_near w s area : 0 <= s -> 0 <= area -> eta <= u * area -> near ((1 + 4 * u) ^ 2 - 1) eta (s * area) (fl_times a w s area) /\ 0 <= fl_times a w s area.
Proof.
  intros Hs Ha E. split; [|rewrite <- (times_0 a u eta B H HB u' eta' B' H' HB22 w area); apply (times_mono a u eta B H HB u' eta' B' H'); assumption].
  destruct w; cbn [fl_times].
  - assert (N := normal_rnd area ltac:(rewrite Rabs_pos_eq; assumption)).
    apply (near_factor _ _ _ s) in N. rewrite !(Rmult_comm _ s) in N. pose proof (near_trans _ _ _ _ _ _ _ (proj1 Hu) N (near_rnd _)) as T.
    eapply near_weaken; [| |exact T]; [nra|lra].
  - eapply near_weaken; [| |apply near_dbl]; [nra|lra].
Qed.
(** The reported power of a field, with any pixel area. *)
Lemma power_near w ny nx f t area : each_once ny nx t -> 0 <= area -> eta <= u * area ->
  near ((1 + 4 * u) ^ (depth t + 4) - 1) ((1 + 4 * u) ^ (depth t + 2) * (5 * INR (ny * nx) * eta * area + eta)) (field_power ny nx area f) (fl_power a w area f t) /\ 0 <= fl_power a w area f t.
Proof.
  intros P Ha E. assert (S0 : 0 <= fl_sum a (fun i j => fl_intensity a (f i j)) t).
  { rewrite <- (sum_0 a u eta B H HB t). apply (sum_mono a u eta B H). clear P. induction t as [i j|l IHl r IHr]; cbn [over]; [apply (intensity_ge0 a u eta B H HB)|auto]. }
  destruct (times_near w _ area S0 Ha E) as [T Q]. split; [|exact Q]. unfold field_power, fl_power.
  pose proof (power_sum_near ny nx f t P) as S. apply (near_scal area) in S. rewrite !(Rmult_comm area), (Rabs_pos_eq area) in S by exact Ha.
  apply (near_weaken _ _ ((1 + 4 * u) ^ (depth t + 2) - 1) (area * (5 * INR (ny * nx) * eta * (1 + 4 * u) ^ depth t))) in S;
    [| apply Rplus_le_compat_r, pow_grows; [lra|lia] |
       apply Rmult_le_compat_l; [exact Ha|]; apply Rmult_le_compat_l; [apply Rmult_le_pos; [apply Rmult_le_pos; [lra|apply pos_INR]|exact He]|apply pow_grows; [lra|lia]] ].
  pose proof (near_pow (4 * u) _ _ _ _ _ _ _ ltac:(lra) S T) as N. replace (depth t + 2 + 2)%nat with (depth t + 4)%nat in N by lia. eapply near_weaken; [apply Rle_refl| |exact N].
  rewrite pow_add. pose proof (pow_ge_1 (4 * u) (depth t) ltac:(lra)) as G. pose proof (pow_ge_1 (4 * u) 2 ltac:(lra)) as G2.
  assert (eta <= (1 + 4 * u) ^ depth t * (1 + 4 * u) ^ 2 * eta). { assert (1 <= (1 + 4 * u) ^ depth t * (1 + 4 * u) ^ 2) by nra. nra. }
  lra.
Qed.

(** ** The constants *)
Lemma normal_bounds x y : 0 < x -> near (2 * u) 0 x y -> 3 / 4 * x <= y <= 5 / 4 * x.
Proof. unfold near. intros Hx Q. rewrite (Rabs_pos_eq x) in Q by lra. apply Rcomplements.Rabs_le_between in Q. nra. Qed.
Lemma step_dbl k x y : 0 < y -> eta <= u * y -> near ((1 + 4 * u) ^ k - 1) 0 x y -> near ((1 + 4 * u) ^ (k + 1) - 1) 0 x (dbl a y) /\ 3 / 4 * y <= dbl a y <= 5 / 4 * y.
Proof.
  intros Hy E Q. assert (D := normal_dbl y ltac:(rewrite Rabs_pos_eq by lra; exact E)). split; [|apply normal_bounds; assumption].
  replace 0 with (0 * (1 + 4 * u) ^ 1 + 0) by ring. apply (near_pow (4 * u) k 1 0 0 x y); [lra|exact Q|]. apply (near_one _ (2 * u)); [lra|exact D].
Qed.
Variables (ny nx : nat) (ps sf : R).
Let N := INR (ny * nx).
Hypotheses (Hny : (0 < ny)%nat) (Hnx : (0 < nx)%nat) (HN : (Z.of_nat (ny * nx) <= 2 ^ 40)%Z) (Hps : 0 < ps) (Hsf : 0 < sf) (FU : far_from_underflow u eta ny nx ps sf).
Let N1 : 1 <= N. Proof. unfold N. change 1 with (INR 1). apply le_INR. nia. Qed.
Let NE : dbl a N = N. Proof. unfold N. rewrite INR_IZR_INZ. apply (fl_int _ _ _ _ H'). lia. Qed.
Let P2 : 0 < ps ^ 2. Proof. apply pow_lt, Hps. Qed.
Let S2 : 0 < sf ^ 2. Proof. apply pow_lt, Hsf. Qed.
Lemma area_near : near ((1 + 4 * u) ^ 1 - 1) 0 (ps ^ 2) (fl_fourier_area a ps) /\ near ((1 + 4 * u) ^ 1 - 1) 0 (/ ps ^ 2) (/ fl_fourier_area a ps) /\ 3 / 4 * ps ^ 2 <= fl_fourier_area a ps <= 5 / 4 * ps ^ 2.
Proof.
  unfold fl_fourier_area. assert (E : eta <= u * ps ^ 2 / 4) by (inversion FU; assumption). assert (0 <= u * ps ^ 2) by nra.
  assert (D := normal_dbl (ps ^ 2) ltac:(rewrite Rabs_pos_eq by lra; lra)). split; [apply (near_one _ (2 * u)); [lra|exact D]|]. split; [|apply normal_bounds; assumption].
  apply near_inv; [lra|exact P2|]. replace (4 * u / 2) with (2 * u) by lra. exact D.
Qed.
Lemma factor_near : near ((1 + 4 * u) ^ 4 - 1) 0 (N * ps ^ 2 / sf) (rnd a (fl_norm_factor a ny nx ps sf)).
Proof.
  destruct area_near as (A1 & _ & A2). unfold far_from_underflow in FU. fold N in FU. unfold fl_norm_factor. fold N. rewrite NE. set (f := fl_fourier_area a ps) in *. clearbody f.
  assert (E1 : eta <= u * ps ^ 2 / 4) by (inversion FU; assumption). assert (E2 : eta <= u * (N * ps ^ 2 / sf) / 4) by (do 4 apply Forall_inv_tail in FU; exact (Forall_inv FU)).
  assert (Pf : 0 < f) by lra. assert (PNf : 0 < N * f) by nra. assert (I : 0 < / sf) by (apply Rinv_0_lt_compat, Hsf).
  assert (Q1 : near ((1 + 4 * u) ^ 1 - 1) 0 (N * ps ^ 2) (N * f)) by (rewrite !(Rmult_comm N); apply near_factor, A1).
  assert (G1 : 3 / 4 * (N * ps ^ 2) <= N * f) by nra. assert (0 <= u * (N * f - ps ^ 2 / 4)) by (apply Rmult_le_pos; [lra|nra]).
  destruct (step_dbl 1 (N * ps ^ 2) (N * f) PNf ltac:(lra) Q1) as [D1 R1]. set (c1 := dbl a (N * f)) in *. clearbody c1.
  assert (Q2 : near ((1 + 4 * u) ^ 2 - 1) 0 (N * ps ^ 2 / sf) (c1 / sf)) by (apply near_factor, D1). assert (Pc1 : 0 < c1 / sf) by (apply Rmult_lt_0_compat; lra).
  assert (G2 : 9 / 16 * (N * ps ^ 2 / sf) <= c1 / sf). { unfold Rdiv. replace (9 * / 16 * (N * ps ^ 2 * / sf)) with (9 / 16 * (N * ps ^ 2) * / sf) by (unfold Rdiv; ring). apply Rmult_le_compat_r; lra. }
  assert (PX : 0 < N * ps ^ 2 / sf) by (apply Rmult_lt_0_compat; [nra|exact I]). set (X := N * ps ^ 2 / sf) in *. clearbody X.
  assert (0 <= u * (c1 / sf - X / 4)) by (apply Rmult_le_pos; lra).
  destruct (step_dbl 2 X (c1 / sf) Pc1 ltac:(lra) Q2) as [D2 R2]. set (c2 := dbl a (c1 / sf)) in *. clearbody c2. assert (Pc2 : 0 < c2) by lra.
  assert (0 <= u * (c2 - X / 4)) by (apply Rmult_le_pos; lra).
  replace 0 with (0 * (1 + 4 * u) ^ 1 + 0) by ring. apply (near_pow (4 * u) 3 1 0 0 X c2); [lra|exact D2|]. apply (near_one _ (2 * u)); [lra|]. apply normal_rnd. rewrite Rabs_pos_eq by lra. lra.
Qed.
Lemma image_area_near : near ((1 + 4 * u) ^ 4 - 1) 0 (sf ^ 2 / N / ps ^ 2) (fl_image_area a ny nx ps sf) /\ eta <= u * fl_image_area a ny nx ps sf /\ 0 <= fl_image_area a ny nx ps sf.
Proof.
  destruct area_near as (_ & A1 & A2). unfold far_from_underflow in FU. fold N in FU. unfold fl_image_area. fold (fl_fourier_area a ps). fold N. rewrite NE. set (f := fl_fourier_area a ps) in *. clearbody f.
  assert (E1 : eta <= u * sf ^ 2 / 4) by (do 1 apply Forall_inv_tail in FU; exact (Forall_inv FU)).
  assert (E2 : eta <= u * (sf ^ 2 / N) / 4) by (do 2 apply Forall_inv_tail in FU; exact (Forall_inv FU)).
  assert (E3 : eta <= u * (sf ^ 2 / N / ps ^ 2) / 4) by (do 3 apply Forall_inv_tail in FU; exact (Forall_inv FU)).
  assert (IN : 0 < / N) by (apply Rinv_0_lt_compat; lra). assert (IP : 0 < / ps ^ 2) by (apply Rinv_0_lt_compat; lra). assert (Pf : 0 < f) by lra. assert (If : 0 < / f) by (apply Rinv_0_lt_compat; lra).
  assert (0 <= u * sf ^ 2) by nra.
  destruct (step_dbl 0 (sf ^ 2) (sf ^ 2) S2 ltac:(lra)) as [D1 R1]. { unfold near. rewrite Rminus_diag_eq, Rabs_R0 by reflexivity. cbn [pow]. lra. }
  set (s1 := dbl a (sf ^ 2)) in *. clearbody s1. assert (Q2 : near ((1 + 4 * u) ^ (0 + 1) - 1) 0 (sf ^ 2 / N) (s1 / N)) by (apply near_factor, D1).
  assert (G2 : 3 / 4 * (sf ^ 2 / N) <= s1 / N). { unfold Rdiv. replace (3 * / 4 * (sf ^ 2 * / N)) with (3 / 4 * sf ^ 2 * / N) by (unfold Rdiv; ring). apply Rmult_le_compat_r; lra. }
  assert (PY : 0 < sf ^ 2 / N) by (apply Rmult_lt_0_compat; assumption). set (Y := sf ^ 2 / N) in *. clearbody Y. assert (0 <= u * (s1 / N - Y / 4)) by (apply Rmult_le_pos; lra).
  destruct (step_dbl (0 + 1) Y (s1 / N) ltac:(lra) ltac:(lra) Q2) as [D2 R2]. set (s2 := dbl a (s1 / N)) in *. clearbody s2.
  assert (Q3 : near ((1 + 4 * u) ^ (0 + 1 + 1 + 1) - 1) 0 (Y / ps ^ 2) (s2 / f)) by (apply near_mult; [lra|exact D2|exact A1]).
  assert (PY2 : 0 < Y / ps ^ 2) by (apply Rmult_lt_0_compat; assumption).
  assert (G3 : 9 / 20 * (Y / ps ^ 2) <= s2 / f).
  { apply Rle_trans with (9 / 16 * Y * / (5 / 4 * ps ^ 2)); [right; field; lra|]. apply Rmult_le_compat; [lra|left; apply Rinv_0_lt_compat; lra|lra|]. apply Rinv_le_contravar; lra. }
  set (X := Y / ps ^ 2) in *. clearbody X. assert (0 <= u * (s2 / f - X / 4)) by (apply Rmult_le_pos; lra).
  destruct (step_dbl (0 + 1 + 1 + 1) X (s2 / f) ltac:(lra) ltac:(lra) Q3) as [D3 R3]. set (s3 := dbl a (s2 / f)) in *. clearbody s3.
  split; [exact D3|]. assert (0 <= u * (s3 - X / 4)) by (apply Rmult_le_pos; lra). split; lra.
Qed.

(** ** The image *)
Lemma round_norm n m f : norm n m (fun i j => (rnd a (fst (f i j)), rnd a (snd (f i j))) - f i j)%C <= u * norm n m f + 2 * sqrt (INR (n * m)) * eta.
Proof.
  apply Rle_trans with (norm n m (fun i j => RtoC (u * Cmod (f i j) + 2 * eta))).
  - apply norm_mod.
    + intros i j _ _. generalize (f i j). intros [x y]. cbn [fst snd]. assert (E1 := near_rnd x). assert (E2 := near_rnd y). unfold near in E1, E2.
      assert (Q : Cmod ((rnd a x, rnd a y) - (x, y))%C <= Cmod (u * Rabs x + eta, u * Rabs y + eta)).
      { unfold Cmod. apply sqrt_le_1_alt. unfold Cminus, Cplus, Copp. cbn [fst snd]. apply Rplus_le_compat; rewrite <- pow2_abs; apply pow_incr; (split; [apply Rabs_pos|]); assumption. }
      eapply Rle_trans; [exact Q|]. change (u * Rabs x + eta, u * Rabs y + eta) with (Cplus (u * Rabs x, u * Rabs y) (eta, eta)). eapply Rle_trans; [apply Cmod_triangle|].
      apply Rplus_le_compat.
      * right. replace (u * Rabs x, u * Rabs y) with (RtoC u * (Rabs x, Rabs y))%C by (unfold RtoC, Cmult; cbn [fst snd]; f_equal; ring).
        rewrite Cmod_mult, Cmod_R, (Rabs_pos_eq u) by lra. f_equal. unfold Cmod. cbn [fst snd]. rewrite !pow2_abs. reflexivity.
      * unfold Cmod. cbn [fst snd]. rewrite <- (sqrt_pow2 (2 * eta)) by lra. apply sqrt_le_1_alt. nra.
    + intros i j. assert (G := Cmod_ge_0 (f i j)). nra.
  - rewrite (norm_ext n m _ (fun i j => RtoC (Cmod (f i j)) * RtoC u + RtoC (2 * eta))%C) by (intros; rewrite <- RtoC_mult, <- RtoC_plus; f_equal; ring).
    eapply Rle_trans; [apply minkowski|]. rewrite norm_scal, norm_const, (Rabs_pos_eq u) by lra.
    replace (norm n m (fun i j => RtoC (Cmod (f i j)))) with (norm n m f); [lra|].
    unfold norm. f_equal. apply rsum2_ext. intros i j _ _. rewrite Cmod_R, Rabs_pos_eq by apply Cmod_ge_0. reflexivity.
Qed.
Lemma cmul_real z c : fl_cmul a z (RtoC c) = (rnd a (fst (z * RtoC c)%C), rnd a (snd (z * RtoC c)%C)).
Proof.
  unfold fl_cmul, RtoC, Cmult. cbn [fst snd]. rewrite !Rmult_0_r, Z0, !Rminus_0_r, !Rplus_0_l, !(ar_stable _ _ _ _ H). reflexivity.
Qed.
Lemma norm_shift n m f : norm n m (fftshift2 n m f) = norm n m f.
Proof. unfold norm. f_equal. apply (rsum2_fftshift n m (fun i j => Cmod (f i j) ^ 2)). Qed.
Lemma norm_cnorm n m f : norm n m f = sqrt (rsum2 n m (fun i j => cnorm2 (f i j))).
Proof. unfold norm. f_equal. apply rsum2_Cmod. Qed.
Let K := N * ps ^ 2 / sf.
Let A := sf ^ 2 / N / ps ^ 2.
Let IS : 0 < / sf. Proof. apply Rinv_0_lt_compat, Hsf. Qed.
Let IPs : 0 < / ps. Proof. apply Rinv_0_lt_compat, Hps. Qed.
Let IN : 0 < / N. Proof. apply Rinv_0_lt_compat. lra. Qed.
Let PK : 0 < K. Proof. unfold K. apply Rmult_lt_0_compat; [nra|exact IS]. Qed.
Let PA : 0 < A. Proof. unfold A. apply Rmult_lt_0_compat; [apply Rmult_lt_0_compat; assumption|apply Rinv_0_lt_compat, P2]. Qed.
Let SA : sqrt A = sf / ps * / sqrt N.
Proof.
  assert (SN : 0 < sqrt N) by (apply sqrt_lt_R0; lra). rewrite <- (sqrt_pow2 (sf / ps * / sqrt N)).
  - f_equal. unfold A. rewrite !Rpow_mult_distr, pow_inv, pow2_sqrt by lra. unfold Rdiv. rewrite Rpow_mult_distr, pow_inv. field. split; lra.
  - apply Rmult_le_pos; [apply Rmult_le_pos; lra|left; apply Rinv_0_lt_compat, SN].
Qed.
Let SN : 0 < sqrt N. Proof. apply sqrt_lt_R0. lra. Qed.
Lemma exact_image out : sqrt A * (K * norm ny nx (fftshift2 ny nx (ifft2 ny nx (ifftshift2 ny nx out)))) = sqrt (field_power ny nx (ps ^ 2) out).
Proof.
  assert (E := image_energy ny nx out K Hny Hnx).
  assert (Q : K * norm ny nx (fftshift2 ny nx (ifft2 ny nx (ifftshift2 ny nx out))) = sqrt (K ^ 2 / N * rsum2 ny nx (fun i j => cnorm2 (out i j)))).
  { unfold N. rewrite <- E, <- norm_cnorm, norm_scal, (Rabs_pos_eq K) by lra. reflexivity. }
  assert (G : 0 <= rsum2 ny nx (fun i j => cnorm2 (out i j))) by (rewrite <- rsum2_Cmod; apply sumsq_ge_0).
  rewrite Q, <- sqrt_mult; [|lra|apply Rmult_le_pos; [apply Rmult_le_pos; [apply pow2_ge_0|lra]|exact G]]. f_equal. unfold field_power. rewrite rsum2_Cmod. unfold A, K. field. repeat split; lra.
Qed.
Lemma sqrt_field_power area f : 0 <= area -> sqrt (field_power ny nx area f) = norm ny nx f * sqrt area.
Proof. intros Ha. unfold field_power, norm. apply sqrt_mult; [apply sumsq_ge_0|exact Ha]. Qed.
Lemma underflow_term k r c area : 0 <= r -> 0 <= area -> 0 <= c -> area <= (1 + 4 * u) ^ k * r ^ 2 -> N * r ^ 2 = c ^ 2 ->
  forall m, sqrt ((1 + 4 * u) ^ m * (5 * N * eta * area + eta)) <= (1 + 4 * u) ^ (m + k) * (sqrt eta * (3 * c + 1)).
Proof.
  intros Hr Ha Hc Hk HNr m. assert (G := pow_ge_1 (4 * u) k ltac:(lra)). assert (G2 := pow_ge_1 (4 * u) m ltac:(lra)).
  assert (G3 := pow_ge_1 (4 * u) (m + k) ltac:(lra)).
  apply Rle_trans with (sqrt (((1 + 4 * u) ^ (m + k)) ^ 2 * (eta * (3 * c + 1) ^ 2))).
  - apply sqrt_le_1_alt. apply Rle_trans with ((1 + 4 * u) ^ (m + k) * (eta * (3 * c + 1) ^ 2)).
    + rewrite pow_add, (Rmult_assoc ((1 + 4 * u) ^ m)). apply Rmult_le_compat_l; [lra|].
      assert (L : 5 * N * eta * area <= 5 * eta * ((1 + 4 * u) ^ k * c ^ 2)).
      { rewrite <- HNr. replace (5 * eta * ((1 + 4 * u) ^ k * (N * r ^ 2))) with (5 * N * eta * ((1 + 4 * u) ^ k * r ^ 2)) by ring. apply Rmult_le_compat_l; [|exact Hk]. assert (0 <= N * eta) by (apply Rmult_le_pos; lra). lra. }
      assert (0 <= eta * c ^ 2) by (apply Rmult_le_pos; [exact He|apply pow2_ge_0]). assert (0 <= eta * c) by (apply Rmult_le_pos; assumption).
      assert (eta <= (1 + 4 * u) ^ k * eta) by nra. assert (0 <= (1 + 4 * u) ^ k * (eta * c ^ 2)) by (apply Rmult_le_pos; lra). assert (0 <= (1 + 4 * u) ^ k * (eta * c)) by (apply Rmult_le_pos; lra).
      replace ((1 + 4 * u) ^ k * (eta * (3 * c + 1) ^ 2)) with (9 * ((1 + 4 * u) ^ k * (eta * c ^ 2)) + 6 * ((1 + 4 * u) ^ k * (eta * c)) + (1 + 4 * u) ^ k * eta) by ring. lra.
    + apply Rmult_le_compat_r; [apply Rmult_le_pos; [exact He|apply pow2_ge_0]|]. nra.
  - right. rewrite sqrt_mult; [|apply pow2_ge_0|apply Rmult_le_pos; [exact He|apply pow2_ge_0]]. rewrite sqrt_pow2 by lra. f_equal. rewrite sqrt_mult by (try exact He; apply pow2_ge_0). rewrite sqrt_pow2 by lra. reflexivity.
Qed.
Lemma near_upper e x y : 0 <= x -> near e 0 x y -> y <= (1 + e) * x.
Proof. unfold near. intros Hx Q. rewrite (Rabs_pos_eq x) in Q by exact Hx. apply Rcomplements.Rabs_le_between in Q. lra. Qed.
Theorem output_power_near w out t : each_once ny nx t ->
  near ((1 + 4 * u) ^ (depth t + 5) - 1) ((1 + 4 * u) ^ (depth t + 5) * (sqrt eta * (3 * (ps * sqrt N) + 1))) (sqrt (field_power ny nx (ps ^ 2) out)) (sqrt (fl_output_power a w ps out t)).
Proof.
  intros T. destruct area_near as (A1 & _ & A2). assert (E : eta <= u * ps ^ 2 / 4) by (inversion FU; assumption). unfold fl_output_power. set (f := fl_fourier_area a ps) in *. clearbody f.
  assert (0 <= u * (f - ps ^ 2 / 4)) by (apply Rmult_le_pos; lra). assert (0 <= u * ps ^ 2) by (apply Rmult_le_pos; lra).
  destruct (power_near w ny nx out t f T ltac:(lra) ltac:(lra)) as [Q G]. fold N in Q.
  assert (V := pow_ge_1 (4 * u) (depth t + 4) ltac:(lra)). assert (V2 := pow_ge_1 (4 * u) (depth t + 2) ltac:(lra)). assert (V3 := pow_ge_1 (4 * u) (depth t + 5) ltac:(lra)).
  apply near_sqrt in Q; [|lra|apply Rmult_le_pos; [lra|]; assert (0 <= N * eta * f) by (apply Rmult_le_pos; [apply Rmult_le_pos; lra|lra]); lra|unfold field_power; apply Rmult_le_pos; [apply sumsq_ge_0|lra]|exact G].
  rewrite !sqrt_field_power in * by lra.
  assert (S1 : near ((1 + 4 * u) ^ 1 - 1) 0 (norm ny nx out * sqrt (ps ^ 2)) (norm ny nx out * sqrt f)).
  { rewrite !(Rmult_comm (norm ny nx out)). apply near_factor. eapply near_weaken; [apply Rle_refl|right; exact sqrt_0|]. apply near_sqrt; try lra. exact A1. }
  pose proof (near_pow (4 * u) 1 (depth t + 4) 0 _ _ _ _ ltac:(lra) S1 Q) as R. replace (1 + (depth t + 4))%nat with (depth t + 5)%nat in R by lia.
  eapply near_weaken; [apply Rle_refl| |exact R]. rewrite Rmult_0_l, Rplus_0_l.
  eapply Rle_trans; [apply (underflow_term 1 ps (ps * sqrt N)); try lra|].
  - apply Rmult_le_pos; lra.
  - apply near_upper in A1; [|lra]. lra.
  - rewrite Rpow_mult_distr, pow2_sqrt by lra. ring.
  - apply Rmult_le_compat_r; [apply Rmult_le_pos; [apply sqrt_pos|assert (0 <= ps * sqrt N) by (apply Rmult_le_pos; lra); lra]|apply pow_grows; [lra|lia]].
Qed.
Theorem image_power_near w F e d out t : each_once ny nx t -> 0 <= e -> 0 <= d -> accurate a e d ny nx (F ny nx) ->
  (forall i j, (i < ny)%nat -> (j < nx)%nat -> representable (rnd a) (out i j)) ->
  near ((1 + e) * (1 + 4 * u) ^ (depth t + 13) - 1) ((1 + 4 * u) ^ (depth t + 13) * (ps * sqrt N * d + 2 * (sf / ps) * eta + sqrt eta * (3 * (sf / ps) + 1)))
    (sqrt (field_power ny nx (ps ^ 2) out)) (sqrt (fl_image_power a w ny nx ps sf (fl_to_image a F ny nx ps sf out) t)).
Proof.
  intros T Hpe Hpd HF HR. destruct image_area_near as (A1 & A2 & A3). pose proof factor_near as K1. fold A in A1. fold K in K1. unfold fl_image_power, fl_to_image.
  set (Ah := fl_image_area a ny nx ps sf) in *. assert (PKh : 0 <= rnd a (fl_norm_factor a ny nx ps sf)).
  { apply (fl_pos _ _ _ _ H); [lia|]. unfold fl_norm_factor, fl_fourier_area. fold N. rewrite NE. apply (fl_pos _ _ _ _ H'); [lia|]. apply Rmult_le_pos; [|lra]. apply (fl_pos _ _ _ _ H'); [lia|].
    apply Rmult_le_pos; [lra|]. apply (fl_pos _ _ _ _ H'); [lia|]. lra. }
  set (Kh := rnd a (fl_norm_factor a ny nx ps sf)) in *. clearbody Kh Ah.
  set (Y := fftshift2 ny nx (ifft2 ny nx (ifftshift2 ny nx out))). set (y1 := fftshift2 ny nx (F ny nx (ifftshift2 ny nx out))).
  set (y2 := fun i j => fl_cmul a (y1 i j) (RtoC Kh)).
  (* the transform *)
  assert (N1' : near e d (norm ny nx Y) (norm ny nx y1)).
  { unfold Y, y1. rewrite !norm_shift. apply near_norm. apply HF. intros i j Hi Hj. unfold ifftshift2. apply HR; apply Nat.mod_upper_bound; lia. }
  apply (near_scal K) in N1'. rewrite (Rabs_pos_eq K) in N1' by lra.
  (* the factor *)
  assert (N2 : near ((1 + 4 * u) ^ 4 - 1) 0 (K * norm ny nx y1) (Kh * norm ny nx y1)) by (apply near_factor, K1).
  (* its product *)
  assert (N3 : near ((1 + 4 * u) ^ 1 - 1) (2 * sqrt N * eta) (Kh * norm ny nx y1) (norm ny nx y2)).
  { replace (Kh * norm ny nx y1) with (norm ny nx (fun i j => y1 i j * RtoC Kh)%C) by (rewrite norm_scal, Rabs_pos_eq by exact PKh; reflexivity).
    apply (near_one _ u); [lra|]. apply near_norm. unfold y2. rewrite (norm_ext ny nx _ (fun i j => (rnd a (fst (y1 i j * RtoC Kh)%C), rnd a (snd (y1 i j * RtoC Kh)%C)) - y1 i j * RtoC Kh)%C) by (intros; rewrite cmul_real; reflexivity).
    apply round_norm. }
  pose proof (near_pow (4 * u) 4 1 _ _ _ _ _ ltac:(lra) N2 N3) as N4. rewrite Rmult_0_l, Rplus_0_l in N4.
  assert (V5 := pow_ge_1 (4 * u) (4 + 1) ltac:(lra)). pose proof (near_trans e (K * d) ((1 + 4 * u) ^ (4 + 1) - 1) (2 * sqrt N * eta) _ _ _ ltac:(lra) N1' N4) as N5.
  apply (near_scal (sqrt A)) in N5. rewrite (Rabs_pos_eq (sqrt A)) in N5 by apply sqrt_pos. unfold Y in N5. rewrite exact_image in N5.
  (* the area *)
  assert (V4 := pow_ge_1 (4 * u) 4 ltac:(lra)).
  assert (N6 : near ((1 + 4 * u) ^ 4 - 1) 0 (sqrt A * norm ny nx y2) (norm ny nx y2 * sqrt Ah)).
  { rewrite (Rmult_comm (norm ny nx y2)). apply near_factor. eapply near_weaken; [apply Rle_refl|right; exact sqrt_0|]. apply near_sqrt; try lra. exact A1. }
  (* the sum *)
  destruct (power_near w ny nx y2 t Ah T A3 A2) as [N7 G]. fold N in N7.
  assert (Vd := pow_ge_1 (4 * u) (depth t + 4) ltac:(lra)). assert (Vd2 := pow_ge_1 (4 * u) (depth t + 2) ltac:(lra)).
  apply near_sqrt in N7; [|lra|apply Rmult_le_pos; [lra|]; assert (0 <= N * eta * Ah) by (apply Rmult_le_pos; [apply Rmult_le_pos; lra|lra]); lra|unfold field_power; apply Rmult_le_pos; [apply sumsq_ge_0|lra]|exact G].
  rewrite sqrt_field_power in N7 by exact A3.
  pose proof (near_pow (4 * u) 4 (depth t + 4) _ _ _ _ _ ltac:(lra) N6 N7) as N8. rewrite Rmult_0_l, Rplus_0_l in N8.
  assert (V8 := pow_ge_1 (4 * u) (4 + (depth t + 4)) ltac:(lra)).
  pose proof (near_trans ((1 + e) * (1 + ((1 + 4 * u) ^ (4 + 1) - 1)) - 1) (sqrt A * (K * d * (1 + ((1 + 4 * u) ^ (4 + 1) - 1)) + 2 * sqrt N * eta)) ((1 + 4 * u) ^ (4 + (depth t + 4)) - 1) _ _ _ _ ltac:(lra) N5 N8) as N9.
  eapply near_weaken; [| |exact N9].
  - right. replace (depth t + 13)%nat with (4 + 1 + (4 + (depth t + 4)))%nat by lia. rewrite (pow_add _ (4 + 1)). ring.
  - replace (depth t + 13)%nat with (4 + 1 + (4 + (depth t + 4)))%nat by lia. rewrite (pow_add _ (4 + 1)).
    assert (U := underflow_term 4 (sf / ps * / sqrt N) (sf / ps) Ah). specialize (U ltac:(rewrite <- SA; apply sqrt_pos) A3 ltac:(apply Rmult_le_pos; lra)).
    specialize (U ltac:(rewrite <- SA, pow2_sqrt by lra; apply near_upper in A1; [lra|lra])). specialize (U ltac:(rewrite Rpow_mult_distr, pow_inv, pow2_sqrt by lra; field; split; lra) (depth t + 2)%nat).
    assert (EK : sqrt A * K = ps * sqrt N).
    { rewrite SA. unfold K. apply Rmult_eq_reg_r with (sqrt N); [|lra]. replace (sf / ps * / sqrt N * (N * ps ^ 2 / sf) * sqrt N) with (ps * N) by (field; repeat split; lra). rewrite Rmult_assoc, sqrt_sqrt by lra. reflexivity. }
    assert (EN : sqrt A * sqrt N = sf / ps) by (rewrite SA; field; repeat split; lra).
    set (V := (1 + 4 * u) ^ (4 + 1)) in *. set (W := (1 + 4 * u) ^ (4 + (depth t + 4))) in *.
    replace (sqrt A * (K * d * (1 + (V - 1)) + 2 * sqrt N * eta)) with ((sqrt A * K) * d * V + 2 * (sqrt A * sqrt N) * eta) by ring. rewrite EK, EN.
    assert (LW : (1 + 4 * u) ^ (depth t + 2 + 4) <= V * W). { unfold V, W. rewrite <- pow_add. apply pow_grows; [lra|lia]. }
    assert (Q0 : 0 <= sqrt eta * (3 * (sf / ps) + 1)) by (apply Rmult_le_pos; [apply sqrt_pos|assert (0 <= sf / ps) by (apply Rmult_le_pos; lra); lra]).
    apply (Rmult_le_compat_r _ _ _ Q0) in LW. assert (Q1 : 0 <= 2 * (sf / ps) * eta) by (assert (0 <= sf / ps * eta) by (apply Rmult_le_pos; [apply Rmult_le_pos; lra|exact He]); lra).
    assert (Q2 : 2 * (sf / ps) * eta * W <= 2 * (sf / ps) * eta * (V * W)). { apply Rmult_le_compat_l; [exact Q1|]. nra. }
    replace (1 + (W - 1)) with W by ring. clearbody V W. lra.
Qed.
End Bounds.
