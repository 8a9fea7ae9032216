(** The random method can beat IFTA inside the signal window (C120). *)
From Coq Require Import Reals Lra Psatz ZArith Arith List Bool Lia.
From Coquelicot Require Import Complex.
From Verif Require Import Cx Sums DFT PyBase ProfileModel SlmModel LibModel DmdModel SimModel SimSpec GridFacts SimFacts SimFacts2 SimFacts4 SimExamples DmdSpec DmdFacts DmdFacts2 DmdFacts3 DmdThms AmpFacts AmpFacts2 AmpFacts3 AmpFacts4 AmpFacts5 HoloSpec HoloFacts IftaFacts IftaSym RandomFacts PhaseFacts StabFacts BestFacts ScaleFacts WinSpec WinFacts WinExample.
Open Scope R_scope.

(** The grey levels of WinExample, made with an amplitude and a phase: the mirrors 1 and 2 lie 60 degrees off the maximum of the fringe. *)
Definition phase3 (_ j : nat) : R := match j with 0%nat => 0 | _ => PI / 3 end.
Definition lee3 (N : Z) (i j : nat) : R := match j with 0%nat => grey3 N i j | _ => 4 / 3 * grey3 N i j end.
Definition ampL3 (N : Z) : parg := AConstR (T2 1 3 (lee3 N)).
Definition phaseL3 : parg := AConstR (T2 1 3 phase3).
Lemma reads3 f : reads ex_heap (d_slm row3) (AConstR (T2 1 3 f)) f.
Proof. eexists. split; [reflexivity|]. split; [right; reflexivity|]. intros i j Hi Hj. apply tget_T2; assumption. Qed.
Lemma carrier3 j : (j < 3)%nat -> cos (carrier row3 0 j) = 1 /\ sin (carrier row3 0 j) = 0.
Proof.
  intros Hj. assert (C : cos (carrier row3 0 j) = 1).
  { assert (K := row3_carrier 0 j ltac:(lia) Hj). unfold signed in K. cbn [row3 dmd_new d_neg] in K. replace (carrier row3 0 j) with (carrier row3 0 j - (0 - 0)) by ring. exact K. }
  split; [exact C|]. assert (S := sin2_cos2 (carrier row3 0 j)). rewrite C in S. unfold Rsqr in S. nra.
Qed.
Lemma fringe3 j : (j < 3)%nat -> cos (carrier row3 0 j - signed (d_neg row3) (phase3 0 j - 0)) = cos (phase3 0 j).
Proof. intros Hj. destruct (carrier3 j Hj) as [C S]. unfold signed. cbn [row3 dmd_new d_neg]. rewrite Rminus_0_r, cos_minus, C, S. ring. Qed.
Lemma lee3_value N i j : (i < 1)%nat -> (j < 3)%nat -> lee3 N i j * (cos (carrier row3 i j - signed (d_neg row3) (phase3 i j - 0)) / 2 + 1 / 2) = grey3 N i j.
Proof. intros Hi Hj. replace i with O by lia. rewrite fringe3 by exact Hj. destruct j as [|[|[|]]]; cbn [phase3 lee3]; [rewrite cos_0; lra|rewrite cos_PI3; lra|rewrite cos_PI3; lra|lia]. Qed.

(** ** Duty cycles *)
Lemma exp5 : 100 < exp 5.
Proof.
  assert (E : 9 / 8 <= exp (/ 8)) by (pose proof (exp_ineq1 (/ 8) ltac:(lra)); lra).
  replace 5 with (INR 40 * / 8) by (cbn [INR]; lra).
  assert (P : forall n, (9 / 8) ^ n <= exp (INR n * / 8)).
  { induction n as [|n IH]; [cbn [INR pow]; rewrite Rmult_0_l, exp_0; lra|]. rewrite S_INR, Rmult_plus_distr_r, Rmult_1_l, exp_plus. cbn [pow]. rewrite Rmult_comm.
    apply Rmult_le_compat; [apply pow_le; lra|lra|exact IH|exact E]. }
  eapply Rlt_le_trans; [|apply P]. lra.
Qed.
Lemma tanh_large x : 5 / 2 <= x -> 1 - 2 / 100 < tanh x < 1.
Proof.
  intros H. split; [|apply tanh_bound]. rewrite tanh_alt. assert (exp 5 <= exp (2 * x)) by (destruct (Rle_lt_or_eq_dec 5 (2 * x)) as [L|<-]; [lra|left; apply exp_increasing, L|lra]).
  pose proof exp5. assert (2 / (exp (2 * x) + 1) < 2 / 100); [|lra]. unfold Rdiv. apply Rmult_lt_compat_l; [lra|]. apply Rinv_lt_contravar; nra.
Qed.
Lemma duty_on A : 1 / 2 <= A <= 1 -> 98 / 100 < duty 10 0 A.
Proof.
  intros HA. unfold duty. replace (10 * (0 - asin A)) with (- (10 * asin A)) by ring. rewrite tanh_odd, Rplus_0_l.
  assert (PI / 6 <= asin A). { destruct (Rle_lt_or_eq_dec (1 / 2) A (proj1 HA)) as [L|<-].
    - left. replace (PI / 6) with (asin (1 / 2)). apply asin_lt; lra. rewrite <- sin_PI6. apply asin_sin. pose proof PI_RGT_0. lra.
    - right. rewrite <- sin_PI6. symmetry. apply asin_sin. pose proof PI_RGT_0. lra. }
  pose proof PI2_3_2. pose proof (tanh_large (10 * asin A) ltac:(lra)). lra.
Qed.
Lemma duty_off A : 0 <= A <= 2 / 3 -> duty 10 (PI / 3) A < 1 / 100.
Proof.
  intros HA. unfold duty. assert (B : asin A <= PI / 4).
  { assert (S : 2 / 3 < sqrt 2 / 2). { assert (sqrt 2 * sqrt 2 = 2) by (apply sqrt_sqrt; lra). assert (0 < sqrt 2) by (apply sqrt_lt_R0; lra). nra. }
    left. replace (PI / 4) with (asin (sqrt 2 / 2)); [apply asin_lt; try lra|].
    - assert (sqrt 2 * sqrt 2 = 2) by (apply sqrt_sqrt; lra). assert (0 < sqrt 2) by (apply sqrt_lt_R0; lra). nra.
    - replace (sqrt 2 / 2) with (sin (PI / 4)); [apply asin_sin; pose proof PI_RGT_0; lra|]. rewrite sin_PI4. assert (sqrt 2 * sqrt 2 = 2) by (apply sqrt_sqrt; lra). assert (0 < sqrt 2) by (apply sqrt_lt_R0; lra). apply (Rmult_eq_reg_r (sqrt 2)); [|lra]. field_simplify; lra. }
  pose proof PI2_3_2. pose proof (tanh_large (10 * (PI / 3 - asin A)) ltac:(lra)). pose proof (tanh_bound (10 * (PI / 3 + asin A))). lra.
Qed.

(** ** The comparison *)
Lemma lee3_range N : (2 <= N)%Z -> 1 / 2 <= lee3 N 0 0 <= 1 /\ (forall j, (0 < j < 3)%nat -> 0 <= lee3 N 0 j <= 2 / 3) /\ 0 < grey3 N 0 2.
Proof.
  intros HN. assert (2 <= IZR N) by (apply IZR_le in HN; exact HN). assert (0 < / IZR N) by (apply Rinv_0_lt_compat; lra). assert (/ IZR N <= / 2) by (apply Rinv_le_contravar; lra).
  unfold lee3, grey3. replace (3 / (5 * IZR N)) with (3 / 5 * / IZR N) by (field; lra). replace (/ (100 * IZR N)) with (/ 100 * / IZR N) by (field; lra).
  split; [lra|]. split; [|lra]. intros j Hj. destruct j as [|[|[|]]]; [lia|lra|lra|lia].
Qed.
Lemma random_beats_ifta N u : (2 <= N)%Z -> (forall j, (j < 3)%nat -> 1 / 100 <= u O j <= 98 / 100) ->
  exists fN fr g nN nr ng IN Ir Ig, let set me := set_dmd_grating_state ex_heap row3 (ampL3 N) none3 phaseL3 me (kwin3 N) u in
  let sim d n I := propagate_to_image ex_heap (DevDmd d) sim3 light3 = (n, Ok tt) /\ field_is (f_image n) 1 3 I in
  set MIfta = (with_state row3 (DBool 1 3 fN), Ok tt) /\ set MRandom = (with_state row3 (DBool 1 3 fr), Ok tt) /\ set MIdeal = (with_state row3 (DFloat 1 3 g), Ok tt) /\
  sim (with_state row3 (DBool 1 3 fN)) nN IN /\ sim (with_state row3 (DBool 1 3 fr)) nr Ir /\ sim (with_state row3 (DFloat 1 3 g)) ng Ig /\
  0 < window_difference 1 3 centre3 Ir Ig /\ 100 * window_difference 1 3 centre3 Ir Ig < window_difference 1 3 centre3 IN Ig.
Proof.
  intros HN Hu. assert (Hp : d_p row3 <> 0) by (cbn; lra). assert (R0 : reads ex_heap (d_slm row3) none3 (fun _ _ => 0)) by apply reads_const.
  assert (RA := reads3 (lee3 N)). assert (RP := reads3 phase3). fold (ampL3 N) in RA. fold phaseL3 in RP.
  destruct (set_ideal ex_heap row3 _ _ _ _ _ _ RA R0 RP Hp (kwin3 N) u) as (d1 & g & E1 & -> & Vg).
  destruct (random_spec ex_heap row3 _ _ _ _ _ _ (kwin3 N) u RA R0 RP Hp) as (fr & E2 & Vr); [cbn; lra|].
  destruct (kwin3_arrays N) as [KI KW].
  destruct (ifta_grating ex_heap row3 _ _ _ _ _ _ (kwin3 N) F3 V3 u RA R0 RP Hp KI KW) as (fN & E3 & HR).
  change (s_Ny (d_slm row3)) with 1%nat in *. change (s_Nx (d_slm row3)) with 3%nat in *.
  assert (Vg' : forall i j, (i < 1)%nat -> (j < 3)%nat -> g i j = Fin (grey3 N i j)) by (intros i j Hi Hj; rewrite Vg by assumption; rewrite lee3_value by assumption; reflexivity).
  destruct (simulate3 (DBool 1 3 fN) _ eq_refl) as (nN & PN & JN). destruct (simulate3 (DBool 1 3 fr) _ eq_refl) as (nr & Pr & Jr).
  destruct (simulate3 (DFloat 1 3 g) _ (state_float_in (with_state row3 (DFloat 1 3 g)) 1 3 g (grey3 N) eq_refl eq_refl eq_refl Vg')) as (ng & Pg & Jg).
  exists fN, fr, g, nN, nr, ng. do 3 eexists. cbv zeta. split; [exact E3|]. split; [exact E2|]. split; [exact E1|]. split; [split; [exact PN|exact JN]|]. split; [split; [exact Pr|exact Jr]|]. split; [split; [exact Pg|exact Jg]|].
  assert (HF : full_input ex_heap (d_slm row3) light3 F3) by reflexivity. assert (Hs : scaling_factor (d_slm row3) <> 0) by (unfold scaling_factor; cbn; lra).
  destruct (grey3_bounds N ltac:(lia)) as (B0 & B1 & B2 & B3 & B4). destruct (lee3_range N HN) as (L0 & L1 & L2).
  assert (C : forall f n I, propagate_to_image ex_heap (DevDmd (with_state row3 (DBool 1 3 f))) sim3 light3 = (n, Ok tt) -> field_is (f_image n) 1 3 I ->
     window_difference 1 3 centre3 I (fun u v => (RtoC (eta_scale (d_slm row3)) * image_of 1 3 (fun i j => (F3 i j * RtoC (xr_val (g i j)))%C) u v)%C)
     = eta_scale (d_slm row3) ^ 2 * ((6 * (if f O O then 1 else 0) + 6 * (if f O 1%nat then 1 else 0) + (if f O 2%nat then 1 else 0)) / 3 - (6 + grey3 N 0 2) / 3) ^ 2).
  { intros f n I P J. assert (K := compared ex_heap (d_slm row3) sim3 light3 F3 centre3 HF Hs eq_refl eq_refl (with_state row3 (DBool 1 3 f)) (with_state row3 (DFloat 1 3 g)) f g (grey3 N) n ng I _ eq_refl eq_refl eq_refl eq_refl Vg' P Pg J Jg).
    change (s_Ny (d_slm row3)) with 1%nat in K. change (s_Nx (d_slm row3)) with 3%nat in K. rewrite K. f_equal. rewrite centre_difference, shown_centre, grey_centre, <- RtoC_minus, Cmod_R, pow2_abs. rewrite B3. reflexivity. }
  rewrite (C fr nr _ Pr Jr), (C fN nN _ PN JN). assert (P := eta3).
  destruct (run_patterns _ _ _ _ _ _ _ HR) as (G & HG & Hf). cbn [k_s kwin3 dflt k_N] in HG, Hf.
  assert (HG' : ifta_patterns 1 3 F3 V3 (grey3 N) N G).
  { destruct HG as [H0 HS]. split.
    - intros i j Hi Hj. rewrite H0 by assumption. rewrite lee3_value by assumption. ring.
    - intros k Hk. destruct (HS k Hk) as (B & HB & HF'). exists B. split; [exact HB|]. cbv zeta in *. intros i j Hi Hj. destruct (HF' i j Hi Hj) as [X1 X2]. split; [exact X1|]. intros HL. rewrite X2 by exact HL. f_equal. f_equal.
      unfold spectrum_of. apply csum2_ext. intros a b Ha Hb. f_equal. f_equal. f_equal. f_equal. unfold shown_grey. apply image_of_ext. intros i' j' Hi' Hj'. rewrite lee3_value, Rmult_1_r by assumption. reflexivity. }
  destruct (final3 N G HN HG') as (T0 & T1 & T2).
  assert (fN O O = true /\ fN O 1%nat = true /\ fN O 2%nat = false) as (-> & -> & ->).
  { split; [apply Hf; [lia|lia|exact T0]|]. split; [apply Hf; [lia|lia|exact T1]|]. apply Bool.not_true_is_false. intros X. apply Hf in X; [|lia|lia]. lra. }
  assert (D : forall j, (j < 3)%nat -> (fr O j = true <-> u O j < duty 10 (phase3 0 j) (lee3 N 0 j))).
  { intros j Hj. destruct (Vr O j ltac:(split; cbn; lia)) as [V1 _]. destruct V1 as (q & Hq & V1 & _).
    - destruct j as [|[|[|]]]; [lra|specialize (L1 1%nat ltac:(lia)); lra|specialize (L1 2%nat ltac:(lia)); lra|lia].
    - cbv zeta in V1. change (dflt (k_r (kwin3 N)) 10) with 10 in V1. rewrite V1. replace q with (phase3 0 j); [reflexivity|].
      symmetry. refine (folded_cos _ (phase3 0 j) _ _ Hq _ (fringe3 j Hj)).
      pose proof PI_RGT_0. split; [unfold phase3; destruct j as [|[|[|]]]; lra|]. exists 0%Z. left. ring. }
  assert (fr O O = true /\ fr O 1%nat = false /\ fr O 2%nat = false) as (-> & -> & ->).
  { split; [|split].
    - apply D; [lia|]. change (phase3 0 0) with 0. pose proof (duty_on _ L0). specialize (Hu O ltac:(lia)). lra.
    - apply Bool.not_true_is_false. intros X. apply D in X; [|lia]. change (phase3 0 1) with (PI / 3) in X. pose proof (duty_off _ (L1 1%nat ltac:(lia))). specialize (Hu 1%nat ltac:(lia)). lra.
    - apply Bool.not_true_is_false. intros X. apply D in X; [|lia]. change (phase3 0 2) with (PI / 3) in X. pose proof (duty_off _ (L1 2%nat ltac:(lia))). specialize (Hu 2%nat ltac:(lia)). lra. }
  set (e := eta_scale (d_slm row3) ^ 2) in *. split.
  - apply Rmult_lt_0_compat; [exact P|]. nra.
  - rewrite <- Rmult_assoc, (Rmult_comm 100 e), Rmult_assoc. apply Rmult_lt_compat_l; [exact P|]. nra.
Qed.
(** The claim of docs/algorithm.md read as an inequality between the two windowed errors. *)
Lemma ifta_not_better : ~ forall h d amp pin pout kw kw' kw2 u u2 m a F V w n n' ng I I' Ig, let s := d_slm d in
  (1 <= dflt (k_N kw) 200)%Z -> dflt (k_s kw) 1 = 1 -> 0 < dflt (k_r kw') 10 -> (forall i j, in_array d i j -> 0 <= u i j < 1) ->
  full_input h s a F -> complex_array (k_input kw) (T2 (s_Ny s) (s_Nx s) F) -> complex_array (k_window kw) (T2 (s_Ny s) (s_Nx s) V) ->
  (forall i j, in_array d i j -> V i j = RtoC (w i j) /\ (w i j = 0 \/ w i j = 1)) -> pad_x m = 0%Z -> pad_y m = 0%Z ->
  propagate_to_image h (DevDmd (fst (set_dmd_grating_state h d amp pin pout MIfta kw u2))) m a = (n, Ok tt) ->
  propagate_to_image h (DevDmd (fst (set_dmd_grating_state h d amp pin pout MRandom kw' u))) m a = (n', Ok tt) ->
  propagate_to_image h (DevDmd (fst (set_dmd_grating_state h d amp pin pout MIdeal kw2 u2))) m a = (ng, Ok tt) ->
  field_is (f_image n) (NY s m) (NX s m) I -> field_is (f_image n') (NY s m) (NX s m) I' -> field_is (f_image ng) (NY s m) (NX s m) Ig ->
  window_difference (s_Ny s) (s_Nx s) w I Ig <= window_difference (s_Ny s) (s_Nx s) w I' Ig.
Proof.
  intros H. destruct (random_beats_ifta 200 (fun _ _ => 1 / 2) ltac:(lia) ltac:(intros; lra)) as (fN & fr & g & nN & nr & ng & IN & Ir & Ig & E1 & E2 & E3 & (P1 & J1) & (P2 & J2) & (P3 & J3) & L1 & L2). cbv zeta in *.
  specialize (H ex_heap row3 (ampL3 200) none3 phaseL3 (kwin3 200) (kwin3 200) (kwin3 200) (fun _ _ => 1 / 2) (fun _ _ => 1 / 2) sim3 light3 F3 V3 centre3 nN nr ng IN Ir Ig ltac:(cbn; lia) eq_refl ltac:(cbn; lra) ltac:(intros; lra) eq_refl (or_intror eq_refl) (or_intror eq_refl)).
  rewrite E1, E2, E3 in H. cbn [fst] in H. assert (K : window_difference 1 3 centre3 IN Ig <= window_difference 1 3 centre3 Ir Ig); [|lra]. apply H; try assumption; try reflexivity.
  intros i j _. split; [reflexivity|]. unfold centre3. destruct j as [|[|]]; auto.
Qed.
