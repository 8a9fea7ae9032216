(** More IFTA iterations can make the image inside the signal window worse (C105). *)
From Coq Require Import Reals Lra Psatz ZArith Arith List Bool Lia.
From Coquelicot Require Import Complex.
From Verif Require Import Cx Sums DFT PyBase ProfileModel SlmModel LibModel DmdModel SimModel SimSpec GridFacts SimFacts SimFacts2 SimFacts4 SimExamples DmdSpec DmdFacts DmdFacts2 AmpFacts AmpFacts2 AmpFacts3 AmpFacts4 AmpFacts5 HoloSpec HoloFacts IftaFacts IftaSym StabFacts BestFacts ScaleFacts WinSpec WinFacts.
Open Scope R_scope.

(** Three mirrors, all at a maximum of the carrier, lit with amplitudes 6, 6, 1; the signal window is the centre of the image. *)
Definition row3 : dmd := dmd_new 1 1 (1 / 2) 0 3 1 1 false.
Definition beam3 (_ j : nat) : R := match j with 2%nat => 1 | _ => 6 end.
Definition F3 (i j : nat) : C := RtoC (beam3 i j).
Definition centre3 (_ v : nat) : R := match v with 1%nat => 1 | _ => 0 end.
Definition V3 (u v : nat) : C := RtoC (centre3 u v).
(** Grey levels just above, just below and somewhat below 1/2. *)
Definition grey3 (N : Z) (_ j : nat) : R := match j with 0%nat => 1 / 2 + / (100 * IZR N) | 1%nat => 1 / 2 - / (100 * IZR N) | _ => 1 / 2 - 3 / (5 * IZR N) end.
Definition amp3 (N : Z) : parg := AConstR (T2 1 3 (grey3 N)).
Definition none3 : parg := AConstR (T0 0).
Definition kwin3 (N : Z) : kwargs := {| k_r := None; k_N := Some N; k_s := None; k_window := Some (AConstC (T2 1 3 V3)); k_input := Some (AConstC (T2 1 3 F3)) |}.
Definition light3 : parg := AConstC (T2 1 3 F3).

Lemma wave_centre j : (j < 3)%nat -> wave 1 3 0 j 0 1 = RtoC 1.
Proof.
  intros Hj. unfold wave, centred. change (1 / 2)%nat with O. change (3 / 2)%nat with 1%nat. replace (2 * PI * _) with 0; [apply cis_0|].
  replace (Z.of_nat 1 - Z.of_nat 1)%Z with 0%Z by lia. rewrite !Z.mul_0_r. unfold Rdiv. ring.
Qed.
Lemma centre_of E : image_of 1 3 E 0 1 = ((E O O + E O 1%nat + E O 2%nat) / RtoC 3)%C.
Proof.
  unfold image_of, csum2. cbn [csum]. rewrite !wave_centre by lia. replace (INR (1 * 3)) with 3 by (cbn; ring). unfold Cdiv. ring.
Qed.
Lemma spread_of (D : nat -> nat -> C) j : (j < 3)%nat -> spectrum_of 1 3 (fun u v => (V3 u v * D u v)%C) 0 j = D O 1%nat.
Proof.
  intros Hj. unfold spectrum_of, csum2. cbn [csum]. unfold V3, centre3. rewrite wave_centre by exact Hj.
  replace (cconj (RtoC 1)) with (RtoC 1) by (unfold cconj, RtoC; cbn [fst snd]; f_equal; ring). ring.
Qed.
Lemma corrected3 (q B : nat -> nat -> R) j : (j < 3)%nat ->
  fst (spectrum_of 1 3 (fun u v => (shown_grey 1 3 F3 B u v + V3 u v * (shown_grey 1 3 F3 q u v - shown_grey 1 3 F3 B u v))%C) 0 j / F3 0 j)%C
  = B O j + (6 * (q O O - B O O) + 6 * (q O 1%nat - B O 1%nat) + (q O 2%nat - B O 2%nat)) / (3 * beam3 0 j).
Proof.
  intros Hj. rewrite spectrum_plus, (spread_of (fun u v => (shown_grey 1 3 F3 q u v - shown_grey 1 3 F3 B u v)%C)) by exact Hj. unfold shown_grey at 1. rewrite spectrum_of_image by lia.
  unfold shown_grey. rewrite !centre_of. assert (beam3 0 j <> 0) by (unfold beam3; destruct j as [|[|[|]]]; lra).
  unfold F3. rewrite <- !RtoC_mult, <- !RtoC_plus, <- !RtoC_div by lra. rewrite <- RtoC_minus, <- RtoC_plus, <- RtoC_div by assumption. unfold RtoC. cbn [fst]. change (beam3 0 0) with 6. change (beam3 0 1) with 6. change (beam3 0 2) with 1.
  field. exact H.
Qed.
Lemma lit3 i j : (j < 3)%nat -> F3 i j <> RtoC 0.
Proof. intros Hj E. unfold F3, RtoC in E. injection E. unfold beam3. destruct j as [|[|[|]]]; lra. Qed.

Section Run.
Variables (N : Z) (G : nat -> nat -> nat -> R).
Hypothesis HN : (2 <= N)%Z.
Let q := grey3 N.
Hypothesis HG : ifta_patterns 1 3 F3 V3 q N G.
Let n := IZR N.
Let Hn : 2 <= n. Proof. apply IZR_le in HN. exact HN. Qed.
Lemma next k (B : nat -> R) : (k < Z.to_nat N)%nat -> (forall j, (j < 3)%nat -> clipped (INR (k + 1) / (2 * n)) (G k 0 j) (B j)) ->
  forall j, (j < 3)%nat -> G (S k) O j = B j + (6 * (q O O - B O) + 6 * (q O 1%nat - B 1%nat) + (q O 2%nat - B 2%nat)) / (3 * beam3 0 j).
Proof.
  intros Hk HB j Hj. destruct (proj2 HG k Hk) as (B' & HB' & HF). cbv zeta in HF. destruct (HF O j ltac:(lia) Hj) as [_ ->]; [|apply lit3; exact Hj].
  assert (E : forall j, (j < 3)%nat -> B' O j = B j).
  { intros l Hl. destruct (HB l Hl) as (A1 & A2 & A3). destruct (HB' O l ltac:(lia) Hl) as (C1 & C2 & C3). fold n in C1, C2, C3.
    destruct (Rlt_dec (G k 0%nat l) (INR (k + 1) / (2 * n))) as [L|L]; [rewrite A1, C1 by exact L; reflexivity|].
    destruct (Rlt_dec (1 - INR (k + 1) / (2 * n)) (G k 0%nat l)) as [L'|L']; [rewrite A2, C2 by lra; reflexivity|rewrite A3, C3 by lra; reflexivity]. }
  rewrite corrected3 by exact Hj. rewrite !E by lia. reflexivity.
Qed.
Let Hi : 0 < / n <= 1 / 2.
Proof. split; [apply Rinv_0_lt_compat; lra|]. replace (1 / 2) with (/ 2) by lra. apply Rinv_le_contravar; lra. Qed.
Lemma q_values : q O O = 1 / 2 + / 100 * / n /\ q O 1%nat = 1 / 2 - / 100 * / n /\ q O 2%nat = 1 / 2 - 3 / 5 * / n.
Proof. unfold q, grey3. fold n. repeat split; field; lra. Qed.
Lemma idle k : (k <= Z.to_nat N - 2)%nat -> forall j, (j < 3)%nat -> G k O j = q O j.
Proof.
  induction k as [|k IH]; intros Hk j Hj; [apply (proj1 HG); lia|]. destruct q_values as (Q0 & Q1 & Q2).
  assert (T : INR (k + 1) / (2 * n) <= 1 / 2 - / n).
  { assert (INR (k + 1) <= n - 2). { replace (n - 2) with (INR (Z.to_nat N - 2)); [apply le_INR; lia|]. rewrite minus_INR by lia. rewrite INR_IZR_INZ, Z2Nat.id by lia. cbn [INR]. unfold n. lra. }
    apply (Rmult_le_reg_r (2 * n)); [lra|]. unfold Rdiv at 1. rewrite Rmult_assoc, Rinv_l, Rmult_1_r by lra. replace ((1 / 2 - / n) * (2 * n)) with (n - 2) by (field; lra). assumption. }
  rewrite (next k (fun j => q O j)); [|lia| |exact Hj].
  - unfold Rdiv. ring.
  - intros l Hl. rewrite IH by lia. assert (INR (k + 1) / (2 * n) <= q 0%nat l <= 1 - INR (k + 1) / (2 * n)).
    { destruct l as [|[|[|]]]; [rewrite Q0|rewrite Q1|rewrite Q2|lia]; lra. }
    unfold clipped. repeat split; intros; lra.
Qed.
Lemma last_but_one : let k := (Z.to_nat N - 1)%nat in G k O O = q O O + q O 2%nat / 18 /\ G k O 1%nat = q O 1%nat + q O 2%nat / 18 /\ G k O 2%nat = q O 2%nat / 3.
Proof.
  cbv zeta. destruct q_values as (Q0 & Q1 & Q2). replace (Z.to_nat N - 1)%nat with (S (Z.to_nat N - 2)) by lia.
  assert (T : INR (Z.to_nat N - 2 + 1) / (2 * n) = 1 / 2 - / n / 2).
  { replace (Z.to_nat N - 2 + 1)%nat with (Z.to_nat N - 1)%nat by lia. rewrite minus_INR by lia. rewrite INR_IZR_INZ, Z2Nat.id by lia. fold n. cbn [INR]. field. lra. }
  assert (K := next (Z.to_nat N - 2) (fun j => match j with 2%nat => 0 | _ => q O j end) ltac:(lia)). rewrite T in K.
  assert (C : forall j, (j < 3)%nat -> clipped (1 / 2 - / n / 2) (G (Z.to_nat N - 2)%nat 0%nat j) (match j with 2%nat => 0 | _ => q O j end)).
  { intros j Hj. rewrite idle by lia. destruct j as [|[|[|]]]; [rewrite Q0|rewrite Q1|rewrite Q2|lia]; unfold clipped; repeat split; intros; lra. }
  specialize (K C). rewrite !K by lia. cbn [beam3]. repeat split; field.
Qed.
Lemma final3 : 1 / 2 < G (Z.to_nat N) O O /\ 1 / 2 < G (Z.to_nat N) O 1%nat /\ G (Z.to_nat N) O 2%nat < 1 / 2.
Proof.
  destruct q_values as (Q0 & Q1 & Q2). destruct last_but_one as (P0 & P1 & P2). cbv zeta in P0, P1, P2.
  assert (T : INR (Z.to_nat N - 1 + 1) / (2 * n) = 1 / 2).
  { replace (Z.to_nat N - 1 + 1)%nat with (Z.to_nat N) by lia. rewrite INR_IZR_INZ, Z2Nat.id by lia. fold n. field. lra. }
  assert (K := next (Z.to_nat N - 1) (fun j => match j with 2%nat => 0 | _ => 1 end) ltac:(lia)). rewrite T in K.
  assert (C : forall j, (j < 3)%nat -> clipped (1 / 2) (G (Z.to_nat N - 1)%nat 0%nat j) (match j with 2%nat => 0 | _ => 1 end)).
  { intros j Hj. destruct j as [|[|[|]]]; [rewrite P0, Q0|rewrite P1, Q1|rewrite P2|lia]; rewrite Q2; unfold clipped; repeat split; intros; lra. }
  specialize (K C). replace (S (Z.to_nat N - 1)) with (Z.to_nat N) in K by lia. rewrite !K by lia. cbn [beam3]. rewrite Q0, Q1, Q2. repeat split; lra.
Qed.
End Run.
Lemma centre_difference (I I' : nat -> nat -> C) : window_difference 1 3 centre3 I I' = Cmod (I O 1%nat - I' O 1%nat)%C ^ 2.
Proof. unfold window_difference, rsum2, centre3. cbn [rsum]. ring. Qed.
Lemma reads_array N : reads ex_heap (d_slm row3) (amp3 N) (grey3 N).
Proof. eexists. split; [reflexivity|]. split; [right; reflexivity|]. intros i j Hi Hj. apply tget_T2; assumption. Qed.
Lemma row3_carrier i j : (i < 1)%nat -> (j < 3)%nat -> cos (carrier row3 i j - signed (d_neg row3) (0 - 0)) = 1.
Proof.
  intros Hi Hj. unfold carrier, mirror_x, mirror_y, signed, row3, dmd_new. cbn [d_slm d_p d_theta d_neg s_Nx s_Ny pixel_size]. rewrite cos_0, sin_0.
  destruct j as [|[|[|]]]; [| | |lia].
  - match goal with |- cos ?x = 1 => replace x with (- (2 * PI + 2 * 2 * PI)) by (cbn [INR]; field) end. rewrite cos_neg. replace (2 * PI + 2 * 2 * PI) with (2 * PI + 2 * INR 2 * PI) by (cbn [INR]; ring). rewrite cos_period. apply cos_2PI.
  - match goal with |- cos ?x = 1 => replace x with (- (2 * PI)) by (cbn [INR]; field) end. rewrite cos_neg. apply cos_2PI.
  - match goal with |- cos ?x = 1 => replace x with (2 * PI) by (cbn [INR]; field) end. apply cos_2PI.
Qed.
Lemma row3_value N i j : (i < 1)%nat -> (j < 3)%nat -> grey3 N i j * (cos (carrier row3 i j - signed (d_neg row3) (0 - 0)) / 2 + 1 / 2) = grey3 N i j.
Proof. intros Hi Hj. rewrite row3_carrier by assumption. lra. Qed.
Lemma simulate3 st S : state_tensor (DevDmd (with_state row3 st)) = Ok (T2 1 3 S) -> exists n, propagate_to_image ex_heap (DevDmd (with_state row3 st)) sim3 light3 = (n, Ok tt) /\
  field_is (f_image n) 1 3 (fun u v => (RtoC (eta_scale (d_slm row3)) * image_of 1 3 (fun i j => (F3 i j * S i j)%C) u v)%C).
Proof.
  intros H. assert (K := dev_simulated ex_heap (DevDmd (with_state row3 st)) sim3 light3 F3 S). cbv zeta in K. apply K; try reflexivity.
  - unfold full_state. exact H.
  - unfold scaling_factor. cbn. lra.
Qed.
Lemma eta3 : 0 < eta_scale (d_slm row3) ^ 2.
Proof. unfold eta_scale, scaling_factor, row3, dmd_new. cbn. lra. Qed.
Lemma shown_centre f : shown 1 3 F3 f 0 1 = RtoC ((6 * (if f O O then 1 else 0) + 6 * (if f O 1%nat then 1 else 0) + (if f O 2%nat then 1 else 0)) / 3).
Proof. unfold shown. rewrite centre_of. unfold F3. rewrite <- !RtoC_mult, <- !RtoC_plus, <- RtoC_div by lra. f_equal. cbn [beam3]. field. Qed.
Lemma grey_centre q : shown_grey 1 3 F3 q 0 1 = RtoC ((6 * q O O + 6 * q O 1%nat + q O 2%nat) / 3).
Proof. unfold shown_grey. rewrite centre_of. unfold F3. rewrite <- !RtoC_mult, <- !RtoC_plus, <- RtoC_div by lra. f_equal. cbn [beam3]. field. Qed.
Lemma grey3_bounds N : (1 <= N)%Z -> 1 / 2 < grey3 N 0 0 /\ grey3 N 0 1 < 1 / 2 /\ grey3 N 0 2 < 1 / 2 /\ 6 * grey3 N 0 0 + 6 * grey3 N 0 1 = 6 /\ 1 / 2 - 3 / 5 <= grey3 N 0 2.
Proof.
  intros HN. apply IZR_le in HN. unfold grey3. assert (0 < / (100 * IZR N)) by (apply Rinv_0_lt_compat; lra). assert (0 < / IZR N <= 1).
  { split; [apply Rinv_0_lt_compat; lra|]. rewrite <- Rinv_1. apply Rinv_le_contravar; lra. }
  replace (3 / (5 * IZR N)) with (3 / 5 * / IZR N) by (field; lra). repeat split; lra.
Qed.
Lemma kwin3_arrays N : complex_array (k_input (kwin3 N)) (T2 1 3 F3) /\ complex_array (k_window (kwin3 N)) (T2 1 3 V3).
Proof. split; right; reflexivity. Qed.
Lemma more_iterations N : (2 <= N)%Z -> exists fN f1 fs g nN n1 ns ng IN I1 Is Ig, let set me kw := set_dmd_grating_state ex_heap row3 (amp3 N) none3 none3 me kw (fun _ _ => 0) in
  let sim d n I := propagate_to_image ex_heap (DevDmd d) sim3 light3 = (n, Ok tt) /\ field_is (f_image n) 1 3 I in
  set MIfta (kwin3 N) = (with_state row3 (DBool 1 3 fN), Ok tt) /\ set MIfta (kwin3 1) = (with_state row3 (DBool 1 3 f1), Ok tt) /\
  set MSimple (kwin3 N) = (with_state row3 (DBool 1 3 fs), Ok tt) /\ set MIdeal (kwin3 N) = (with_state row3 (DFloat 1 3 g), Ok tt) /\
  sim (with_state row3 (DBool 1 3 fN)) nN IN /\ sim (with_state row3 (DBool 1 3 f1)) n1 I1 /\ sim (with_state row3 (DBool 1 3 fs)) ns Is /\ sim (with_state row3 (DFloat 1 3 g)) ng Ig /\
  window_difference 1 3 centre3 I1 Ig <= window_difference 1 3 centre3 Is Ig /\ 0 < window_difference 1 3 centre3 Is Ig /\
  100 * window_difference 1 3 centre3 Is Ig < window_difference 1 3 centre3 IN Ig.
Proof.
  intros HN. assert (Hp : d_p row3 <> 0) by (cbn; lra). assert (R0 : reads ex_heap (d_slm row3) none3 (fun _ _ => 0)) by apply reads_const. assert (RA := reads_array N).
  destruct (set_ideal ex_heap row3 _ _ _ _ _ _ RA R0 R0 Hp (kwin3 N) (fun _ _ => 0)) as (d1 & g & E1 & -> & Vg). destruct (set_simple ex_heap row3 _ _ _ _ _ _ RA R0 R0 Hp (kwin3 N) (fun _ _ => 0)) as (d2 & fs & E2 & -> & Vs).
  destruct (kwin3_arrays N) as [KI KW].
  destruct (ifta_grating ex_heap row3 _ _ _ _ _ _ (kwin3 N) F3 V3 (fun _ _ => 0) RA R0 R0 Hp KI KW) as (fN & E3 & HR).
  destruct (ifta_grating ex_heap row3 _ _ _ _ _ _ (kwin3 1) F3 V3 (fun _ _ => 0) RA R0 R0 Hp KI KW) as (f1 & E4 & _).
  change (s_Ny (d_slm row3)) with 1%nat in *. change (s_Nx (d_slm row3)) with 3%nat in *.
  assert (Vg' : forall i j, (i < 1)%nat -> (j < 3)%nat -> g i j = Fin (grey3 N i j)) by (intros i j Hi Hj; rewrite Vg by assumption; rewrite row3_value by assumption; reflexivity).
  assert (Vs' : rounded 1 3 (grey3 N) fs) by (intros i j Hi Hj; rewrite Vs by assumption; rewrite row3_value by assumption; tauto).
  destruct (simulate3 (DBool 1 3 fN) _ eq_refl) as (nN & PN & JN). destruct (simulate3 (DBool 1 3 f1) _ eq_refl) as (n1 & P1 & J1). destruct (simulate3 (DBool 1 3 fs) _ eq_refl) as (ns & Ps & Js).
  destruct (simulate3 (DFloat 1 3 g) _ (state_float_in (with_state row3 (DFloat 1 3 g)) 1 3 g (grey3 N) eq_refl eq_refl eq_refl Vg')) as (ng & Pg & Jg).
  exists fN, f1, fs, g, nN, n1, ns, ng. do 4 eexists. cbv zeta. split; [exact E3|]. split; [exact E4|]. split; [exact E2|]. split; [exact E1|]. split; [split; [exact PN|exact JN]|]. split; [split; [exact P1|exact J1]|]. split; [split; [exact Ps|exact Js]|]. split; [split; [exact Pg|exact Jg]|].
  assert (HF : full_input ex_heap (d_slm row3) light3 F3) by reflexivity. assert (Hs : scaling_factor (d_slm row3) <> 0) by (unfold scaling_factor; cbn; lra).
  destruct (grey3_bounds N ltac:(lia)) as (B0 & B1 & B2 & B3 & B4).
  split.
  { apply (one_iteration_grating ex_heap row3 (amp3 N) none3 none3 (grey3 N) (fun _ _ => 0) (fun _ _ => 0) (kwin3 1) (fun _ _ => 0) (kwin3 N) (fun _ _ => 0) (kwin3 N) (fun _ _ => 0) sim3 light3 F3 V3 centre3 n1 ns ng); try reflexivity; try assumption.
    - intros i j [Hi Hj]. split; [reflexivity|]. unfold centre3. destruct j as [|[|]]; lra.
    - intros i j [Hi Hj] _. change (s_Ny (d_slm row3)) with 1%nat in Hi. change (s_Nx (d_slm row3)) with 3%nat in Hj. rewrite row3_value by assumption. replace i with O by lia. destruct j as [|[|[|]]]; [lra|lra|lra|lia].
    - rewrite E4. exact P1.
    - rewrite E2. exact Ps.
    - rewrite E1. exact Pg. }
  assert (C : forall f n I, propagate_to_image ex_heap (DevDmd (with_state row3 (DBool 1 3 f))) sim3 light3 = (n, Ok tt) -> field_is (f_image n) 1 3 I ->
     window_difference 1 3 centre3 I (fun u v => (RtoC (eta_scale (d_slm row3)) * image_of 1 3 (fun i j => (F3 i j * RtoC (xr_val (g i j)))%C) u v)%C)
     = eta_scale (d_slm row3) ^ 2 * ((6 * (if f O O then 1 else 0) + 6 * (if f O 1%nat then 1 else 0) + (if f O 2%nat then 1 else 0)) / 3 - (6 + grey3 N 0 2) / 3) ^ 2).
  { intros f n I P J. assert (K := compared ex_heap (d_slm row3) sim3 light3 F3 centre3 HF Hs eq_refl eq_refl (with_state row3 (DBool 1 3 f)) (with_state row3 (DFloat 1 3 g)) f g (grey3 N) n ng I _ eq_refl eq_refl eq_refl eq_refl Vg' P Pg J Jg).
    change (s_Ny (d_slm row3)) with 1%nat in K. change (s_Nx (d_slm row3)) with 3%nat in K. rewrite K. f_equal. rewrite centre_difference, shown_centre, grey_centre, <- RtoC_minus, Cmod_R, pow2_abs. rewrite B3. reflexivity. }
  rewrite (C fs ns _ Ps Js), (C fN nN _ PN JN). assert (P := eta3).
  destruct (run_patterns _ _ _ _ _ _ _ HR) as (G & HG & Hf). cbn [k_s kwin3 dflt k_N] in HG, Hf.
  assert (HG' : ifta_patterns 1 3 F3 V3 (grey3 N) N G).
  { destruct HG as [H0 HS]. split.
    - intros i j Hi Hj. rewrite H0 by assumption. rewrite row3_value by assumption. ring.
    - intros k Hk. destruct (HS k Hk) as (B & HB & HF'). exists B. split; [exact HB|]. cbv zeta in *. intros i j Hi Hj. destruct (HF' i j Hi Hj) as [X1 X2]. split; [exact X1|]. intros HL. rewrite X2 by exact HL. f_equal. f_equal.
      unfold spectrum_of. apply csum2_ext. intros u v Hu Hv. f_equal. f_equal. f_equal. f_equal. unfold shown_grey. apply image_of_ext. intros i' j' Hi' Hj'. rewrite row3_value, Rmult_1_r by assumption. reflexivity. }
  destruct (final3 N G HN HG') as (T0 & T1 & T2).
  assert (fN O O = true /\ fN O 1%nat = true /\ fN O 2%nat = false) as (-> & -> & ->).
  { split; [apply Hf; [lia|lia|exact T0]|]. split; [apply Hf; [lia|lia|exact T1]|]. apply Bool.not_true_is_false. intros X. apply Hf in X; [|lia|lia]. lra. }
  assert (fs O O = true /\ fs O 1%nat = false /\ fs O 2%nat = false) as (-> & -> & ->).
  { split; [apply Vs'; [lia|lia|exact B0]|]. split; apply Bool.not_true_is_false; intros X; apply Vs' in X; try lia; lra. }
  assert (0 < grey3 N 0 2). { unfold grey3. assert (2 <= IZR N) by (apply IZR_le in HN; exact HN). assert (/ IZR N <= / 2) by (apply Rinv_le_contravar; lra). replace (3 / (5 * IZR N)) with (3 / 5 * / IZR N) by (field; lra). lra. }
  set (e := eta_scale (d_slm row3) ^ 2) in *. split.
  - apply Rmult_lt_0_compat; [exact P|]. nra.
  - rewrite <- Rmult_assoc, (Rmult_comm 100 e), Rmult_assoc. apply Rmult_lt_compat_l; [exact P|]. nra.
Qed.
Lemma more_iterations_refuted : ~ forall h d amp pin pout kw kw' kw2 u u' u2 m a F V w n n' ng I I' Ig, let s := d_slm d in
  k_input kw' = k_input kw -> k_window kw' = k_window kw -> dflt (k_s kw) 1 = 1 -> dflt (k_s kw') 1 = 1 -> (1 <= dflt (k_N kw) 200 <= dflt (k_N kw') 200)%Z ->
  full_input h s a F -> complex_array (k_input kw) (T2 (s_Ny s) (s_Nx s) F) -> complex_array (k_window kw) (T2 (s_Ny s) (s_Nx s) V) ->
  (forall i j, in_array d i j -> V i j = RtoC (w i j) /\ (w i j = 0 \/ w i j = 1)) -> pad_x m = 0%Z -> pad_y m = 0%Z ->
  propagate_to_image h (DevDmd (fst (set_dmd_grating_state h d amp pin pout MIfta kw u))) m a = (n, Ok tt) ->
  propagate_to_image h (DevDmd (fst (set_dmd_grating_state h d amp pin pout MIfta kw' u'))) m a = (n', Ok tt) ->
  propagate_to_image h (DevDmd (fst (set_dmd_grating_state h d amp pin pout MIdeal kw2 u2))) m a = (ng, Ok tt) ->
  field_is (f_image n) (NY s m) (NX s m) I -> field_is (f_image n') (NY s m) (NX s m) I' -> field_is (f_image ng) (NY s m) (NX s m) Ig ->
  window_difference (s_Ny s) (s_Nx s) w I' Ig <= window_difference (s_Ny s) (s_Nx s) w I Ig.
Proof.
  intros H. destruct (more_iterations 2 ltac:(lia)) as (fN & f1 & fs & g & nN & n1 & ns & ng & IN & I1 & Is & Ig & E1 & E2 & E3 & E4 & (P1 & J1) & (P2 & J2) & (P3 & J3) & (P4 & J4) & L1 & L2 & L3). cbv zeta in *.
  specialize (H ex_heap row3 (amp3 2) none3 none3 (kwin3 1) (kwin3 2) (kwin3 2) (fun _ _ => 0) (fun _ _ => 0) (fun _ _ => 0) sim3 light3 F3 V3 centre3 n1 nN ng I1 IN Ig eq_refl eq_refl eq_refl eq_refl ltac:(cbn; lia) eq_refl (or_intror eq_refl) (or_intror eq_refl)).
  rewrite E1, E2, E4 in H. cbn [fst] in H. assert (K : window_difference 1 3 centre3 IN Ig <= window_difference 1 3 centre3 I1 Ig); [|lra]. apply H; try assumption; try reflexivity.
  intros i j _. split; [reflexivity|]. unfold centre3. destruct j as [|[|]]; auto.
Qed.
(** A hologram in the same beam: a bright centre, the light spread evenly over the mirrors. *)
Lemma windowed3 i j : (i < 1)%nat -> (j < 3)%nat -> windowed row3 V3 (fun _ _ => RtoC 1) i j = RtoC 1.
Proof.
  intros Hi Hj. unfold windowed. cbn [row3 dmd_new d_slm s_Ny s_Nx]. replace i with O by lia. rewrite <- (spread_of (fun _ _ => RtoC 1) j Hj) at 2. rewrite Cmult_1_r.
  unfold spectrum_of. apply csum2_ext. intros u v _ _. ring.
Qed.
Lemma hologram3 kw u : exists g, calculate_dmd_state ex_heap row3 light3 (AConstC (T2 1 3 V3)) MIdeal None kw u = (with_state row3 (DFloat 1 3 g), Ok (Fin (eta_scale (d_slm row3)))) /\
  g O O = Fin (1 / 6) /\ g O 1%nat = Fin (1 / 6) /\ g O 2%nat = Fin 1.
Proof.
  assert (Hp : d_p row3 <> 0) by (cbn; lra). assert (Hs : scaling_factor (d_slm row3) <> 0) by (unfold scaling_factor; cbn; lra).
  destruct (DmdThms.hologram_spec ex_heap row3 light3 (AConstC (T2 1 3 V3)) None F3 V3 (fun _ _ => RtoC 1) kw u eq_refl eq_refl (fun _ _ => eq_refl) Hp ltac:(cbn; lia) ltac:(cbn; lia) Hs) as (M & HM & H1 & (i1 & j1 & [Hi1 Hj1] & E1) & (g & E & Vg) & _).
  - intros i j [Hi Hj] E. contradiction (lit3 i j Hj E).
  - exists O, O. split; [split; cbn; lia|]. rewrite windowed3 by lia. intros E. injection E. lra.
  - change (s_Ny (d_slm row3)) with 1%nat in *. change (s_Nx (d_slm row3)) with 3%nat in *.
    assert (V : forall j, (j < 3)%nat -> Cmod (windowed row3 V3 (fun _ _ => RtoC 1) 0 j) / Cmod (F3 0 j) / M = / beam3 0 j / M).
    { intros j Hj. rewrite windowed3 by lia. unfold F3. rewrite !Cmod_R, !Rabs_right by (try lra; unfold beam3; destruct j as [|[|[|]]]; lra).
      assert (beam3 0 j <> 0) by (unfold beam3; destruct j as [|[|[|]]]; lra). field. split; [assumption || lra|assumption || lra]. }
    assert (EM : M = 1).
    { assert (A := H1 O 2%nat ltac:(split; cbn; lia)). cbv zeta in A. rewrite V in A by lia. cbn [beam3] in A. replace i1 with O in E1 by lia. rewrite V in E1 by exact Hj1.
      assert (1 <= M). { destruct A as [_ A]. apply (Rmult_le_compat_r M) in A; [|lra]. unfold Rdiv in A. rewrite Rmult_assoc, Rinv_l in A by lra. lra. }
      apply (f_equal (fun x => x * M)) in E1. unfold Rdiv in E1. rewrite Rmult_assoc, Rinv_l in E1 by lra. unfold beam3 in E1. destruct j1 as [|[|[|]]]; lra. }
    subst M. exists g. replace (eta_scale (d_slm row3) / 1) with (eta_scale (d_slm row3)) in E by field. split; [exact E|].
    assert (Q : forall j, (j < 3)%nat -> g O j = Fin (/ beam3 0 j)).
    { intros j Hj. rewrite (Vg O j) by (split; cbn; lia). cbv zeta. rewrite V by exact Hj. rewrite windowed3 by lia.
      replace (phase_of (RtoC 1)) with 0 by (unfold phase_of; destruct (C_dec0 _) as [X|X]; [reflexivity|symmetry; apply carg_pos_real; lra]).
      replace (carg (F3 0 j)) with 0 by (symmetry; unfold F3; apply carg_pos_real; unfold beam3; destruct j as [|[|[|]]]; lra).
      rewrite row3_carrier by lia. f_equal. field. unfold beam3; destruct j as [|[|[|]]]; lra. }
    rewrite !Q by lia. cbn [beam3]. repeat split; f_equal; lra.
Qed.
