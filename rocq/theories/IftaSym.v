(** IFTA with a beam of flat phase: only the point-symmetric part of the signal window matters (C88). *)
From Coq Require Import Reals Lra Psatz ZArith Arith List Bool Lia Classical.
From Coquelicot Require Import Complex.
From Verif Require Import Cx Sums DFT PyBase ProfileModel SlmModel LibModel DmdModel SimModel SimSpec GridFacts SimFacts SimFacts2 DmdSpec DmdFacts DmdFacts2 DmdFacts3 AmpFacts AmpFacts3 AmpFacts5 HoloSpec HoloFacts HoloFacts2 IftaFacts StabFacts.
Open Scope R_scope.

Lemma csum_reflect n f : csum n (fun k => f (reflect n k)) = csum n f.
Proof.
  destruct n as [|n]; [reflexivity|]. set (N := S n). rewrite <- (csum_rot N (2 * (N / 2) + 1) f) by (unfold N; lia).
  rewrite <- (csum_rev N (fun i => f ((i + (2 * (N / 2) + 1)) mod N)%nat)). apply csum_ext. intros k Hk. f_equal. unfold reflect. f_equal. lia.
Qed.
Lemma csum2_reflect ny nx f : csum2 ny nx (fun u v => f (reflect ny u) (reflect nx v)) = csum2 ny nx f.
Proof.
  unfold csum2. rewrite <- (csum_reflect ny (fun u => csum nx (fun v => f u v))). apply csum_ext. intros u Hu. exact (csum_reflect nx (fun v => f (reflect ny u) v)).
Qed.
Lemma spectrum_conj ny nx Z i j : (i < ny)%nat -> (j < nx)%nat -> cconj (spectrum_of ny nx Z i j) = spectrum_of ny nx (fun u v => cconj (Z (reflect ny u) (reflect nx v))) i j.
Proof.
  intros Hi Hj. unfold spectrum_of. rewrite csum2_conj. rewrite <- csum2_reflect. apply csum2_ext. intros u v Hu Hv. rewrite wave_reflect by assumption. rewrite cconj_mult, cconj_conj. reflexivity.
Qed.
Lemma spectrum_plus ny nx Z Z' i j : spectrum_of ny nx (fun u v => (Z u v + Z' u v)%C) i j = (spectrum_of ny nx Z i j + spectrum_of ny nx Z' i j)%C.
Proof. unfold spectrum_of. rewrite <- csum2_plus. apply csum2_ext. intros u v _ _. ring. Qed.
Lemma image_plus ny nx E E' u v : (u < ny)%nat -> (v < nx)%nat -> image_of ny nx (fun i j => (E i j + E' i j)%C) u v = (image_of ny nx E u v + image_of ny nx E' u v)%C.
Proof.
  intros Hu Hv. unfold image_of. assert (RtoC (INR (ny * nx)) <> RtoC 0) by (apply RtoC_neq_0, INR_neq_0; nia).
  replace (csum2 ny nx (fun i j => ((E i j + E' i j) * wave ny nx i j u v)%C)) with (csum2 ny nx (fun i j => (E i j * wave ny nx i j u v)%C) + csum2 ny nx (fun i j => (E' i j * wave ny nx i j u v)%C))%C; [field; assumption|].
  rewrite <- csum2_plus. apply csum2_ext. intros i j _ _. ring.
Qed.
Lemma image_scal ny nx c E u v : (u < ny)%nat -> (v < nx)%nat -> image_of ny nx (fun i j => (c * E i j)%C) u v = (c * image_of ny nx E u v)%C.
Proof.
  intros Hu Hv. unfold image_of. assert (RtoC (INR (ny * nx)) <> RtoC 0) by (apply RtoC_neq_0, INR_neq_0; nia).
  replace (csum2 ny nx (fun i j => (c * E i j * wave ny nx i j u v)%C)) with (c * csum2 ny nx (fun i j => (E i j * wave ny nx i j u v)%C))%C; [field; assumption|].
  rewrite <- csum2_scal_l. apply csum2_ext. intros i j _ _. ring.
Qed.
Lemma image_real_reflect ny nx (X : nat -> nat -> R) u v : (u < ny)%nat -> (v < nx)%nat ->
  cconj (image_of ny nx (fun i j => RtoC (X i j)) (reflect ny u) (reflect nx v)) = image_of ny nx (fun i j => RtoC (X i j)) u v.
Proof.
  intros Hu Hv. unfold image_of. rewrite cconj_div_R by (apply INR_neq_0; nia). f_equal. rewrite csum2_conj. apply csum2_ext. intros i j Hi Hj. rewrite wave_reflect by assumption. rewrite cconj_mult, cconj_conj, cconj_RtoC. reflexivity.
Qed.
Lemma fst_avg z : ((z + cconj z) / RtoC 2)%C = RtoC (fst z).
Proof. destruct z as [a b]. unfold cconj, RtoC, Cdiv, Cplus, Cinv, Cmult. cbn [fst snd]. f_equal; field. Qed.
Lemma spectrum_sym ny nx V X i j : (i < ny)%nat -> (j < nx)%nat -> let Y := image_of ny nx (fun i j => RtoC (X i j)) in
  spectrum_of ny nx (fun u v => (symmetric_part ny nx V u v * Y u v)%C) i j = RtoC (fst (spectrum_of ny nx (fun u v => (V u v * Y u v)%C) i j)).
Proof.
  intros Hi Hj Y. rewrite <- fst_avg, (spectrum_conj ny nx _ i j Hi Hj), <- spectrum_plus. rewrite <- (Cmult_1_l (_ / _)%C). unfold Cdiv. rewrite Cmult_1_l, Cmult_comm, <- spectrum_of_scal.
  apply spectrum_of_ext. intros u v Hu Hv. unfold symmetric_part. rewrite cconj_mult. unfold Y at 3. rewrite image_real_reflect by assumption. fold Y. unfold Cdiv. ring.
Qed.

Lemma classic_fin ny nx (g : nat -> nat -> xr) : (forall i j, (i < ny)%nat -> (j < nx)%nat -> g i j = Fin (xr_val (g i j))) \/
  exists i j, (i < ny)%nat /\ (j < nx)%nat /\ forall r, g i j <> Fin r.
Proof.
  destruct (classic (exists i j, (i < ny)%nat /\ (j < nx)%nat /\ forall r, g i j <> Fin r)) as [H|H]; [right; exact H|left].
  intros i j Hi Hj. destruct (g i j) as [r| | |] eqn:E; [reflexivity| | |]; exfalso; apply H; exists i, j; repeat split; try assumption; intros r; rewrite E; discriminate.
Qed.
Section Flat.
Variables (ny nx : nat) (A : nat -> nat -> R) (c : R) (F : nat -> nat -> C).
Hypothesis HF : forall i j, (i < ny)%nat -> (j < nx)%nat -> F i j = (RtoC (A i j) * cis c)%C.
Let X (q b : nat -> nat -> R) (i j : nat) : R := A i j * (q i j - b i j).
Lemma flat_diff q b u v : (u < ny)%nat -> (v < nx)%nat ->
  (image_of ny nx (fun i j => (F i j * RtoC (q i j))%C) u v - image_of ny nx (fun i j => (F i j * RtoC (b i j))%C) u v)%C = (cis c * image_of ny nx (fun i j => RtoC (X q b i j)) u v)%C.
Proof.
  intros Hu Hv. rewrite <- image_scal by assumption. replace (image_of ny nx (fun i j => (F i j * RtoC (q i j))%C) u v) with (image_of ny nx (fun i j => (cis c * RtoC (X q b i j) + F i j * RtoC (b i j))%C) u v).
  - rewrite image_plus by assumption. ring.
  - apply image_of_ext. intros i j Hi Hj. unfold X. rewrite HF, RtoC_mult, RtoC_minus by assumption. ring.
Qed.
Lemma cis_neq0 t : cis t <> RtoC 0.
Proof. intros E. assert (K := Cmod_cis t). rewrite E, Cmod_0 in K. lra. Qed.
Lemma rstep_flat V q t g i j : (i < ny)%nat -> (j < nx)%nat -> F i j <> RtoC 0 -> let b := fun i j => clip t (g i j) in
  rstep ny nx F V q t g i j = b i j + fst (spectrum_of ny nx (fun u v => (V u v * image_of ny nx (fun i j => RtoC (X q b i j)) u v)%C) i j) / A i j.
Proof.
  intros Hi Hj HN b. rewrite rstep_centred by assumption. destruct (C_dec0 (F i j)); [contradiction|]. cbv zeta. fold b.
  set (Y := image_of ny nx (fun i j => RtoC (X q b i j))).
  replace (spectrum_of ny nx _ i j) with (F i j * RtoC (b i j) + cis c * spectrum_of ny nx (fun u v => (V u v * Y u v)%C) i j)%C.
  - assert (A i j <> 0) by (intros E; apply HN; rewrite HF, E by assumption; ring). assert (K := cis_neq0 c). rewrite HF by assumption.
    assert (RtoC (A i j) <> RtoC 0) by (apply RtoC_neq_0; assumption).
    replace ((RtoC (A i j) * cis c * RtoC (b i j) + cis c * spectrum_of ny nx (fun u v => (V u v * Y u v)%C) i j) / (RtoC (A i j) * cis c))%C
      with (RtoC (b i j) + spectrum_of ny nx (fun u v => (V u v * Y u v)%C) i j * RtoC (/ A i j))%C by (rewrite RtoC_inv by assumption; field; split; assumption).
    generalize (spectrum_of ny nx (fun u v => (V u v * Y u v)%C) i j). intros z. unfold RtoC, Cplus, Cmult. cbn [fst snd]. field. assumption.
  - rewrite <- spectrum_of_scal. rewrite <- (spectrum_of_image ny nx (fun i j => (F i j * RtoC (b i j))%C) i j Hi Hj) at 1. rewrite <- spectrum_plus.
    apply spectrum_of_ext. intros u v Hu Hv. change (fun i j => (F i j * RtoC (clip t (g i j)))%C) with (fun i j => (F i j * RtoC (b i j))%C). rewrite (flat_diff q b u v Hu Hv). fold Y. ring.
Qed.
Lemma rstep_sym V V' q t g g' : (forall u v, (u < ny)%nat -> (v < nx)%nat -> symmetric_part ny nx V u v = symmetric_part ny nx V' u v) -> (forall i j, (i < ny)%nat -> (j < nx)%nat -> g i j = g' i j) ->
  forall i j, (i < ny)%nat -> (j < nx)%nat -> rstep ny nx F V q t g i j = rstep ny nx F V' q t g' i j.
Proof.
  intros HS HG i j Hi Hj. destruct (C_dec0 (F i j)) as [E|E]; [unfold rstep; destruct (C_dec0 (F i j)); [reflexivity|contradiction]|].
  rewrite !rstep_flat by assumption. cbv zeta. rewrite HG by assumption. f_equal. f_equal.
  set (b := fun i j => clip t (g i j)). set (b' := fun i j => clip t (g' i j)).
  assert (EY : forall u v, image_of ny nx (fun i j => RtoC (X q b i j)) u v = image_of ny nx (fun i j => RtoC (X q b' i j)) u v) by (intros u v; apply image_of_ext; intros k l Hk Hl; unfold X, b, b'; rewrite HG by assumption; reflexivity).
  assert (K1 := spectrum_sym ny nx V (X q b) i j Hi Hj). assert (K2 := spectrum_sym ny nx V' (X q b') i j Hi Hj). cbv zeta in K1, K2.
  apply (f_equal fst) in K1. apply (f_equal fst) in K2. cbn [RtoC fst] in K1, K2. rewrite <- K1, <- K2. f_equal. apply spectrum_of_ext. intros u v Hu Hv. rewrite HS, EY by assumption. reflexivity.
Qed.
Lemma rloop_sym V V' q N : (forall u v, (u < ny)%nat -> (v < nx)%nat -> symmetric_part ny nx V u v = symmetric_part ny nx V' u v) ->
  forall k i j, (i < ny)%nat -> (j < nx)%nat -> rloop ny nx F V q N k i j = rloop ny nx F V' q N k i j.
Proof. intros HS. induction k as [|k IH]; intros i j Hi Hj; [reflexivity|]. cbn [rloop]. apply rstep_sym; assumption. Qed.
Lemma array_sym V V' g0 N s : (forall u v, (u < ny)%nat -> (v < nx)%nat -> symmetric_part ny nx V u v = symmetric_part ny nx V' u v) ->
  forall i j, (i < ny)%nat -> (j < nx)%nat -> ifta_array ny nx F V g0 N s i j = ifta_array ny nx F V' g0 N s i j.
Proof.
  intros HS i j Hi Hj. destruct (Z_le_gt_dec N 0) as [HN|HN]; [unfold ifta_array; replace (Z.to_nat N) with O by lia; reflexivity|].
  destruct (classic_fin ny nx g0) as [HG|(i0 & j0 & H1 & H2 & H3)].
  - assert (K := array_some ny nx F V g0 (fun i j => xr_val (g0 i j)) N s i j HG Hi Hj). assert (K' := array_some ny nx F V' g0 (fun i j => xr_val (g0 i j)) N s i j HG Hi Hj).
    rewrite (rloop_sym V V' _ N HS) in K by assumption. destruct (ifta_array ny nx F V g0 N s i j), (ifta_array ny nx F V' g0 N s i j); intuition congruence.
  - rewrite !(array_none ny nx F _ g0 N s i0 j0) by (assumption || lia). reflexivity.
Qed.
(** A window whose symmetric part is the constant a, 0 <= a <= 1, corrects nothing. *)
Lemma rstep_const V a q t g i j : (forall u v, (u < ny)%nat -> (v < nx)%nat -> symmetric_part ny nx V u v = RtoC a) -> (i < ny)%nat -> (j < nx)%nat -> F i j <> RtoC 0 ->
  rstep ny nx F V q t g i j = (1 - a) * clip t (g i j) + a * q i j.
Proof.
  intros HS Hi Hj HN. rewrite rstep_flat by assumption. cbv zeta. set (b := fun i j => clip t (g i j)).
  assert (K := spectrum_sym ny nx V (X q b) i j Hi Hj). cbv zeta in K. apply (f_equal fst) in K. cbn [RtoC fst] in K. rewrite <- K.
  rewrite (spectrum_of_ext ny nx _ (fun u v => (RtoC a * image_of ny nx (fun i j => RtoC (X q b i j)) u v)%C)) by (intros u v Hu Hv; rewrite HS by assumption; reflexivity).
  rewrite spectrum_of_scal, spectrum_of_image by assumption. unfold X. assert (A i j <> 0) by (intros E; apply HN; rewrite HF, E by assumption; ring).
  rewrite <- RtoC_mult. cbn [RtoC fst]. change (clip t (g i j)) with (b i j). field. assumption.
Qed.
Lemma rloop_const V a q N k : 0 <= a <= 1 -> (1 <= N)%Z -> (k <= Z.to_nat N)%nat -> (forall u v, (u < ny)%nat -> (v < nx)%nat -> symmetric_part ny nx V u v = RtoC a) ->
  forall i j, (i < ny)%nat -> (j < nx)%nat -> F i j <> RtoC 0 -> (1 / 2 < rloop ny nx F V q N k i j <-> 1 / 2 < q i j).
Proof.
  intros Ha HN Hk HS i j Hi Hj HL. induction k as [|k IH]; [tauto|]. specialize (IH ltac:(lia)). cbn [rloop]. rewrite (rstep_const V a) by assumption.
  assert (T := thr_range N k HN ltac:(lia)). assert (K := clip_half _ (rloop ny nx F V q N k i j) T). set (b := clip _ _) in *. clearbody b.
  destruct (Rlt_dec (1 / 2) (q i j)) as [L|L].
  - split; [intros _; exact L|intros _]. assert (1 / 2 < b) by (apply K, IH, L). destruct (Req_dec a 1) as [->|]; nra.
  - assert (~ 1 / 2 < b) by (intros Q; apply L, IH, K, Q). split; [|contradiction]. intros Q. exfalso. nra.
Qed.
(** Where every mirror is lit, the pattern before binarisation displays the corrected image exactly. *)
Lemma rstep_image V q t g u v : (forall i j, (i < ny)%nat -> (j < nx)%nat -> A i j <> 0) -> (u < ny)%nat -> (v < nx)%nat ->
  let shown := image_of ny nx (fun i j => (F i j * RtoC (clip t (g i j)))%C) u v in
  image_of ny nx (fun i j => (F i j * RtoC (rstep ny nx F V q t g i j))%C) u v
  = (shown + symmetric_part ny nx V u v * (image_of ny nx (fun i j => (F i j * RtoC (q i j))%C) u v - shown))%C.
Proof.
  intros HA Hu Hv shown. set (b := fun i j => clip t (g i j)). set (Y := image_of ny nx (fun i j => RtoC (X q b i j))).
  assert (E : forall i j, (i < ny)%nat -> (j < nx)%nat -> (F i j * RtoC (rstep ny nx F V q t g i j))%C = (F i j * RtoC (b i j) + cis c * spectrum_of ny nx (fun u v => (symmetric_part ny nx V u v * Y u v)%C) i j)%C).
  { intros i j Hi Hj. assert (HN : F i j <> RtoC 0). { rewrite HF by assumption. intros E. assert (K := cis_neq0 c). apply (f_equal Cmod) in E. rewrite Cmod_mult, Cmod_cis, Cmod_R, Cmod_0, Rmult_1_r in E. destruct (Req_dec (A i j) 0) as [Z|Z]; [exact (HA i j Hi Hj Z)|]. apply Rabs_no_R0 in Z. contradiction. }
    assert (SS := spectrum_sym ny nx V (X q b) i j Hi Hj). cbv zeta in SS. fold Y in SS. rewrite SS. rewrite rstep_flat by assumption. cbv zeta. fold b. fold Y. change (clip t (g i j)) with (b i j). specialize (HA i j Hi Hj).
    rewrite HF by assumption. rewrite RtoC_plus. unfold Rdiv. rewrite RtoC_mult, RtoC_inv by assumption. assert (RtoC (A i j) <> RtoC 0) by (apply RtoC_neq_0; assumption). field. assumption. }
  rewrite (image_of_ext ny nx _ _ u v E). rewrite image_plus, image_scal, image_of_spectrum by assumption.
  change (image_of ny nx (fun i j => (F i j * RtoC (b i j))%C) u v) with shown. unfold shown. change (fun i j => (F i j * RtoC (clip t (g i j)))%C) with (fun i j => (F i j * RtoC (b i j))%C). rewrite flat_diff by assumption. fold Y. ring.
Qed.
Lemma run_sym V V' q N f f' : (forall u v, (u < ny)%nat -> (v < nx)%nat -> symmetric_part ny nx V u v = symmetric_part ny nx V' u v) ->
  ifta_run ny nx F V q N f -> ifta_run ny nx F V' q N f' -> forall i j, (i < ny)%nat -> (j < nx)%nat -> f i j = f' i j.
Proof.
  intros HS R1 R2 i j Hi Hj. destruct (run_facts _ _ _ _ _ _ _ R1) as (g & H1 & H2). destruct (run_facts _ _ _ _ _ _ _ R2) as (g' & H3 & H4).
  specialize (H1 i j Hi Hj). specialize (H3 i j Hi Hj). rewrite H2, (rloop_sym V V' q N HS) in H1 by assumption. rewrite H4 in H3 by assumption. destruct (f i j), (f' i j); intuition congruence.
Qed.
Lemma run_const V a q N f : 0 <= a <= 1 -> (forall u v, (u < ny)%nat -> (v < nx)%nat -> symmetric_part ny nx V u v = RtoC a) ->
  ifta_run ny nx F V q N f -> forall i j, (i < ny)%nat -> (j < nx)%nat -> F i j <> RtoC 0 -> (f i j = true <-> 1 / 2 < q i j).
Proof.
  intros Ha HS R1 i j Hi Hj HL. destruct (Z_le_gt_dec N 0) as [HN|HN]; [apply (proj1 (run_consequences _ _ _ _ _ _ _ R1)); assumption|].
  destruct (run_facts _ _ _ _ _ _ _ R1) as (g & H1 & H2). rewrite H1, H2 by assumption. apply (rloop_const V a); try assumption; lia.
Qed.
Lemma run_image V q N f : (forall i j, (i < ny)%nat -> (j < nx)%nat -> A i j <> 0) -> ifta_run ny nx F V q N f ->
  exists G : nat -> nat -> nat -> R, (forall i j, (i < ny)%nat -> (j < nx)%nat -> G O i j = q i j) /\
    (forall k, (k < Z.to_nat N)%nat -> exists B : nat -> nat -> R,
       (forall i j, (i < ny)%nat -> (j < nx)%nat -> clipped (INR (k + 1) / (2 * IZR N)) (G k i j) (B i j)) /\
       forall u v, (u < ny)%nat -> (v < nx)%nat -> let shown := image_of ny nx (fun i j => (F i j * RtoC (B i j))%C) u v in
         image_of ny nx (fun i j => (F i j * RtoC (G (S k) i j))%C) u v
         = (shown + symmetric_part ny nx V u v * (image_of ny nx (fun i j => (F i j * RtoC (q i j))%C) u v - shown))%C) /\
    (forall i j, (i < ny)%nat -> (j < nx)%nat -> (f i j = true <-> 1 / 2 < G (Z.to_nat N) i j)).
Proof.
  intros HA R1. destruct (run_facts _ _ _ _ _ _ _ R1) as (g & H1 & H2). exists (rloop ny nx F V q N). split; [reflexivity|]. split.
  - intros k Hk. exists (fun i j => clip ((INR k + 1) * (0.5 / IZR N)) (rloop ny nx F V q N k i j)). split.
    + intros i j _ _. replace (INR (k + 1) / (2 * IZR N)) with ((INR k + 1) * (0.5 / IZR N)); [apply clip_clipped|].
      rewrite plus_INR. cbn [INR]. replace 0.5 with (1 / 2) by lra. field. apply not_0_IZR. lia.
    + intros u v Hu Hv. cbv zeta. cbn [rloop]. apply rstep_image; assumption.
  - intros i j Hi Hj. rewrite H1, H2 by assumption. tauto.
Qed.
End Flat.

(** ** The program *)
Lemma calc_sym h d input target w F A c T W V V' kw kw' wi wi' u : let s := d_slm d in
  full_input h s input F -> (forall i j, in_array d i j -> F i j = (RtoC (A i j) * cis c)%C) -> full_target h s target T -> window_reads h s w W -> d_p d <> 0 ->
  k_window kw = Some wi -> full_target h s wi V -> k_window kw' = Some wi' -> full_target h s wi' V' -> k_N kw = k_N kw' -> k_s kw = k_s kw' ->
  (forall u v, in_array d u v -> symmetric_part (s_Ny s) (s_Nx s) V u v = symmetric_part (s_Ny s) (s_Nx s) V' u v) ->
  let r := calculate_dmd_state h d input target MIfta w kw u in let r' := calculate_dmd_state h d input target MIfta w kw' u in
  snd r = snd r' /\ same_state (d_state (fst r)) (d_state (fst r')).
Proof.
  intros s HF HA HT HW Hp K1 V1 K2 V2 EN Es HS. destruct (calc_ifta h d input target w F T W V kw wi u HF HT HW Hp K1 V1) as (g & r & E1 & E2).
  destruct (calc_ifta h d input target w F T W V' kw' wi' u HF HT HW Hp K2 V2) as (g' & r' & E3 & E4). cbv zeta. rewrite E2, E4.
  assert (Q : calculate_dmd_state h d input target MIdeal w kw u = calculate_dmd_state h d input target MIdeal w kw' u).
  { rewrite !calc_split. replace (calc_new h d input target MIdeal w kw u) with (calc_new h d input target MIdeal w kw' u) by reflexivity. reflexivity. }
  rewrite E1, E3 in Q. injection Q as Q1 Q2. subst g' r'. split; [reflexivity|]. cbn [fst with_state d_state same_state]. split; [reflexivity|]. split; [reflexivity|].
  intros i j Hi Hj. cbn [state_shape fst snd] in Hi, Hj. cbn [cell_at]. f_equal. rewrite EN, Es. apply (array_sym (s_Ny s) (s_Nx s) A c F); try assumption; intros k l Hk Hl; [apply HA|apply HS]; split; assumption.
Qed.
Lemma grating_sym h d amp pin pout P Pi Po F A c V V' kw kw' u : let s := d_slm d in
  reads h s amp P -> reads h s pin Pi -> reads h s pout Po -> d_p d <> 0 -> (forall i j, in_array d i j -> F i j = (RtoC (A i j) * cis c)%C) ->
  complex_array (k_input kw) (T2 (s_Ny s) (s_Nx s) F) -> complex_array (k_input kw') (T2 (s_Ny s) (s_Nx s) F) ->
  complex_array (k_window kw) (T2 (s_Ny s) (s_Nx s) V) -> complex_array (k_window kw') (T2 (s_Ny s) (s_Nx s) V') -> k_N kw = k_N kw' -> k_s kw = k_s kw' ->
  (forall u v, in_array d u v -> symmetric_part (s_Ny s) (s_Nx s) V u v = symmetric_part (s_Ny s) (s_Nx s) V' u v) ->
  let r := set_dmd_grating_state h d amp pin pout MIfta kw u in let r' := set_dmd_grating_state h d amp pin pout MIfta kw' u in
  snd r = Ok tt /\ snd r' = Ok tt /\ same_state (d_state (fst r)) (d_state (fst r')).
Proof.
  intros s HP HI HO Hp HA K1 K2 W1 W2 EN Es HS. destruct (ifta_grating h d amp pin pout P Pi Po kw F V u HP HI HO Hp K1 W1) as (f & E1 & R1).
  destruct (ifta_grating h d amp pin pout P Pi Po kw' F V' u HP HI HO Hp K2 W2) as (f' & E2 & R2). cbv zeta. rewrite E1, E2. split; [reflexivity|]. split; [reflexivity|].
  cbn [fst with_state d_state same_state]. split; [reflexivity|]. split; [reflexivity|]. intros i j Hi Hj. cbn [state_shape fst snd] in Hi, Hj. cbn [cell_at]. f_equal.
  rewrite EN, Es in R1. apply (run_sym (s_Ny s) (s_Nx s) A c F (fun i j Hi Hj => HA i j (conj Hi Hj)) V V' _ _ f f' (fun u v Hu Hv => HS u v (conj Hu Hv)) R1 R2 i j Hi Hj).
Qed.
