(** C115: a vortex on a DLP9500. *)
From Coq Require Import Reals Lra Psatz ZArith Arith List Bool Lia.
From Coquelicot Require Import Rcomplements Complex.
From Verif Require Import Cx Sums PyBase ProfileModel ProfSpec SlmModel LibModel DmdModel SimModel SimSpec ModeSpec DFT ModeFacts ModeThms GridFacts GaussSum GaussFacts HermSpec HermSum HermSum2 HermFacts HermCase RingSpec RingAlg RingFacts.
Import ListNotations.
Open Scope R_scope.

Lemma herm_small' q L0 b kappa : ((q = 1%nat /\ L0 = 5.832 /\ b = 0.0029) \/ (q = 0%nat /\ L0 = 10.368 /\ b = 0.0018)) -> Rabs (1 / 1000 * kappa) <= 2 ->
  0 <= hg_axis_error q (10.8 / 1000000) (L0 / 1000) 0 (1 / 1000) kappa <= b * (sqrt PI * (1 / 1000)).
Proof.
  intros HQ Hk. unfold hg_axis_error. cbv zeta. set (k := 1 / 1000 * kappa) in *.
  replace (- (L0 / 1000 + 0) / (1 / 1000)) with (- L0) by field. replace ((L0 / 1000 - 0) / (1 / 1000)) with L0 by field. replace (2 * (L0 / 1000) / (1 / 1000)) with (2 * L0) by field.
  replace (10.8 / 1000000 / (1 / 1000)) with 0.0108 by lra.
  assert (HL : L0 = 5.832 \/ L0 = 10.368) by (destruct HQ as [(_ & E & _)|(_ & E & _)]; [left|right]; exact E).
  destruct (low_tails L0 k HL Hk) as (A0 & A1 & T0 & T1). assert (P3 := sqrtPI_lb).
  destruct sup0_small as (B0 & B1 & _). destruct sup1_small as (C0 & C1 & _). destruct sup2_small as (D0 & D1).
  assert (K0 := Rabs_pos k). assert (K2 : 0 <= k ^ 2 <= 4) by (split; [apply pow2_ge_0|rewrite <- (pow2_abs k); nra]).
  destruct HQ as [(-> & -> & ->)|(-> & -> & ->)].
  - assert (0 <= 2 * Rabs k * sup1 1 <= 4 * 5.241) by (split; [apply Rmult_le_pos; lra|apply Rmult_le_compat; lra]).
    assert (0 <= k ^ 2 * sup0 1 <= 4 * 2.214) by (split; [apply Rmult_le_pos; lra|apply Rmult_le_compat; lra]).
    set (M := sup2 1 + _ + _). assert (0 <= M <= 43.17) by (unfold M; lra). clearbody M. split; lra.
  - assert (0 <= 2 * Rabs k * sup1 0 <= 4 * 1.566) by (split; [apply Rmult_le_pos; lra|apply Rmult_le_compat; lra]).
    assert (0 <= k ^ 2 * sup0 0 <= 4 * 1.19) by (split; [apply Rmult_le_pos; lra|apply Rmult_le_compat; lra]).
    set (M := sup2 0 + _ + _). assert (0 <= M <= 14.74) by (unfold M; lra). clearbody M. split; lra.
Qed.
Lemma one_percent' t s0 s1 e0 e1 : 0 < t -> 0 <= s0 <= 1.19 -> 0 <= s1 <= 2.214 -> 0 <= e0 <= 0.0018 * t -> 0 <= e1 <= 0.0029 * t ->
  product_error (t * s1) (t * s0) e1 e0 <= 0.01 * t ^ 2.
Proof.
  intros Ht H0 H1 E0 E1. unfold product_error. replace ((t * s1 + e1) * (t * s0 + e0) - t * s1 * (t * s0)) with (t * (s0 * e1 + s1 * e0) + e0 * e1) by ring.
  assert (s0 * e1 <= 1.19 * (0.0029 * t)) by (apply Rmult_le_compat; lra). assert (s1 * e0 <= 2.214 * (0.0018 * t)) by (apply Rmult_le_compat; lra).
  assert (e0 * e1 <= (0.0018 * t) * (0.0029 * t)) by (apply Rmult_le_compat; lra). assert (t * (s0 * e1 + s1 * e0) <= t * (1.19 * (0.0029 * t) + 2.214 * (0.0018 * t))) by (apply Rmult_le_compat_l; lra). nra.
Qed.
Lemma vortex_on_panel h wl fl per th neg m a (left : bool) X Y : wl * fl <> 0 -> (0 <= pad_x m)%Z -> (0 <= pad_y m)%Z ->
  let d := set_dmd_state_on (DLP9500 wl fl per th neg) in let s := d_slm d in let w := 1 / 1000 in let waist := wl * fl / (PI * w) in
  let l := if left then (-1)%Z else 1%Z in
  grid_is (image_plane_padded_grid s m) (NY s m) (NX s m) X Y ->
  exists h1 p m' I, lg_new h 0 0 a w l 0 = Ok (h1, p) /\ propagate_to_image h1 (DevDmd d) m (AProf p) = (m', Ok tt) /\ field_is (f_image m') (NY s m) (NX s m) I /\
  forall u v, (u < NY s m)%nat -> (v < NX s m)%nat -> Rabs (X u v) <= Rabs waist -> Rabs (Y u v) <= Rabs waist ->
  let b := a * (w / waist) in
  Cmod (I u v - Ci * odd_phase (NY s m) (NX s m) u v * RtoC (b * exp (- (X u v ^ 2 + Y u v ^ 2) / waist ^ 2)) *
        (RtoC (sqrt 2 * X u v / waist) + (if left then Ci else - Ci) * RtoC (sqrt 2 * Y u v / waist)))%C <= 0.01 * Rabs b.
Proof.
  intros Hsf Px Py d s w waist l GX. assert (EX : INR 1920 = 1920) by (rewrite INR_IZR_INZ; reflexivity). assert (EY : INR 1080 = 1080) by (rewrite INR_IZR_INZ; reflexivity).
  assert (Ehs : pixel_size s = 10.8 / 1000000) by (cbn; unfold micro; lra). assert (ENx : s_Nx s = 1920%nat) by reflexivity. assert (ENy : s_Ny s = 1080%nat) by reflexivity.
  assert (Eq : Z.abs_nat l = 1%nat) by (unfold l; destruct left; reflexivity).
  destruct (lg_image h (DevDmd d) m 0 0 a w l 0 (RtoC 1) (fun i j => RtoC (if true then 1 else 0)) X Y) as (h1 & p & m' & I & E1 & E2 & E3 & B); cbn [dev_slm]; fold s; rewrite ?Ehs, ?ENx, ?ENy, ?EX, ?EY, ?Rabs_R0; try (unfold w; lra); try lia; try assumption.
  - exact (on_state (DLP9500 wl fl per th neg)).
  - reflexivity.
  - cbn [dev_slm] in E3, B. fold s in E3, B. rewrite Ehs, ENx, ENy, EX, EY in B. exists h1, p, m', I. split; [exact E1|]. split; [exact E2|]. split; [exact E3|].
    intros u v Hu Hv BX BY. set (b := a * (w / waist)). destruct (to_polar 0 0 (X u v) (Y u v)) as (r & phi & Hr & PX & PY). rewrite Rplus_0_l in PX, PY.
    assert (Q := B u v r phi Hu Hv PX PY). change (scaling_factor s) with (wl * fl) in Q. change (wavelength s * focal_length s) with (wl * fl) in Q. fold waist in Q. set (sf := wl * fl) in *. rewrite Eq in Q. cbn [rings_abs vortex_abs] in Q.
    assert (PP := PI_RGT_0). assert (Hw : 0 < w) by (unfold w; lra).
    assert (Hw0 : waist <> 0). { unfold waist, Rdiv. apply Rmult_integral_contrapositive. split; [exact Hsf|]. apply Rinv_neq_0_compat. apply Rmult_integral_contrapositive. split; lra. }
    assert (K : forall z, Rabs z <= Rabs waist -> Rabs (w * (2 * PI * z / sf)) <= 2).
    { intros z Hz. replace (w * (2 * PI * z / sf)) with (2 * z / waist) by (unfold waist; field; repeat split; lra). unfold Rdiv. rewrite !Rabs_mult, Rabs_inv, (Rabs_pos_eq 2) by lra.
      assert (Hwa : 0 < Rabs waist) by (apply Rabs_pos_lt, Hw0).
      apply (Rmult_le_reg_r (Rabs waist)); [exact Hwa|]. replace (2 * Rabs z * / Rabs waist * Rabs waist) with (2 * Rabs z) by (field; lra). lra. }
    assert (A1 := herm_small 1 10.368 0.0051 _ (or_introl (conj eq_refl (conj eq_refl eq_refl))) (K _ BX)). assert (A2 := herm_small 0 5.832 0.001 _ (or_intror (conj eq_refl (conj eq_refl eq_refl))) (K _ BY)).
    assert (A3 := herm_small' 0 10.368 0.0018 _ (or_intror (conj eq_refl (conj eq_refl eq_refl))) (K _ BX)). assert (A4 := herm_small' 1 5.832 0.0029 _ (or_introl (conj eq_refl (conj eq_refl eq_refl))) (K _ BY)). fold w in A1, A2, A3, A4.
    replace (1080 / 2 * (10.8 / 1000000)) with (5.832 / 1000) in Q by lra. replace (1920 / 2 * (10.8 / 1000000)) with (10.368 / 1000) in Q by lra.
    match type of A1 with 0 <= ?x <= _ => set (e1 := x) in * end. match type of A2 with 0 <= ?x <= _ => set (e2 := x) in * end. match type of A3 with 0 <= ?x <= _ => set (e3 := x) in * end. match type of A4 with 0 <= ?x <= _ => set (e4 := x) in * end.
    assert (S0 := sqrtPI_pos). set (t := sqrt PI * w) in *. assert (Ht : 0 < t) by (apply Rmult_lt_0_compat; lra).
    assert (ET : t ^ 2 = PI * w ^ 2). { unfold t. rewrite Rpow_mult_distr. f_equal. rewrite <- Rsqr_pow2. apply Rsqr_sqrt. lra. }
    destruct sup0_small as (B0 & B1 & _). assert (D := one_percent t (sup0 0) (sup0 1) e2 e1 Ht B0 B1 A2 A1). assert (D' := one_percent' t (sup0 0) (sup0 1) e3 e4 Ht B0 B1 A3 A4).
    assert (PK : Rabs b = Rabs a / Rabs sf * t ^ 2). { unfold b. rewrite ET. replace (a * (w / waist)) with (a / sf * (PI * w ^ 2)) by (unfold waist; field; repeat split; lra).
      unfold Rdiv at 1. rewrite !Rabs_mult, Rabs_inv, (Rabs_pos_eq PI) by lra. rewrite (Rabs_pos_eq (w ^ 2)) by apply pow2_ge_0. reflexivity. }
    rewrite PK. rewrite Cmod_1 in Q. replace (1 * Rabs a / Rabs sf / (4 ^ 0 * INR (fact 0) * 2 ^ 1)) with (Rabs a / Rabs sf * / 2) in Q by (cbn [pow fact INR]; field; apply Rabs_no_R0, Hsf). assert (0 <= Rabs a / Rabs sf) by (apply Rmult_le_pos; [apply Rabs_pos|left; apply Rinv_0_lt_compat, Rabs_pos_lt, Hsf]).
    eapply Rle_trans; [|eapply Rle_trans; [exact Q|]].
    + right. f_equal. f_equal.
      replace (2 * PI * (0 * X u v + 0 * Y u v) / sf + INR (2 * 0 + 1) * (PI / 2)) with (PI / 2) by (cbn [INR Nat.add Nat.mul]; unfold Rdiv; ring).
      replace (cis (PI / 2)) with Ci by (unfold cis; rewrite cos_PI2, sin_PI2; reflexivity). rewrite Cmult_1_l.
      match goal with |- (Ci * ?o * ?x * ?y = _ * _ * ?z)%C => assert (EL : (x * y)%C = z) end; [|rewrite <- EL; ring].
      unfold lg_mode. fold b. rewrite Eq.
      unfold laguerre. cbn [laguerre_pair fst]. replace (X u v ^ 2 + Y u v ^ 2) with (r ^ 2) by (rewrite PX, PY; assert (CS := sin2_cos2 phi); rewrite !Rsqr_pow2 in CS; transitivity (r ^ 2 * (sin phi ^ 2 + cos phi ^ 2)); [rewrite CS; ring|ring]).
      rewrite PX, PY. set (g := exp _). unfold cis, l. destruct left.
      * replace (- -1 * phi) with phi by ring. apply injective_projections; cbn -[sqrt sin cos Rdiv pow]; field; exact Hw0.
      * replace (- (1) * phi) with (- phi) by ring. rewrite cos_neg, sin_neg. apply injective_projections; cbn -[sqrt sin cos Rdiv pow]; field; exact Hw0.
    + rewrite Rmult_assoc. replace (0.01 * (Rabs a / Rabs sf * t ^ 2)) with (Rabs a / Rabs sf * (0.01 * t ^ 2)) by ring. apply Rmult_le_compat_l; [assumption|]. lra.
Qed.
