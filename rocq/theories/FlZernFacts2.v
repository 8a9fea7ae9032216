(** Rounding errors of Zernike modes at the pixels of an array. *)
From Coq Require Import Reals ZArith List Bool Lia Lra Psatz.
From Verif Require Import Cx Sums PyBase ProfileModel ZernSpec ZernBound ZernThms AnaSpec AnaFacts StabFacts FloatModel FloatSpec FloatFacts FlSimSpec FlSimFacts FlAnaModel FlAnaSpec FlAnaFacts FlAnaFacts2 FlZernModel FlZernSpec FlZernFacts.
Import ListNotations.
Open Scope R_scope.

Lemma sin_lipschitz x y : Rabs (sin x - sin y) <= Rabs (x - y).
Proof. rewrite <- !cos_shift. eapply Rle_trans; [apply cos_lipschitz|]. replace (PI / 2 - x - (PI / 2 - y)) with (- (x - y)) by ring. rewrite Rabs_Ropp. apply Rle_refl. Qed.
Lemma cos_abs x : Rabs (cos x) <= 1. Proof. pose proof (COS_bound x). apply Rabs_le. lra. Qed.
Lemma sin_abs x : Rabs (sin x) <= 1. Proof. pose proof (SIN_bound x). apply Rabs_le. lra. Qed.
Lemma fill_length n mabs ks : forall l, length (zern_fill n mabs ks l) = length l.
Proof. induction ks as [|k r IH]; intros l; [reflexivity|]. cbn [zern_fill]. rewrite IH. apply upd_length. Qed.
Lemma coef_length n m : (0 <= n)%Z -> length (zern_coef n m) = S (Z.to_nat n).
Proof. intros H. unfold zern_coef. rewrite rev_length, fill_length, repeat_length. lia. Qed.
Lemma znorm_pos n m : zvalid n m -> 0 < znorm n m true.
Proof. intros [H _]. assert (0 <= IZR n) by (apply IZR_le; lia). unfold znorm. destruct (m =? 0)%Z; apply sqrt_lt_R0; lra. Qed.
Lemma rad_abs n m rho : zvalid n m -> 0 <= rho <= 1 -> polyval (zern_coef n m) rho = radial (Z.to_nat n) (Z.abs_nat m) rho /\ Rabs (radial (Z.to_nat n) (Z.abs_nat m) rho) <= 1.
Proof.
  intros V H. destruct (zvalid_split n m V) as (mu & s & En & Em & Em' & En'). split.
  - rewrite En at 1. rewrite (coef_eval mu s m) by exact Em. rewrite En', Em'. reflexivity.
  - rewrite En', Em'. apply radial_bound, H.
Qed.
Lemma ang_abs m phi : Rabs (angular m phi) <= 1.
Proof. unfold angular. destruct (0 <=? m)%Z; [apply cos_abs|apply sin_abs]. Qed.
Lemma bounded_modes ny nx radius n m : zvalid n m -> 0 < radius -> mode_bound (fun _ _ => True) ny nx radius false (znorm n m true) n m.
Proof.
  intros V HR z Hz i j Hi Hj _. pose proof (znorm_pos n m V) as N. destruct (polar_pixel ny nx i j) as (r & phi & Hr & X & Y & _). rewrite (Hz i j r phi) by assumption. cbn [orb]. destruct (Rle_dec r radius) as [L|L].
  - unfold zmode. rewrite Rmult_1_l, Rmult_assoc. assert (Q : 0 <= r / radius <= 1). { split; [apply Rmult_le_pos; [lra|apply Rlt_le, Rinv_0_lt_compat, HR]|]. apply (Rmult_le_reg_r radius); [lra|]. replace (r / radius * radius) with r by (field; lra). lra. }
    replace (znorm n m true) with (znorm n m true * (1 * 1)) at 2 by ring. apply mult_le; [rewrite Rabs_pos_eq; lra|]. apply mult_le; [apply (rad_abs n m); assumption|apply ang_abs].
  - rewrite Rabs_R0. lra.
Qed.

Section Pixel.
Variables (u eta : R) (B : Z) (l : zlib) (q : numerics) (w xi : R) (B'' : Z).
Hypothesis A : arithmetic u eta B (z_rnd l).
Hypothesis A'' : arithmetic w xi B'' (flt q).
Hypothesis HB'' : (2 ^ 44 <= B'')%Z.
Hypothesis Hu : 0 <= u <= 1 / 8.
Hypothesis He : 0 <= eta.
Variables (ea ec : R).
Hypothesis L : accurate_zlib l ea ec.
Hypothesis Hea : 0 <= ea.
Hypothesis Hec : 0 <= ec.
Variables (ny nx : nat).
Hypothesis HB : (Z.of_nat ny * Z.of_nat ny + Z.of_nat nx * Z.of_nat nx <= B)%Z.
Hypothesis Hy : (Z.of_nat ny <= 2 ^ 20)%Z.
Hypothesis Hx : (Z.of_nat nx <= 2 ^ 20)%Z.

Lemma exact_div4 k : (Z.abs k <= B)%Z -> z_rnd l (IZR k / 4) = IZR k / 4.
Proof. intros H. pose proof (ar_exact _ _ _ _ A k 2) as E. replace (2 ^ 2) with 4 in E by ring. apply E; lia. Qed.
Lemma exact_div2 k : (Z.abs k <= B)%Z -> z_rnd l (IZR k / 2) = IZR k / 2.
Proof. intros H. pose proof (ar_exact _ _ _ _ A k 1) as E. replace (2 ^ 1) with 2 in E by ring. apply E; lia. Qed.
Lemma exact_int k : (Z.abs k <= B)%Z -> z_rnd l (IZR k) = IZR k.
Proof. intros H. pose proof (ar_exact _ _ _ _ A k 0) as E. cbn [pow] in E. unfold Rdiv in E. rewrite Rinv_1, Rmult_1_r in E. apply E; lia. Qed.
(** The coordinates are exact, and so is the squared distance. *)
Lemma coordinates i j : (i < ny)%nat -> (j < nx)%nat -> z_rnd l (fl_ana_x q nx j) = px nx j /\ z_rnd l (fl_ana_y q ny i) = py ny i /\
  z_rnd l (z_rnd l (px nx j ^ 2) + z_rnd l (py ny i ^ 2)) = px nx j ^ 2 + py ny i ^ 2 /\ (px nx j ^ 2 + py ny i ^ 2 = 0 \/ 1 / 4 <= px nx j ^ 2 + py ny i ^ 2).
Proof.
  intros Hi Hj. rewrite (fl_x w xi B'' q A'' HB''), (fl_y w xi B'' q A'' HB'') by assumption. rewrite px_half, py_half. set (a := (2 * Z.of_nat j - (Z.of_nat nx - 1))%Z). set (b := (Z.of_nat ny - 1 - 2 * Z.of_nat i)%Z).
  assert (Ha : (Z.abs a < Z.of_nat nx)%Z) by (unfold a; lia). assert (Hb : (Z.abs b < Z.of_nat ny)%Z) by (unfold b; lia).
  assert (Ea : (0 <= a * a <= Z.of_nat nx * Z.of_nat nx)%Z) by (rewrite <- (Z.abs_square a); nia). assert (Eb : (0 <= b * b <= Z.of_nat ny * Z.of_nat ny)%Z) by (rewrite <- (Z.abs_square b); nia).
  assert (Fa : (Z.abs a <= a * a)%Z) by (rewrite <- (Z.abs_square a); nia). assert (Fb : (Z.abs b <= b * b)%Z) by (rewrite <- (Z.abs_square b); nia).
  split; [apply exact_div2; lia|]. split; [apply exact_div2; lia|].
  replace ((IZR a / 2) ^ 2) with (IZR (a * a) / 4) by (rewrite mult_IZR; field). replace ((IZR b / 2) ^ 2) with (IZR (b * b) / 4) by (rewrite mult_IZR; field).
  rewrite !exact_div4 by lia. replace (IZR (a * a) / 4 + IZR (b * b) / 4) with (IZR (a * a + b * b) / 4) by (rewrite plus_IZR; field). rewrite !exact_div4 by lia. split; [reflexivity|].
  destruct (Z.eq_dec (a * a + b * b) 0) as [K|K]; [left; rewrite K; field|right]. assert (1 <= IZR (a * a + b * b)) by (apply IZR_le; lia). lra.
Qed.
Variables (radius : R) (n m : Z).
Hypothesis Hm : (Z.abs m <= B)%Z.
Hypothesis HR : 0 < radius.
Hypothesis E1 : eta <= u / 2.
Hypothesis E2 : eta <= u * radius.
Hypothesis E3 : 8 * eta * radius <= u.
Hypothesis V : zvalid n m.
Lemma er_ge0 : forall M e, 0 <= M -> 0 <= e -> e <= rounded u eta M e.
Proof. intros M e HM H. unfold rounded. assert (0 <= u * (M + e)) by (apply Rmult_le_pos; lra). lra. Qed.
Lemma to_rounded M x y e : Rabs y <= M -> Rabs (x - y) <= e -> Rabs (z_rnd l x - y) <= rounded u eta M e.
Proof. intros HM H. pose proof (rnd_err u eta B (z_rnd l) A ltac:(lra) x y e H) as K. unfold rounded. assert (u * (Rabs y + e) <= u * (M + e)) by (apply Rmult_le_compat_l; lra). lra. Qed.
(** The angular factor. *)
Lemma angular_close phi phi' : m <> 0%Z -> Rabs phi <= PI -> Rabs (phi' - phi) <= ea ->
  Rabs ((if (0 <? m)%Z then z_cos l (z_rnd l (z_rnd l (IZR m) * phi')) else z_sin l (z_rnd l (- z_rnd l (IZR m) * phi'))) - angular m phi) <= angular_error u eta ea ec m.
Proof.
  intros N Hp Hpp. rewrite exact_int by exact Hm. unfold angular, angular_error. pose proof PI_RGT_0 as P. assert (M0 : 0 <= IZR (Z.abs m)) by (apply IZR_le; lia).
  assert (K : forall a, Rabs a = IZR (Z.abs m) -> Rabs (z_rnd l (a * phi') - a * phi) <= rounded u eta (IZR (Z.abs m) * PI) (IZR (Z.abs m) * ea)).
  { intros a Ha. apply to_rounded. - apply mult_le; lra. - replace (a * phi' - a * phi) with (a * (phi' - phi)) by ring. apply mult_le; lra. }
  destruct (Z.ltb_spec 0 m) as [Hp'|Hp'].
  - rewrite (proj2 (Z.leb_le 0 m)) by lia. specialize (K (IZR m) ltac:(rewrite Rabs_pos_eq by (apply IZR_le; lia); f_equal; lia)). pose proof (zl_cos _ _ _ L (z_rnd l (IZR m * phi'))) as C. pose proof (cos_lipschitz (z_rnd l (IZR m * phi')) (IZR m * phi)) as D.
    replace (z_cos l (z_rnd l (IZR m * phi')) - cos (IZR m * phi)) with ((z_cos l (z_rnd l (IZR m * phi')) - cos (z_rnd l (IZR m * phi'))) + (cos (z_rnd l (IZR m * phi')) - cos (IZR m * phi))) by ring. eapply Rle_trans; [apply Rabs_triang|]. lra.
  - rewrite (proj2 (Z.leb_gt 0 m)) by lia. assert (Q : IZR (Z.abs m) = - IZR m) by (rewrite <- opp_IZR; f_equal; lia). specialize (K (- IZR m) ltac:(rewrite <- Q; apply Rabs_pos_eq; exact M0)). rewrite Q in *. pose proof (zl_sin _ _ _ L (z_rnd l (- IZR m * phi'))) as C. pose proof (sin_lipschitz (z_rnd l (- IZR m * phi')) (- IZR m * phi)) as D.
    replace (z_sin l (z_rnd l (- IZR m * phi')) - sin (- IZR m * phi)) with ((z_sin l (z_rnd l (- IZR m * phi')) - sin (z_rnd l (- IZR m * phi'))) + (sin (z_rnd l (- IZR m * phi')) - sin (- IZR m * phi))) by ring. eapply Rle_trans; [apply Rabs_triang|]. lra.
Qed.
Lemma modes_close nrm coef : stored_coefficients u n m coef -> stored_norm u l n m nrm ->
  evaluates (off_rim l ny nx radius) ny nx radius false (mode_error u eta ea ec (Z.to_nat n) m (weight (zern_coef n m)) (znorm n m true)) n m (fl_mode q l ny nx radius n m nrm false coef).
Proof.
  intros SC SN z Hz i j Hi Hj G. destruct (coordinates i j Hi Hj) as (X & Y & Sx & Q). unfold fl_mode. rewrite X, Y. unfold off_rim, dist_sq in G. destruct (zl_angle _ _ _ L (px nx j) (py ny i)) as (phi & Hp & Cx & Cy & Hpp).
  set (x := px nx j) in *. set (y := py ny i) in *. set (s := x ^ 2 + y ^ 2) in *. assert (Hs : 0 <= s) by (unfold s; nra). pose proof (znorm_pos n m V) as Np.
  rewrite (Hz i j (sqrt s) phi Hi Hj (sqrt_pos s) Cx Cy). cbn [orb]. assert (HB1 : (1 <= B)%Z) by nia. pose proof PI_RGT_0 as PIp.
  assert (eq0 : 0 <= angular_error u eta ea ec m). { assert (0 <= IZR (Z.abs m)) by (apply IZR_le; lia). unfold angular_error. pose proof (er_ge0 (IZR (Z.abs m) * PI) (IZR (Z.abs m) * ea) ltac:(apply Rmult_le_pos; lra) ltac:(apply Rmult_le_pos; lra)). assert (0 <= IZR (Z.abs m) * ea) by (apply Rmult_le_pos; lra). lra. }
  assert (w0 : 0 <= weight (zern_coef n m)). { generalize (zern_coef n m). induction l0 as [|c cs IH]; unfold weight in *; cbn [fold_right]; [lra|]. pose proof (Rabs_pos c). lra. }
  assert (e00 : 0 <= radial_error u eta (Z.to_nat n) (weight (zern_coef n m))). { unfold radial_error. pose proof (pow_1 (4 * u) (1 + 5 * Z.to_nat n) ltac:(lra)). pose proof (pow_1 (4 * u) (5 * Z.to_nat n) ltac:(lra)). pose proof (pos_INR (Z.to_nat n)).
    assert (0 <= ((1 + 4 * u) ^ (1 + 5 * Z.to_nat n) - 1) * weight (zern_coef n m)) by (apply Rmult_le_pos; lra). assert (0 <= 3 * INR (Z.to_nat n) * (1 + 4 * u) ^ (5 * Z.to_nat n) * eta) by (apply Rmult_le_pos; [apply Rmult_le_pos; [lra|lra]|lra]). lra. }
  unfold mode_error. set (e0 := radial_error u eta (Z.to_nat n) (weight (zern_coef n m))) in *. set (eq := angular_error u eta ea ec m) in *. set (er := rounded u eta 1 e0). assert (er0 : e0 <= er) by (apply er_ge0; lra).
  cbv zeta. set (ez := rounded u eta 1 (er * (1 + eq) + eq)). assert (erq : 0 <= er * eq) by (apply Rmult_le_pos; lra). assert (ez0 : er <= ez). { apply Rle_trans with (er * (1 + eq) + eq); [lra|]. apply er_ge0; lra. }
  set (sn := znorm n m true) in *. set (em := rounded u eta sn (4 * u * sn * (1 + ez) + sn * ez)).
  assert (em0 : 0 <= em). { assert (0 <= 4 * u * sn * (1 + ez)) by (apply Rmult_le_pos; [apply Rmult_le_pos|]; lra). assert (0 <= sn * ez) by (apply Rmult_le_pos; lra). pose proof (er_ge0 sn (4 * u * sn * (1 + ez) + sn * ez) ltac:(lra) ltac:(lra)). unfold em. lra. }
  unfold fl_zern_value. destruct (Rle_dec (sqrt s) radius) as [In|Out].
  - assert (In2 : s <= radius ^ 2). { rewrite <- (sqrt_sqrt s) by exact Hs. pose proof (sqrt_pos s). nra. }
    destruct (rho_inside u eta B l A Hu HB1 radius x y HR Sx E2 In2) as [_ R1'].
    destruct (Rlt_dec 1 (fl_rho l radius x y)) as [K|_]; [lra|].
    assert (rho1 : 0 <= sqrt s / radius <= 1). { split; [apply Rmult_le_pos; [apply sqrt_pos|apply Rlt_le, Rinv_0_lt_compat, HR]|]. apply (Rmult_le_reg_r radius); [lra|]. replace (sqrt s / radius * radius) with (sqrt s) by (field; lra). lra. }
    pose proof (rho_near u eta B l A Hu He HB1 radius x y HR Sx Q E1 E2 E3) as Nr. fold s in Nr.
    destruct (rad_abs n m (sqrt s / radius) V rho1) as [Pv Pa]. unfold zmode. fold sn. rewrite Rmult_1_l.
    assert (Hn : (0 <= n)%Z) by (destruct V; lia).
    assert (Hh : Rabs (fl_polyval l coef (fl_rho l radius x y) - radial (Z.to_nat n) (Z.abs_nat m) (sqrt s / radius)) <= e0).
    { rewrite <- Pv. pose proof (horner u eta B l A Hu He (sqrt s / radius) (fl_rho l radius x y) (zern_coef n m) coef rho1 Nr SC) as H. rewrite coef_length in H by exact Hn. replace (S (Z.to_nat n) - 1)%nat with (Z.to_nat n) in H by lia. apply H. intros K. pose proof (coef_length n m Hn) as Le. rewrite K in Le. discriminate Le. }
    set (Rad := radial (Z.to_nat n) (Z.abs_nat m) (sqrt s / radius)) in *. set (R' := fl_polyval l coef (fl_rho l radius x y)) in *.
    assert (Hr : Rabs (z_rnd l (z_rnd l 1 * R') - Rad) <= er) by (rewrite (r1 u eta B l A HB1), Rmult_1_l; apply to_rounded; assumption).
    set (zu := if (n =? 0)%Z && (m =? 0)%Z then z_rnd l (z_rnd l 1 * 1) else _).
    assert (Hzu : Rabs (zu - Rad * angular m phi) <= ez).
    { unfold zu. destruct (Z.eqb_spec m 0) as [Em|Nm].
      - assert (Ag : angular m phi = 1) by (unfold angular; rewrite Em; cbn [Z.leb]; change (0 <=? 0)%Z with true; cbn match; rewrite Rmult_0_l; apply cos_0). replace (Rad * angular m phi) with Rad by (rewrite Ag; ring). destruct (Z.eqb_spec n 0) as [En|Nn]; cbn [andb].
        + assert (U1 : z_rnd l (z_rnd l 1 * 1) = 1) by (rewrite Rmult_1_r, !(r1 u eta B l A HB1); reflexivity). rewrite U1. unfold Rad. rewrite En, Em. cbn [Z.to_nat Z.abs_nat]. rewrite radial_00. replace (1 - 1) with 0 by ring. rewrite Rabs_R0. lra.
        + eapply Rle_trans; [exact Hr|exact ez0].
      - rewrite andb_false_r. pose proof (angular_close phi (z_atan2 l y x) Nm Hp Hpp) as Ac. fold eq in Ac. pose proof (ang_abs m phi) as Aa. set (Ag := angular m phi) in *.
        set (r' := z_rnd l (z_rnd l 1 * R')) in *.
        assert (Pr : forall a', Rabs (a' - Ag) <= eq -> Rabs (z_rnd l (r' * a') - Rad * Ag) <= ez).
        { intros a' Ha. unfold ez. apply to_rounded.
          - replace 1 with (1 * 1) by ring. apply mult_le; assumption.
          - replace (r' * a' - Rad * Ag) with ((r' - Rad) * a' + Rad * (a' - Ag)) by ring. eapply Rle_trans; [apply Rabs_triang|]. assert (Rabs a' <= 1 + eq) by (pose proof (abs_le_add a' Ag eq Ha); lra).
            assert (Rabs ((r' - Rad) * a') <= er * (1 + eq)) by (apply mult_le; assumption). assert (Rabs (Rad * (a' - Ag)) <= 1 * eq) by (apply mult_le; assumption). lra. }
        destruct (0 <? m)%Z; apply Pr; exact Ac. }
    rewrite Rmult_assoc. set (t := Rad * angular m phi) in *. assert (Ht : Rabs t <= 1) by (unfold t; replace 1 with (1 * 1) by ring; apply mult_le; [exact Pa|apply ang_abs]).
    unfold em. apply to_rounded.
    + rewrite <- (Rmult_1_r sn) at 2. apply mult_le; [rewrite Rabs_pos_eq; lra|exact Ht].
    + unfold stored_norm in SN. fold sn in SN. set (c' := z_rnd l nrm) in *. replace (c' * zu - sn * t) with ((c' - sn) * zu + sn * (zu - t)) by ring. eapply Rle_trans; [apply Rabs_triang|]. assert (Rabs zu <= 1 + ez) by (pose proof (abs_le_add zu t ez Hzu); lra).
      assert (Rabs ((c' - sn) * zu) <= 4 * u * sn * (1 + ez)) by (apply mult_le; assumption). assert (Rabs (sn * (zu - t)) <= sn * ez) by (apply mult_le; [rewrite Rabs_pos_eq; lra|exact Hzu]). lra.
  - assert (Out2 : radius ^ 2 < s). { rewrite <- (sqrt_sqrt s) by exact Hs. nra. }
    pose proof (rho_outside u eta B l A Hu HB1 radius x y HR Sx E2 Out2) as R1'. destruct G as [G|G]; [lra|].
    destruct (Rlt_dec 1 (fl_rho l radius x y)) as [_|K]; [|exfalso; apply K; lra]. replace (0 - 0) with 0 by ring. rewrite Rabs_R0. exact em0.
Qed.
End Pixel.
