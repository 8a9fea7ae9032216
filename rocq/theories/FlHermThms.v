(** Theorems on the rounding errors of Hermite-Gauss modes in the form they are stated in PropsFlHerm.v. *)
From Coq Require Import Reals ZArith List Bool Lia Lra Psatz.
From Verif Require Import Cx Sums PyBase ProfileModel ModeSpec ModeFacts ModeThms FloatModel FloatSpec FloatFacts FlSimSpec FlSimFacts WideSpec FlAnaModel FlAnaFacts FlAnaThms FlZernModel FlZernThms FlHermModel FlHermSpec FlHermFacts.
Import ListNotations.
Open Scope R_scope.

Lemma pow_exp v k : 0 <= v -> (1 + v) ^ k <= exp (INR k * v).
Proof.
  intros H. induction k as [|k IH]; [cbn; rewrite Rmult_0_l, exp_0; lra|]. rewrite S_INR. cbn [pow]. replace ((INR k + 1) * v) with (v + INR k * v) by ring. rewrite exp_plus. apply Rmult_le_compat; [lra|apply pow_le; lra| |exact IH]. pose proof (exp_ineq1_le v). lra.
Qed.
Lemma exp_small z : 0 <= z <= 1 / 2 -> exp z <= 1 + 2 * z.
Proof.
  intros H. pose proof (exp_ineq1_le (- z)) as K. rewrite exp_Ropp in K. pose proof (exp_pos z) as P. assert ((1 + - z) * exp z <= / exp z * exp z) by (apply Rmult_le_compat_r; lra). rewrite Rinv_l in H0 by lra.
  apply (Rmult_le_reg_l (1 - z)); [lra|]. assert (0 <= z * (1 / 2 - z)) by (apply Rmult_le_pos; lra). lra.
Qed.
Lemma sixth u : 0 <= u <= 1 / 1000 -> (1 + 4 * u) ^ 6 - 1 <= 28 * u.
Proof.
  intros H. assert (S2 : (1 + 4 * u) ^ 2 <= 1 + 9 * u). { assert (u * u <= u * (1 / 1000)) by (apply Rmult_le_compat_l; lra). replace ((1 + 4 * u) ^ 2) with (1 + 8 * u + 16 * (u * u)) by ring. lra. }
  assert (P : 0 <= (1 + 4 * u) ^ 2) by (apply pow_le; lra). replace ((1 + 4 * u) ^ 6) with (((1 + 4 * u) ^ 2) ^ 3) by ring. pose proof (pow_incr _ _ 3 (conj P S2)) as K. assert (u * u <= u * (1 / 1000)) by (apply Rmult_le_compat_l; lra). assert (u * u * u <= u * (1 / 1000)) by (assert (0 <= u * u <= 1 / 1000) by (split; [apply Rmult_le_pos|]; lra); rewrite Rmult_assoc; apply Rmult_le_compat_l; lra).
  replace ((1 + 9 * u) ^ 3) with (1 + 27 * u + 243 * (u * u) + 729 * (u * u * u)) in K by ring. lra.
Qed.
Lemma hermite_value u eta B l f_exp ee s2 hn hm n m x0 y0 Am w x y X Y :
  arithmetic u eta B (z_rnd l) -> 0 <= u <= 1 / 1000 -> 0 <= eta <= u -> accurate_exp f_exp ee eta -> 0 <= ee -> near (4 * u) 0 (sqrt 2) s2 -> stored_hermite u n hn -> stored_hermite u m hm ->
  let x0' := z_rnd l x0 in let y0' := z_rnd l y0 in let A' := z_rnd l Am in let w' := z_rnd l w in
  0 < w' -> eta <= u * w' -> eta <= u * Rabs A' -> 1 <= X -> 1 <= Y -> Rabs ((x - x0') / w') <= X -> Rabs ((y - y0') / w') <= Y -> herm_error u ee n m X Y <= 1 / 2 ->
  let M := Rabs A' * hermite_size n (sqrt 2 * X) * hermite_size m (sqrt 2 * Y) in
  Rabs (fl_hermite l f_exp s2 hn hm x0 y0 Am w x y - hg_mode x0' y0' A' w' n m x y) <=
    2 * herm_error u ee n m X Y * (M * exp (- ((x - x0') ^ 2 + (y - y0') ^ 2) / w' ^ 2)) + (2 * M + 1) * eta.
Proof.
  intros A Hu He Fe Hee Hs Sn Sm x0' y0' A' w' Hw Ew Ea X1 Y1 HX HY Hz M. pose proof (value_close u eta B l A ltac:(lra) He f_exp ee s2 hn hm n m x0 y0 Am w x y X Y Fe Hee Hs Sn Sm Hw Ew Ea X1 Y1 HX HY) as K.
  cbv zeta in K. fold x0' y0' A' w' in K. fold M in K. set (E := exp (- ((x - x0') ^ 2 + (y - y0') ^ 2) / w' ^ 2)).
  assert (EE : exp (- (((x - x0') / w') ^ 2 + ((y - y0') / w') ^ 2)) = E) by (unfold E; f_equal; field; lra). rewrite EE in K.
  replace (hg_mode x0' y0' A' w' n m x y) with (A' * hermite n (sqrt 2 * ((x - x0') / w')) * hermite m (sqrt 2 * ((y - y0') / w')) * E).
  2:{ unfold hg_mode. fold E. replace (sqrt 2 * (x - x0') / w') with (sqrt 2 * ((x - x0') / w')) by (field; lra). replace (sqrt 2 * (y - y0') / w') with (sqrt 2 * ((y - y0') / w')) by (field; lra). reflexivity. }
  eapply Rle_trans; [exact K|]. clear K. unfold herm_error in *. set (k := (5 + 6 * (n + m))%nat) in *. set (z := 4 * u * (INR k + 7 * (X ^ 2 + Y ^ 2)) + ee) in *. set (d := ((1 + 4 * u) ^ 6 - 1) * (X ^ 2 + Y ^ 2)).
  assert (XY : 0 <= X ^ 2 + Y ^ 2) by nra. pose proof (pos_INR k) as k0. assert (z0 : 0 <= z) by (unfold z; assert (0 <= 4 * u * (INR k + 7 * (X ^ 2 + Y ^ 2))) by (apply Rmult_le_pos; lra); lra).
  assert (Dd : d <= 28 * u * (X ^ 2 + Y ^ 2)) by (apply Rmult_le_compat_r; [exact XY|apply sixth, Hu]). pose proof (pow_exp (4 * u) k ltac:(lra)) as Pk. pose proof (exp_ineq1_le ee) as Pe. pose proof (exp_pos d) as Pd. set (g := (1 + 4 * u) ^ k) in *. assert (g0 : 1 <= g) by (apply pow_1; lra).
  assert (T : g * (exp d * (1 + ee)) <= exp z).
  { apply Rle_trans with (exp (INR k * (4 * u)) * (exp d * exp ee)). - apply Rmult_le_compat; [lra|apply Rmult_le_pos; lra|exact Pk|apply Rmult_le_compat_l; lra].
    - rewrite <- !exp_plus. destruct (Rle_lt_or_eq_dec (INR k * (4 * u) + (d + ee)) z ltac:(unfold z; lra)) as [L|L]; [left; apply exp_increasing, L|right; f_equal; exact L]. }
  pose proof (exp_small z ltac:(lra)) as Ez. assert (ed : 1 <= exp d). { pose proof (exp_ineq1_le d). assert (0 <= d). { unfold d. assert (1 <= (1 + 4 * u) ^ 6) by (apply pow_1; lra). apply Rmult_le_pos; lra. } lra. }
  assert (g2 : g <= 2). { assert (1 <= exp d * (1 + ee)) by nra. assert (g * 1 <= g * (exp d * (1 + ee))) by (apply Rmult_le_compat_l; lra). lra. }
  assert (W : forall j Z, 1 <= Z -> 0 <= hermite_size j (sqrt 2 * Z)). { intros j Z HZ. assert (0 <= sqrt 2 * Z) by (apply Rmult_le_pos; [apply sqrt_pos|lra]). eapply Rle_trans; [|apply size_ge; assumption]. rewrite polyval_abs. apply eva_pos. assumption. }
  assert (M0 : 0 <= M) by (unfold M; apply Rmult_le_pos; [apply Rmult_le_pos; [apply Rabs_pos|apply W, X1]|apply W, Y1]). assert (E0 : 0 <= M * E) by (apply Rmult_le_pos; [exact M0|apply Rlt_le, exp_pos]).
  apply Rplus_le_compat; [apply Rmult_le_compat_r; lra|]. apply Rmult_le_compat_r; [lra|]. assert (g * M <= 2 * M) by (apply Rmult_le_compat_r; lra). lra.
Qed.
Lemma stored_exact u n : 0 <= u -> stored_hermite u n (hermite_coef n).
Proof. intros Hu. unfold stored_hermite. induction (hermite_coef n) as [|c cs IH]; constructor; [|exact IH]. unfold near. replace (c - c) with 0 by ring. rewrite Rabs_R0. pose proof (Rabs_pos c). assert (0 <= 4 * u * Rabs c) by (apply Rmult_le_pos; lra). lra. Qed.
Lemma no_rounding l n m x0 y0 Am w x y : (forall t, z_rnd l t = t) -> 0 < w -> fl_hermite l exp (sqrt 2) (hermite_coef n) (hermite_coef m) x0 y0 Am w x y = hg_mode x0 y0 Am w n m x y.
Proof.
  intros Hl Hw. assert (A : arithmetic 0 0 1 (z_rnd l)). { split; intros; rewrite ?Hl; try reflexivity; try assumption. replace (x1 - x1) with 0 by ring. rewrite Rabs_R0. lra. }
  assert (Fe : accurate_exp exp 0 0) by (intros t _; replace (exp t - exp t) with 0 by ring; rewrite Rabs_R0; lra). assert (Nr : near (4 * 0) 0 (sqrt 2) (sqrt 2)) by (unfold near; replace (sqrt 2 - sqrt 2) with 0 by ring; rewrite Rabs_R0; lra).
  set (X := 1 + Rabs ((x - x0) / w)). set (Y := 1 + Rabs ((y - y0) / w)). pose proof (Rabs_pos ((x - x0) / w)). pose proof (Rabs_pos ((y - y0) / w)).
  pose proof (hermite_value 0 0 1 l exp 0 (sqrt 2) (hermite_coef n) (hermite_coef m) n m x0 y0 Am w x y X Y A ltac:(lra) ltac:(lra) Fe ltac:(lra) Nr (stored_exact 0 n ltac:(lra)) (stored_exact 0 m ltac:(lra))) as K. cbv zeta in K. rewrite !Hl in K.
  assert (Z0 : herm_error 0 0 n m X Y = 0) by (unfold herm_error; ring). rewrite Z0 in K. specialize (K Hw ltac:(lra) ltac:(lra) ltac:(unfold X; lra) ltac:(unfold Y; lra) ltac:(unfold X; lra) ltac:(unfold Y; lra) ltac:(lra)).
  rewrite !Rmult_0_r, Rmult_0_l, Rplus_0_l in K. match type of K with Rabs ?t <= 0 => assert (t = 0) by (destruct (Req_dec t 0) as [Q|Q]; [exact Q|apply Rabs_pos_lt in Q; lra]) end. lra.
Qed.
Lemma hermite_double l f_exp n m x0 y0 Am w x y : z_rnd l = binary64 -> accurate_exp f_exp (/ 2 ^ 52) (/ 2 ^ 1075) -> (n + m <= 20)%nat ->
  let x0' := binary64 x0 in let y0' := binary64 y0 in let A' := binary64 Am in let w' := binary64 w in
  / 2 ^ 1022 <= w' -> / 2 ^ 1022 <= Rabs A' -> Rabs ((x - x0') / w') <= 20 -> Rabs ((y - y0') / w') <= 20 ->
  let M := Rabs A' * hermite_size n (sqrt 2 * 20) * hermite_size m (sqrt 2 * 20) in
  Rabs (fl_hermite l f_exp (binary64 (sqrt 2)) (hermite_coef n) (hermite_coef m) x0 y0 Am w x y - hg_mode x0' y0' A' w' n m x y) <= M * exp (- ((x - x0') ^ 2 + (y - y0') ^ 2) / w' ^ 2) / 2 ^ 37 + (2 * M + 1) / 2 ^ 1075.
Proof.
  intros Hl Fe Hn x0' y0' A' w' Hw Ha HX HY M. pose proof binary64_arithmetic as A. assert (P : forall k, 0 < / 2 ^ k) by (intros; apply Rinv_0_lt_compat, pow_lt; lra).
  assert (Pm : forall a b, (b <= a)%nat -> / 2 ^ a <= / 2 ^ b). { intros a b Le. apply Rinv_le_contravar; [apply pow_lt; lra|]. apply Rle_pow; [lra|exact Le]. }
  assert (U : / 2 ^ 53 <= 1 / 1000). { apply Rle_trans with (/ 2 ^ 10); [apply Pm; lia|]. replace (2 ^ 10) with 1024 by ring. lra. }
  assert (et : forall t, / 2 ^ 1022 <= t -> / 2 ^ 1075 <= / 2 ^ 53 * t). { intros t Ht. apply Rle_trans with (/ 2 ^ 53 * / 2 ^ 1022); [|apply Rmult_le_compat_l; [apply Rlt_le, P|exact Ht]]. rewrite <- Rinv_mult, <- pow_add. apply Rle_refl. }
  assert (Z : herm_error (/ 2 ^ 53) (/ 2 ^ 52) n m 20 20 <= / 2 ^ 38).
  { unfold herm_error. assert (INR (5 + 6 * (n + m)) <= 125) by (replace 125 with (INR 125) by (rewrite INR_IZR_INZ; reflexivity); apply le_INR; lia). pose proof (P 53%nat) as P53. assert (/ 2 ^ 52 = 2 * / 2 ^ 53) by (replace (2 ^ 53) with (2 * 2 ^ 52) by ring; rewrite Rinv_mult; field; apply Rgt_not_eq, pow_lt; lra).
    assert (/ 2 ^ 38 = 32768 * / 2 ^ 53) by (replace (2 ^ 53) with (32768 * 2 ^ 38) by ring; rewrite Rinv_mult; field; apply Rgt_not_eq, pow_lt; lra). assert (4 * / 2 ^ 53 * (INR (5 + 6 * (n + m)) + 7 * (20 ^ 2 + 20 ^ 2)) <= 4 * / 2 ^ 53 * 5725) by (apply Rmult_le_compat_l; lra). lra. }
  assert (Z0 : herm_error (/ 2 ^ 53) (/ 2 ^ 52) n m 20 20 <= 1 / 2). { eapply Rle_trans; [exact Z|]. apply Rle_trans with (/ 2 ^ 1); [apply Pm; lia|]. replace (2 ^ 1) with 2 by ring. lra. }
  assert (Nr : near (4 * / 2 ^ 53) 0 (sqrt 2) (binary64 (sqrt 2))).
  { unfold near. pose proof (ar_error _ _ _ _ A (sqrt 2)) as K. assert (S1 : 1 <= sqrt 2) by (rewrite <- sqrt_1 at 1; apply sqrt_le_1; lra). rewrite (Rabs_pos_eq (sqrt 2)) in * by lra. assert (/ 2 ^ 53 * 1 <= / 2 ^ 53 * sqrt 2) by (apply Rmult_le_compat_l; [apply Rlt_le, P|lra]). pose proof (Pm 1075%nat 53%nat ltac:(lia)). lra. }
  pose proof (hermite_value (/ 2 ^ 53) (/ 2 ^ 1075) (2 ^ 53) l f_exp (/ 2 ^ 52) (binary64 (sqrt 2)) (hermite_coef n) (hermite_coef m) n m x0 y0 Am w x y 20 20) as K. rewrite Hl in K. cbv zeta in K. fold x0' y0' A' w' in K. fold M in K.
  pose proof (P 53%nat). pose proof (P 1075%nat). pose proof (P 52%nat). pose proof (P 1022%nat). pose proof (Pm 1075%nat 53%nat ltac:(lia)).
  specialize (K A ltac:(lra) ltac:(lra) Fe ltac:(lra) Nr (stored_exact (/ 2 ^ 53) n ltac:(lra)) (stored_exact (/ 2 ^ 53) m ltac:(lra)) ltac:(lra) (et _ Hw) (et _ Ha) ltac:(lra) ltac:(lra) HX HY Z0).
  eapply Rle_trans; [exact K|]. unfold Rdiv at 2 3. apply Rplus_le_compat_r. set (E := exp _). assert (W : forall j, 0 <= hermite_size j (sqrt 2 * 20)). { intros j. assert (0 <= sqrt 2 * 20) by (apply Rmult_le_pos; [apply sqrt_pos|lra]). eapply Rle_trans; [|apply size_ge; assumption]. rewrite polyval_abs. apply eva_pos. assumption. }
  assert (E0 : 0 <= M * E). { apply Rmult_le_pos; [|apply Rlt_le, exp_pos]. unfold M. apply Rmult_le_pos; [apply Rmult_le_pos; [apply Rabs_pos|apply W]|apply W]. }
  assert (/ 2 ^ 37 = 2 * / 2 ^ 38) by (replace (2 ^ 38) with (2 * 2 ^ 37) by ring; rewrite Rinv_mult; field; apply Rgt_not_eq, pow_lt; lra). rewrite Rmult_comm. rewrite H4. apply Rmult_le_compat_l; lra.
Qed.
Lemma size_case : hermite_size 1 (sqrt 2 * 20) = 2 * (sqrt 2 * 20) /\ hermite_size 2 3 = 38 /\ hermite 2 3 = 34.
Proof. split; [cbn; ring|]. split; [cbn; lra|]. rewrite hermite_hpair. cbn. lra. Qed.
Lemma exp_case : accurate_exp (fun t => binary64 (exp t)) (/ 2 ^ 52) (/ 2 ^ 1075) /\ / 2 ^ 1022 <= binary64 1 /\ / 2 ^ 1022 <= Rabs (binary64 1) /\ Rabs ((3 - binary64 0) / binary64 1) <= 20.
Proof.
  pose proof binary64_arithmetic as A. assert (B1 : binary64 1 = 1). { pose proof (ar_exact _ _ _ _ A 1 0 ltac:(lia) ltac:(lia)) as E. cbn [pow] in E. replace (1 / 1) with 1 in E by field. exact E. } assert (B0 : binary64 0 = 0). { pose proof (ar_odd _ _ _ _ A 0) as O. rewrite Ropp_0 in O. lra. }
  assert (P : / 2 ^ 1022 <= 1). { replace 1 with (/ 1) by field. apply Rinv_le_contravar; [lra|apply pow_R1_Rle; lra]. } rewrite B1, B0, Rabs_R1.
  split; [|split; [exact P|split; [exact P|]]].
  - intros t _. pose proof (ar_error _ _ _ _ A (exp t)) as K. pose proof (exp_pos t). rewrite (Rabs_pos_eq (exp t)) in K by lra. assert (/ 2 ^ 53 <= / 2 ^ 52) by (apply Rinv_le_contravar; [apply pow_lt; lra|apply Rle_pow; [lra|lia]]). assert (/ 2 ^ 53 * exp t <= / 2 ^ 52 * exp t) by (apply Rmult_le_compat_r; lra). lra.
  - replace ((3 - 0) / 1) with 3 by field. rewrite Rabs_pos_eq; lra.
Qed.
