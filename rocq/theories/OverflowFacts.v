(** Proofs for C146: nothing overflows. *)
From Coq Require Import Reals Lra Psatz ZArith Arith List Bool Lia.
From Coquelicot Require Import Complex.
From Verif Require Import Cx DFT PyBase ProfileModel SlmModel LibModel DmdModel SimModel FloatModel FloatSpec FlGridModel FlModeModel FlHoloModel OverflowModel OverflowSpec.
Open Scope R_scope.

Lemma pow2_pos k : 0 < 2 ^ k. Proof. apply pow_lt; lra. Qed.
Lemma pow2_ge1 k : 1 <= 2 ^ k. Proof. apply pow_R1_Rle; lra. Qed.
Lemma below_le k l x : below2 k x -> (k <= l)%nat -> below2 l x.
Proof. unfold below2. intros H Hk. eapply Rle_trans; [exact H|]. apply Rle_pow; [lra|exact Hk]. Qed.
Lemma below_mul k l x y : below2 k x -> below2 l y -> below2 (k + l) (x * y).
Proof. unfold below2. intros H H'. rewrite Rabs_mult, pow_add. apply Rmult_le_compat; auto using Rabs_pos. Qed.
Lemma below_sq k x : below2 k x -> below2 (k + k) (x ^ 2).
Proof. intros H. replace (x ^ 2) with (x * x) by ring. apply below_mul; exact H. Qed.
Lemma below_add k l x y : below2 k x -> below2 l y -> below2 (S (Nat.max k l)) (x + y).
Proof.
  intros H H'. apply (below_le _ (Nat.max k l)) in H; [|lia]. apply (below_le _ (Nat.max k l)) in H'; [|lia]. unfold below2 in *. cbn [pow].
  eapply Rle_trans; [apply Rabs_triang|]. lra.
Qed.
Lemma below_opp k x : below2 k x -> below2 k (- x).
Proof. unfold below2. rewrite Rabs_Ropp. auto. Qed.
Lemma below_sub k l x y : below2 k x -> below2 l y -> below2 (S (Nat.max k l)) (x - y).
Proof. intros H H'. unfold Rminus. apply below_add; [exact H|]. apply below_opp; exact H'. Qed.
Lemma below_half k x : below2 k x -> below2 k (x / 2).
Proof. unfold below2. intros H. unfold Rdiv. rewrite Rabs_mult, (Rabs_pos_eq (/ 2)) by lra. assert (P := Rabs_pos x). lra. Qed.
Lemma above_pos k x : above2 k x -> 0 < Rabs x.
Proof. unfold above2. intros H. assert (0 < / 2 ^ k) by (apply Rinv_0_lt_compat, pow2_pos). lra. Qed.
Lemma below_div k l x y : below2 k x -> above2 l y -> below2 (k + l) (x / y).
Proof.
  intros H H'. assert (P := above_pos _ _ H'). unfold below2, above2 in *. unfold Rdiv. rewrite Rabs_mult, pow_add, Rabs_inv.
  apply Rmult_le_compat; [apply Rabs_pos|left; apply Rinv_0_lt_compat; exact P|exact H|].
  rewrite <- (Rinv_inv (2 ^ l)). apply Rinv_le_contravar; [apply Rinv_0_lt_compat, pow2_pos|exact H'].
Qed.
Lemma above_mul k l x y : above2 k x -> above2 l y -> above2 (k + l) (x * y).
Proof.
  unfold above2. intros H H'. rewrite Rabs_mult, pow_add, Rinv_mult. apply Rmult_le_compat; [left; apply Rinv_0_lt_compat, pow2_pos|left; apply Rinv_0_lt_compat, pow2_pos|exact H|exact H'].
Qed.
Lemma above_nat n : (0 < n)%nat -> above2 0 (INR n).
Proof. intros H. unfold above2. cbn [pow]. rewrite Rinv_1, Rabs_pos_eq by apply pos_INR. change 1 with (INR 1). apply le_INR. lia. Qed.
Lemma tiny120 : / 2 ^ 120 <= / 2. Proof. apply Rinv_le_contravar; [lra|]. apply Rle_trans with (2 ^ 1); [lra|]. apply Rle_pow; [lra|lia]. Qed.
Lemma u24 : / 2 ^ 24 = / 16777216. Proof. f_equal. ring. Qed.
Lemma below_rnd f k x : rounds f -> below2 k x -> below2 (S k) (f x).
Proof.
  unfold below2. intros H Hx. assert (E := H x). assert (P := pow2_ge1 k). assert (T := tiny120). rewrite u24 in E.
  assert (X := Rabs_pos x). cbn [pow]. replace (f x) with ((f x - x) + x) by ring. eapply Rle_trans; [apply Rabs_triang|]. lra.
Qed.
Lemma above_rnd f k x : rounds f -> (k <= 100)%nat -> above2 k x -> above2 (S k) (f x).
Proof.
  unfold above2. intros H Hk Hx. assert (E := H x). rewrite u24 in E.
  assert (T : / 2 ^ 120 <= / 2 ^ k * (1 / 4)).
  { replace (/ 2 ^ k * (1 / 4)) with (/ 2 ^ (k + 2)) by (rewrite pow_add; replace (2 ^ 2) with 4 by ring; field; apply pow_nonzero; lra).
    apply Rinv_le_contravar; [apply pow2_pos|]. apply Rle_pow; [lra|lia]. }
  assert (P : 0 < / 2 ^ k) by (apply Rinv_0_lt_compat, pow2_pos). set (t := / 2 ^ k) in *. replace (/ 2 ^ S k) with (t / 2) by (cbn [pow]; rewrite Rinv_mult; unfold t; lra). clearbody t.
  set (e := / 2 ^ 120) in *. clearbody e.
  assert (R : Rabs x <= Rabs (f x) + Rabs (f x - x)).
  { replace x with (f x - (f x - x)) at 1 by ring. unfold Rminus at 1. eapply Rle_trans; [apply Rabs_triang|]. rewrite Rabs_Ropp. lra. }
  lra.
Qed.
Lemma fin_ok m f k x : rounds f -> 2 ^ 127 <= m -> below2 k x -> (k <= 126)%nat -> fin_op m f x = Some (f x).
Proof.
  intros H Hm Hx Hk. unfold fin_op. assert (B := below_le _ 127 _ (below_rnd f k x H Hx) ltac:(lia)). unfold below2 in B. destruct (Rle_dec (Rabs (f x)) m); [reflexivity|]. lra.
Qed.
Lemma below_nat n : (Z.of_nat n <= 2 ^ 20)%Z -> below2 20 (INR n).
Proof. intros H. unfold below2. rewrite Rabs_pos_eq by apply pos_INR. rewrite INR_IZR_INZ. apply IZR_le in H. rewrite pow_IZR. exact H. Qed.
Lemma below_int z : (Z.abs z <= 2 ^ 20)%Z -> below2 20 (IZR z).
Proof. intros H. unfold below2. rewrite <- abs_IZR. apply IZR_le in H. rewrite pow_IZR. exact H. Qed.
Lemma below_const k x : Rabs x <= 1 -> below2 k x.
Proof. intros H. unfold below2. assert (P := pow2_ge1 k). lra. Qed.
Lemma below_pi : below2 2 PI.
Proof. unfold below2. assert (A := PI_4). assert (B := PI_RGT_0). rewrite Rabs_pos_eq by lra. cbn [pow]. lra. Qed.
Lemma below_two : below2 1 2.
Proof. unfold below2. rewrite Rabs_pos_eq by lra. cbn [pow]. lra. Qed.
Lemma below_4 x : Rabs x <= 4 -> below2 2 x.
Proof. intros H. unfold below2. cbn [pow]. lra. Qed.
Lemma below_one : Rabs 1 <= 1. Proof. rewrite Rabs_pos_eq; lra. Qed.

(** Magnitudes of terms, read off their shape. *)
Ltac mag R :=
  lazymatch goal with
  | |- below2 _ (rnd _ _) => eapply below_rnd; [exact (ro_rnd _ _ R)|mag R]
  | |- below2 _ (dbl _ _) => eapply below_rnd; [exact (ro_dbl _ _ R)|mag R]
  | |- below2 _ (f_cos _ _) => exact (below_const 0 _ (ro_cos _ _ R _))
  | |- below2 _ (f_sin _ _) => exact (below_const 0 _ (ro_sin _ _ R _))
  | |- below2 _ (f_tanh _ _) => exact (below_const 0 _ (ro_tanh _ _ R _))
  | |- below2 _ (f_acos _ _) => exact (below_4 _ (ro_acos _ _ R _))
  | |- below2 _ (f_asin _ _) => exact (below_4 _ (ro_asin _ _ R _))
  | |- below2 _ (INR _) => apply below_nat; assumption
  | |- below2 _ (IZR (- ?z)) => first [assumption | apply below_int; rewrite Z.abs_opp; assumption]
  | |- below2 _ PI => exact below_pi
  | |- below2 _ 2 => exact below_two
  | |- below2 _ 1 => exact (below_const 0 _ below_one)
  | |- below2 _ (_ / 2) => eapply below_half; mag R
  | |- below2 _ (_ / _) => eapply below_div; [mag R|magup R]
  | |- below2 _ (_ * _) => eapply below_mul; mag R
  | |- below2 _ (_ ^ 2) => eapply below_sq; mag R
  | |- below2 _ (_ + _) => eapply below_add; mag R
  | |- below2 _ (_ - _) => eapply below_sub; mag R
  | |- below2 _ (- _) => eapply below_opp; mag R
  | |- _ => eassumption
  end
with magup R :=
  lazymatch goal with
  | |- above2 _ (rnd _ _) => eapply above_rnd; [exact (ro_rnd _ _ R)| |magup R]; cycle 1
  | |- above2 _ (dbl _ _) => eapply above_rnd; [exact (ro_dbl _ _ R)| |magup R]; cycle 1
  | |- above2 _ (_ * _) => eapply above_mul; magup R
  | |- above2 _ (INR _) => apply above_nat; assumption
  | |- _ => eassumption
  end.
Ltac small := try (apply Nat.leb_le; vm_compute; reflexivity).
Ltac one R :=
  match goal with
  | |- context [fin_op (lim ?L) (rnd ?a) ?x] => let E := fresh "E" in eassert (E : fin_op (lim L) (rnd a) x = Some (rnd a x)); [eapply fin_ok; [exact (ro_rnd _ _ R)|exact (ro_lim _ _ R)|mag R|]; small|rewrite E; clear E; cbv beta iota]
  | |- context [fin_op (dlim ?L) (dbl ?a) ?x] => let E := fresh "E" in eassert (E : fin_op (dlim L) (dbl a) x = Some (dbl a x)); [eapply fin_ok; [exact (ro_dbl _ _ R)|exact (ro_dlim _ _ R)|mag R|]; small|rewrite E; clear E; cbv beta iota]
  end.

Section NoOverflow.
Variables (L : limits) (a : fpu).
Hypothesis RO : roomy L a.

Lemma coordinate_finite Ny Nx ps i j : (Z.of_nat Ny <= 2 ^ 20)%Z -> (Z.of_nat Nx <= 2 ^ 20)%Z -> below2 20 ps -> below2 22 i -> below2 22 j ->
  ck_to_coordinate L a Ny Nx ps i j = Some (fl_to_coordinate a Ny Nx ps i j) /\ below2 50 (fst (fl_to_coordinate a Ny Nx ps i j)) /\ below2 50 (snd (fl_to_coordinate a Ny Nx ps i j)).
Proof.
  intros Hy Hx Hp Hi Hj. split; [unfold ck_to_coordinate; repeat one RO; reflexivity|].
  unfold fl_to_coordinate. cbv zeta. cbn [fst snd]. split; (eapply below_le; [mag RO|]; small).
Qed.
Lemma grid_finite Ny Nx ps i j : (Z.of_nat Ny <= 2 ^ 20)%Z -> (Z.of_nat Nx <= 2 ^ 20)%Z -> below2 20 ps -> (Z.of_nat i <= 2 ^ 20)%Z -> (Z.of_nat j <= 2 ^ 20)%Z ->
  ck_grid L a Ny Nx ps i j = Some (fl_grid a Ny Nx ps i j) /\ below2 50 (fst (fl_grid a Ny Nx ps i j)) /\ below2 50 (snd (fl_grid a Ny Nx ps i j)).
Proof.
  intros Hy Hx Hp Hi Hj. unfold ck_grid. repeat one RO. unfold fl_grid. apply coordinate_finite; [assumption|assumption|assumption|..]; (eapply below_le; [mag RO|]; small).
Qed.
(** Finer: a pitch of at most 1 m. *)
Lemma grid_fine Ny Nx ps i j : (Z.of_nat Ny <= 2 ^ 20)%Z -> (Z.of_nat Nx <= 2 ^ 20)%Z -> below2 0 ps -> (Z.of_nat i <= 2 ^ 20)%Z -> (Z.of_nat j <= 2 ^ 20)%Z ->
  below2 30 (fst (fl_grid a Ny Nx ps i j)) /\ below2 30 (snd (fl_grid a Ny Nx ps i j)).
Proof.
  intros Hy Hx Hp Hi Hj. unfold fl_grid, fl_to_coordinate. cbv zeta. cbn [fst snd]. split; (eapply below_le; [mag RO|]; small).
Qed.
Lemma padded_grid_finite Ny Nx ps py px i j : (Z.of_nat Ny <= 2 ^ 20)%Z -> (Z.of_nat Nx <= 2 ^ 20)%Z -> below2 20 ps -> (Z.abs py <= 2 ^ 20)%Z -> (Z.abs px <= 2 ^ 20)%Z -> (Z.of_nat i <= 2 ^ 20)%Z -> (Z.of_nat j <= 2 ^ 20)%Z ->
  ck_padded_grid L a Ny Nx ps py px i j = Some (fl_padded_grid a Ny Nx ps py px i j).
Proof.
  intros Hy Hx Hp Hpy Hpx Hi Hj. unfold ck_padded_grid. repeat one RO. unfold fl_padded_grid, ck_to_coordinate. repeat one RO. reflexivity.
Qed.
Lemma index_finite Ny Nx ps x y : (Z.of_nat Ny <= 2 ^ 20)%Z -> (Z.of_nat Nx <= 2 ^ 20)%Z -> below2 20 ps -> above2 60 ps -> below2 60 x -> below2 60 y ->
  ck_to_index L a Ny Nx ps x y = Some (fl_to_index a Ny Nx ps x y).
Proof. intros Hy Hx Hp Hq X Y. unfold ck_to_index. repeat one RO. reflexivity. Qed.
Lemma mask_finite i j d ii jj : below2 50 i -> below2 50 j -> below2 50 d -> (Z.of_nat ii <= 2 ^ 20)%Z -> (Z.of_nat jj <= 2 ^ 20)%Z ->
  ck_circular_mask L a i j d ii jj = Some (fl_circular_mask a i j d ii jj).
Proof. intros Hi Hj Hd Hii Hjj. unfold ck_circular_mask. repeat one RO. reflexivity. Qed.

Lemma phase_finite x y theta p : below2 50 x -> below2 50 y -> above2 30 p -> ck_grating_phase L a x y theta p = Some (fl_grating_phase a x y theta p) /\ below2 100 (fl_grating_phase a x y theta p).
Proof. intros Hx Hy Hp. unfold ck_grating_phase. split; [repeat one RO; reflexivity|]. unfold fl_grating_phase. eapply below_le; [mag RO|]; small. Qed.
Lemma fringe_finite neg pin pout x y p theta : below2 50 x -> below2 50 y -> above2 30 p -> below2 100 pin -> below2 100 pout -> ck_fringe L a neg pin pout x y p theta = Some (fl_fringe a neg pin pout x y p theta).
Proof.
  intros Hx Hy Hp Hi Ho. unfold ck_fringe. destruct (phase_finite x y theta p Hx Hy Hp) as [E B]. rewrite E. cbv zeta. unfold fl_fringe. cbv zeta. destruct neg; repeat one RO; reflexivity.
Qed.
Lemma ideal_finite neg amp pin pout x y p theta : below2 100 amp -> below2 50 x -> below2 50 y -> above2 30 p -> below2 100 pin -> below2 100 pout ->
  ck_ideal L a neg amp pin pout x y p theta = Some (fl_ideal a neg amp pin pout x y p theta).
Proof.
  intros Ha Hx Hy Hp Hi Ho. unfold ck_ideal. rewrite fringe_finite by assumption. assert (B : below2 0 (fl_fringe a neg pin pout x y p theta)) by (apply below_const; apply (ro_cos _ _ RO)). repeat one RO. reflexivity.
Qed.
Lemma simple_finite neg amp pin pout x y p theta : below2 100 amp -> below2 50 x -> below2 50 y -> above2 30 p -> below2 100 pin -> below2 100 pout ->
  ck_simple L a neg amp pin pout x y p theta = Some (fl_simple a neg amp pin pout x y p theta).
Proof. intros Ha Hx Hy Hp Hi Ho. unfold ck_simple. repeat one RO. rewrite ideal_finite by assumption. reflexivity. Qed.
Lemma random_finite neg amp pin pout x y p theta r u : below2 50 x -> below2 50 y -> above2 30 p -> below2 100 pin -> below2 100 pout -> below2 100 r ->
  ck_random L a neg amp pin pout x y p theta r u = Some (fl_random a neg amp pin pout x y p theta r u).
Proof. intros Hx Hy Hp Hi Ho Hr. unfold ck_random. rewrite fringe_finite by assumption. cbv zeta. repeat one RO. reflexivity. Qed.

Lemma below_ind b : below2 0 (ind b).
Proof. apply below_const. unfold ind. destruct b; rewrite Rabs_pos_eq; lra. Qed.
Lemma rect_finite x0 y0 wx wy x y : below2 100 x0 -> below2 100 y0 -> below2 100 wx -> below2 100 wy -> below2 100 x -> below2 100 y -> ck_rect_value L a x0 y0 wx wy x y = Some (fl_rect_value a x0 y0 wx wy x y).
Proof.
  intros. unfold ck_rect_value. do 8 one RO.
  assert (B1 := below_ind (Rltb (Rabs (rnd a (x - rnd a x0))) (rnd a (rnd a wx / 2)))). assert (B2 := below_ind (Rltb (Rabs (rnd a (y - rnd a y0))) (rnd a (rnd a wy / 2)))). one RO. reflexivity.
Qed.
Lemma circ_finite x0 y0 r x y : below2 50 x0 -> below2 50 y0 -> below2 50 r -> below2 50 x -> below2 50 y -> ck_circ_value L a x0 y0 r x y = Some (fl_circ_value a x0 y0 r x y).
Proof. intros. unfold ck_circ_value. repeat one RO. reflexivity. Qed.
Lemma gaussian_finite f_exp x0 y0 A w x y : (forall t, t <= 0 -> Rabs (f_exp t) <= 2) -> below2 30 x0 -> below2 30 y0 -> below2 100 A -> above2 25 w -> below2 30 w -> below2 30 x -> below2 30 y ->
  ck_gaussian L a f_exp x0 y0 A w x y = Some (fl_gaussian a f_exp x0 y0 A w x y).
Proof.
  intros He Hx0 Hy0 HA Hw Hw' Hx Hy. unfold ck_gaussian. do 13 one RO.
  assert (B : below2 1 (f_exp (- rnd a (rnd a (rnd a (rnd a (x - rnd a x0) / rnd a w) ^ 2) + rnd a (rnd a (rnd a (y - rnd a y0) / rnd a w) ^ 2))))).
  { unfold below2. replace (2 ^ 1) with 2 by ring. apply He.
    assert (P : forall z, 0 <= z ^ 2) by (intros z; nra). assert (P1 := ro_pos _ _ RO _ (P (rnd a (rnd a (x - rnd a x0) / rnd a w)))). assert (P2 := ro_pos _ _ RO _ (P (rnd a (rnd a (y - rnd a y0) / rnd a w)))).
    assert (P3 := ro_pos _ _ RO _ (Rplus_le_le_0_compat _ _ P1 P2)). lra. }
  one RO. reflexivity.
Qed.
Lemma cmul_finite z w : below2 60 (fst z) -> below2 60 (snd z) -> below2 60 (fst w) -> below2 60 (snd w) -> ck_cmul L a z w = Some (fl_cmul a z w).
Proof. intros. unfold ck_cmul. repeat one RO. reflexivity. Qed.
Lemma intensity_finite z : below2 40 (fst z) -> below2 40 (snd z) -> ck_intensity L a z = Some (fl_intensity a z) /\ below2 83 (fl_intensity a z).
Proof. intros. unfold ck_intensity. split; [repeat one RO; reflexivity|]. unfold fl_intensity. eapply below_le; [mag RO|]; small. Qed.
End NoOverflow.
