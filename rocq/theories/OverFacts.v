(** Power and overlap of sampled Hermite-Gauss and Laguerre-Gauss beams (C116, C117). *)
From Coq Require Import Reals Lra Psatz ZArith Arith List Bool Lia.
From Coquelicot Require Import Rcomplements Complex.
From Verif Require Import Cx Sums PyBase ProfileModel ProfSpec SlmModel LibModel DmdModel SimModel SimSpec ModeSpec DFT ModeFacts ModeThms ProfFacts ProfFacts2 GridFacts GridFacts2 SimFacts SimFacts2 SimFacts4 TensorThms ErfInt GaussSum GaussSum2 GaussFacts HermSpec HermSum HermSum2 HermFacts RingSpec RingAlg RingFacts OverlapSpec OverSum.
Import ListNotations.
Open Scope R_scope.

(** *** One axis *)
Lemma axis_val p q w : w * (val p q / sqrt 2) = axis_overlap p q w.
Proof.
  assert (Q := sqrt2_pos). assert (PP := PI_RGT_0). unfold val, axis_overlap. destruct (p =? q)%nat; [|field; lra].
  rewrite sqrt_div by lra. field. lra.
Qed.
Lemma axis_overlap_pos p q w : 0 <= w -> 0 <= axis_overlap p q w.
Proof. intros Hw. unfold axis_overlap. destruct (p =? q)%nat; [|lra]. repeat apply Rmult_le_pos; [exact Hw|apply sqrt_pos|apply pow_le; lra|apply pos_INR]. Qed.
Lemma oaxis_x p q h w c N : 0 < h -> 0 < w -> Rabs c <= INR N / 2 * h ->
  Rabs (h * rsum N (fun j => hf p (((INR j - INR N / 2) * h - c) / w) * hf q (((INR j - INR N / 2) * h - c) / w)) - axis_overlap p q w) <= overlap_axis_error p q h (INR N / 2 * h) c w.
Proof.
  intros Hh Hw Hc. apply Rabs_le_between in Hc. set (L := INR N / 2 * h) in *. set (A := - (L + c) / w). set (n := h / w). assert (Hn : 0 < n) by (apply Rdiv_lt_0_compat; assumption).
  assert (EB : A + INR N * n = (L - c) / w) by (unfold A, n, L; field; lra).
  assert (HA : A <= 0). { unfold A. assert (0 < / w) by (apply Rinv_0_lt_compat, Hw). unfold Rdiv. nra. }
  assert (HB : 0 <= A + INR N * n). { rewrite EB. apply Rmult_le_pos; [lra|]. left. apply Rinv_0_lt_compat, Hw. }
  assert (P := product_sum p q A n N ltac:(lra) HA HB). cbv zeta in P. rewrite EB in P.
  match type of P with Rabs ?z <= _ => set (d := z) in P end.
  match goal with |- Rabs ?z <= _ => replace z with (w * d) end.
  - rewrite Rabs_mult, (Rabs_pos_eq w) by lra. unfold overlap_axis_error. cbv zeta. fold A n. apply Rmult_le_compat_l; [lra|]. eapply Rle_trans; [exact P|].
    replace ((L - c) / w - A) with (2 * L / w) by (unfold A; field; lra). lra.
  - unfold d. rewrite Rmult_minus_distr_l, axis_val, <- Rmult_assoc. replace (w * n) with h by (unfold n; field; lra). do 2 f_equal. apply rsum_ext. intros j _.
    replace (((INR j - INR N / 2) * h - c) / w) with (A + INR j * n) by (unfold A, n, L; field; lra). reflexivity.
Qed.
Lemma height_flip n t : height n (- t) = height n t.
Proof. rewrite !height_H, hf_parity, Rabs_mult, pow_1_abs. ring. Qed.
Lemma beyond_flip p q t : beyond p q (- t) = beyond p q t.
Proof. revert q. induction p as [|p IH]; intros [|q]; cbn [beyond]; rewrite ?height_flip, ?IH; try reflexivity. replace ((- t) ^ 2) with (t ^ 2) by ring. reflexivity. Qed.
Lemma oaxis_y p q h w c N : 0 < h -> 0 < w -> Rabs c <= INR N / 2 * h ->
  Rabs (h * rsum N (fun i => hf p (((INR N / 2 - INR i) * h - c) / w) * hf q (((INR N / 2 - INR i) * h - c) / w)) - axis_overlap p q w) <= overlap_axis_error p q h (INR N / 2 * h) c w.
Proof.
  intros Hh Hw Hc. assert (P := oaxis_x p q h w (- c) N Hh Hw ltac:(rewrite Rabs_Ropp; exact Hc)).
  replace (overlap_axis_error p q h (INR N / 2 * h) (- c) w) with (overlap_axis_error p q h (INR N / 2 * h) c w) in P.
  - eapply Rle_trans; [|exact P]. right. set (s := (-1) ^ p * (-1) ^ q). assert (S1 : Rabs s = 1) by (unfold s; rewrite Rabs_mult, !pow_1_abs; ring).
    assert (S2 : s * s = 1) by (assert (Q := pow2_abs s); rewrite S1 in Q; lra).
    match goal with |- _ = Rabs ?z => transitivity (Rabs (s * z)); [|rewrite Rabs_mult, S1; ring] end. f_equal. rewrite Rmult_minus_distr_l. f_equal.
    + rewrite (Rmult_comm s), Rmult_assoc. f_equal. rewrite <- rsum_scal_r. apply rsum_ext. intros i _.
      replace (((INR i - INR N / 2) * h - - c) / w) with (- (((INR N / 2 - INR i) * h - c) / w)) by (field; lra). rewrite !hf_parity.
      match goal with |- ?a * ?b = (?u * ?a' * (?v * ?b')) * s => transitivity (s * s * (a * b)); [rewrite S2; ring|unfold s; ring] end.
    + unfold axis_overlap. destruct (Nat.eqb_spec p q) as [<-|]; [|ring]. replace s with 1; [ring|]. unfold s. rewrite <- Rpow_mult_distr. replace (-1 * -1) with 1 by ring. symmetry. apply pow1.
  - unfold overlap_axis_error. cbv zeta. set (L := INR N / 2 * h).
    replace (- (L + - c) / w) with (- ((L - c) / w)) by (field; lra). replace ((L - - c) / w) with (- (- (L + c) / w)) by (field; lra). rewrite !height_flip, !beyond_flip. ring.
Qed.
(** *** The plane *)
Lemma prod_err_r (S1 S2 T1 T2 e1 e2 : R) : Rabs (S1 - T1) <= e1 -> Rabs (S2 - T2) <= e2 -> 0 <= T1 -> 0 <= T2 -> Rabs (S1 * S2 - T1 * T2) <= product_error T1 T2 e1 e2.
Proof.
  intros H1 H2 P1 P2. assert (Q := prod_err2 (RtoC S1) (RtoC S2) (RtoC T1) (RtoC T2) e1 e2 T1 T2). rewrite <- !RtoC_minus, <- !RtoC_mult, <- RtoC_minus, !Cmod_R in Q. apply Q; try assumption; rewrite Rabs_pos_eq by assumption; lra.
Qed.
Lemma plane_val n m n' m' w : 0 < w -> axis_overlap m m' w * axis_overlap n n' w = mode_overlap n m n' m' w.
Proof.
  intros Hw. unfold axis_overlap, mode_overlap. assert (PP := PI_RGT_0). destruct (n =? n')%nat, (m =? m')%nat; cbn [andb]; try ring.
  assert (E : sqrt (PI / 2) * sqrt (PI / 2) = PI / 2) by (apply sqrt_sqrt; lra). rewrite pow_add, mult_INR.
  match goal with |- ?l = _ => transitivity (w ^ 2 * (sqrt (PI / 2) * sqrt (PI / 2)) * (2 ^ n * 2 ^ m) * (INR (fact n) * INR (fact m))); [ring|rewrite E; field] end.
Qed.
Section Panel.
Variables (h w x0 y0 : R) (ny nx : nat).
Hypothesis (Hh : 0 < h) (Hw : 0 < w) (Hx : Rabs x0 <= INR nx / 2 * h) (Hy : Rabs y0 <= INR ny / 2 * h).
Definition phi (n m i j : nat) : R := hg_mode x0 y0 1 w n m ((INR j - INR nx / 2) * h) ((INR ny / 2 - INR i) * h).
Definition gram (n m n' m' : nat) : R := h ^ 2 * rsum2 ny nx (fun i j => phi n m i j * phi n' m' i j).
Definition gerr (n m n' m' : nat) : R := overlap_error n m n' m' h (INR nx / 2 * h) (INR ny / 2 * h) x0 y0 w.
Lemma gram_val n m n' m' : Rabs (gram n m n' m' - mode_overlap n m n' m' w) <= gerr n m n' m'.
Proof.
  rewrite <- plane_val by exact Hw. unfold gerr, overlap_error.
  eapply Rle_trans; [|apply prod_err_r; [apply (oaxis_y m m' h w y0 ny Hh Hw Hy)|apply (oaxis_x n n' h w x0 nx Hh Hw Hx)|apply axis_overlap_pos; lra|apply axis_overlap_pos; lra]].
  right. f_equal. f_equal. unfold gram, rsum2.
  match goal with |- _ = (h * rsum _ ?f * (h * rsum _ ?g)) => replace (h * rsum ny f * (h * rsum nx g)) with (h ^ 2 * (rsum ny f * rsum nx g)) by ring end. f_equal. rewrite <- rsum_scal_r. apply rsum_ext; intros i _. rewrite <- rsum_scal_l. apply rsum_ext; intros j _.
  unfold phi. rewrite !mode_product by lra. ring.
Qed.
Definition ip (F G : nat -> nat -> C) : C := (RtoC (h ^ 2) * csum2 ny nx (fun i j => F i j * cconj (G i j)))%C.
Lemma ip_self F : ip F F = RtoC (power_of (h ^ 2) ny nx F).
Proof. unfold ip, power_of. rewrite rsum2_Cmod, RtoC_mult, <- csum2_RtoC. f_equal. apply csum2_ext. intros i j _ _. apply mult_cconj. Qed.
Lemma power_sum F G : power_of (h ^ 2) ny nx (fun i j => F i j + G i j)%C = power_of (h ^ 2) ny nx F + power_of (h ^ 2) ny nx G + 2 * fst (ip F G).
Proof.
  unfold ip, power_of. rewrite re_scal. unfold csum2. rewrite csum_fst, (rsum_ext ny _ (fun i => rsum nx (fun j => fst (F i j * cconj (G i j))%C))) by (intros; apply csum_fst).
  change (rsum ny (fun i => rsum nx (fun j => fst (F i j * cconj (G i j))%C))) with (rsum2 ny nx (fun i j => fst (F i j * cconj (G i j))%C)).
  rewrite !rsum2_Cmod. replace (rsum2 ny nx (fun i j => cnorm2 (F i j + G i j)%C)) with (rsum2 ny nx (fun i j => (cnorm2 (F i j) + cnorm2 (G i j)) + 2 * fst (F i j * cconj (G i j))%C)).
  - rewrite !rsum2_plus, rsum2_scal_l. ring.
  - apply rsum2_ext. intros i j _ _. unfold cnorm2, cconj. cbn. ring.
Qed.
(** *** Laguerre-Gauss modes *)
Lemma rings_cconj j p q (e : nat -> nat -> C) : cconj (rings j p q e) = rings (cconj j) p q (fun n m => cconj (e n m)).
Proof.
  assert (V : forall q e, cconj (vortex j q e) = vortex (cconj j) q (fun n m => cconj (e n m))).
  { clear. induction q as [|q IH]; intros e; cbn [vortex]; [reflexivity|]. rewrite IH. apply vortex_ext. intros n m. rewrite cconj_plus, cconj_mult. reflexivity. }
  revert e. induction p as [|p IH]; intros e; cbn [rings]; [apply V|]. rewrite IH. apply rings_ext. intros n m. rewrite cconj_plus. reflexivity.
Qed.
Lemma cconj_RtoC r : cconj (RtoC r) = RtoC r. Proof. unfold cconj, RtoC; cbn [fst snd]. f_equal. ring. Qed.
Lemma ip_rings j p q j' p' q' : ip (fun i k => rings j p q (fun n m => RtoC (phi n m i k))) (fun i k => rings j' p' q' (fun n m => RtoC (phi n m i k))) =
  rings j p q (fun n m => rings (cconj j') p' q' (fun n' m' => RtoC (gram n m n' m'))).
Proof.
  unfold ip. rewrite (csum2_ext ny nx _ (fun i k => rings j p q (fun n m => rings (cconj j') p' q' (fun n' m' => RtoC (phi n m i k * phi n' m' i k))))).
  - rewrite (rings_csum2 j p q ny nx (fun n m i k => rings (cconj j') p' q' (fun n' m' => RtoC (phi n m i k * phi n' m' i k)))), <- rings_scal. apply rings_ext. intros n m.
    rewrite (rings_csum2 (cconj j') p' q' ny nx (fun n' m' i k => RtoC (phi n m i k * phi n' m' i k))), <- rings_scal. apply rings_ext. intros n' m'. rewrite csum2_RtoC, <- RtoC_mult. reflexivity.
  - intros i k _ _. rewrite rings_cconj, Cmult_comm, <- rings_scal. apply rings_ext. intros n m. rewrite Cmult_comm, <- rings_scal. apply rings_ext. intros n' m'. rewrite cconj_RtoC, <- RtoC_mult. reflexivity.
Qed.
Lemma ip_rings_err j p q j' p' q' : Cmod j = 1 -> Cmod j' = 1 ->
  Cmod (rings j p q (fun n m => rings (cconj j') p' q' (fun n' m' => RtoC (gram n m n' m'))) - rings j p q (fun n m => rings (cconj j') p' q' (fun n' m' => RtoC (mode_overlap n m n' m' w))))%C
  <= rings_abs p q (fun n m => rings_abs p' q' (fun n' m' => gerr n m n' m')).
Proof.
  intros Hj Hj'. match goal with |- Cmod (rings _ _ _ ?e - rings _ _ _ ?f)%C <= _ => replace (rings j p q e - rings j p q f)%C with (rings j p q (fun n m => RtoC 1 * e n m + (- RtoC 1) * f n m)%C) by (rewrite rings_lin; ring) end.
  eapply Rle_trans; [apply rings_mod, Hj|]. apply rings_abs_le. intros n m.
  match goal with |- Cmod (_ * rings ?c _ _ ?e + _ * rings _ _ _ ?f)%C <= _ => replace (RtoC 1 * rings c p' q' e + - RtoC 1 * rings c p' q' f)%C with (rings c p' q' (fun n m => RtoC 1 * e n m + (- RtoC 1) * f n m)%C) by (rewrite rings_lin; ring) end.
  eapply Rle_trans; [apply rings_mod; rewrite Cmod_cconj; exact Hj'|]. apply rings_abs_le. intros n' m'. eapply Rle_trans; [|apply gram_val]. right. rewrite <- Cmod_R. f_equal. rewrite RtoC_minus. ring.
Qed.
End Panel.
(** *** The exact values *)
Definition delta (n m n' m' : nat) : C := if ((n =? n') && (m =? m'))%bool then RtoC (2 ^ (n + m) * INR (fact n * fact m)) else RtoC 0.
Definition del (n n' : nat) : R := if (n =? n')%nat then 2 ^ n * INR (fact n) else 0.
Lemma delta_del n m n' m' : delta n m n' m' = RtoC (del n n' * del m m').
Proof. unfold delta, del. destruct (n =? n')%nat, (m =? m')%nat; cbn [andb]; f_equal; try ring. rewrite pow_add, mult_INR. ring. Qed.
Lemma del_S n n' : del (S n) n' = 2 * match n' with O => 0 | S k => INR (S k) * del n k end.
Proof.
  unfold del. destruct n' as [|k]; cbn [Nat.eqb]; [ring|]. destruct (Nat.eqb_spec n k) as [<-|]; [|ring]. rewrite fact_simpl, mult_INR. cbn [pow]. ring.
Qed.
Lemma delta_up c n m n' m' : up c (fun n m => delta n m n' m') n m = (RtoC 2 * down c (delta n m) n' m')%C.
Proof.
  unfold up, down. rewrite !delta_del, !del_S. destruct n' as [|n'], m' as [|m']; rewrite ?delta_del, ?Rmult_0_r, ?Rmult_0_l, ?RtoC_mult; ring.
Qed.
Lemma delta_0 n m : delta 0 0 (S n) m = RtoC 0 /\ delta 0 0 n (S m) = RtoC 0.
Proof. unfold delta. cbn [Nat.eqb]. rewrite andb_false_r. auto. Qed.
Section J.
Variable j : C.
Hypothesis Hj : (j * j = - RtoC 1)%C.
Lemma Hmj : (- j * - j = - RtoC 1)%C. Proof. rewrite <- Hj. ring. Qed.
Lemma opp_opp : (- - j = j)%C. Proof. ring. Qed.
Lemma mono_0r a e : mono j a 0 e = vortex (- j)%C a e.
Proof. revert e. induction a as [|a IH]; intros e; [reflexivity|]. cbn [mono vortex]. rewrite IH. reflexivity. Qed.
Lemma mono_swap a b e : mono j a b e = mono (- j)%C b a e.
Proof.
  revert e. induction b as [|b IH]; intros e; [rewrite mono_0r; reflexivity|]. rewrite mono_conj. cbn [mono]. rewrite opp_opp. apply IH.
Qed.
Lemma mono_scal k a b e : mono k a b (fun n m => RtoC 2 * e n m)%C = (RtoC 2 * mono k a b e)%C.
Proof. transitivity (RtoC 2 * mono k a b e + RtoC 0 * mono k a b e)%C; [|ring]. rewrite <- mono_lin. apply mono_ext. intros; ring. Qed.
Lemma mono_zero k a b e : (forall n m, e n m = RtoC 0) -> mono k a b e = RtoC 0.
Proof. intros H. transitivity (RtoC 0 * mono k a b e + RtoC 0 * mono k a b e)%C; [|ring]. rewrite <- mono_lin. apply mono_ext. intros. rewrite H. ring. Qed.
Lemma mono_up' a b e : mono j (S a) b (down j e) = (RtoC (2 * INR (S a)) * mono j a b e)%C.
Proof. rewrite !mono_swap. assert (Q := mono_down (- j)%C Hmj b a e). rewrite opp_opp in Q. exact Q. Qed.
Lemma mono_up0 b e : mono j 0 b (down j e) = RtoC 0.
Proof. rewrite mono_swap. assert (Q := mono_down0 (- j)%C Hmj b e). rewrite opp_opp in Q. exact Q. Qed.
(** The bilinear form: a factor (x - j y) of the first meets a factor (x + j y) of the second. *)
Definition form (a b a' b' : nat) : C := mono j a b (fun n m => mono j a' b' (delta n m)).
Lemma form_up c a' b' n m : up c (fun n m => mono j a' b' (delta n m)) n m = (RtoC 2 * mono j a' b' (down c (delta n m)))%C.
Proof.
  unfold up at 1. transitivity (mono j a' b' (fun n' m' => RtoC 1 * delta (S n) m n' m' + c * delta n (S m) n' m')%C); [rewrite mono_lin; ring|].
  rewrite <- mono_scal. apply mono_ext. intros n' m'. rewrite <- delta_up. unfold up. ring.
Qed.
Lemma mono_mul z k a b e : mono k a b (fun n m => z * e n m)%C = (z * mono k a b e)%C.
Proof. transitivity (z * mono k a b e + RtoC 0 * mono k a b e)%C; [|ring]. rewrite <- mono_lin. apply mono_ext. intros; ring. Qed.
Lemma form_a a b a' b' : form (S a) b a' (S b') = (RtoC (4 * INR (S b')) * form a b a' b')%C.
Proof.
  unfold form. cbn [mono]. rewrite <- mono_mul. apply mono_ext. intros n m. rewrite form_up, mono_down by exact Hj. rewrite Cmult_assoc, <- RtoC_mult. do 2 f_equal. ring.
Qed.
Lemma form_a0 a b a' : form (S a) b a' 0 = RtoC 0.
Proof. unfold form. cbn [mono]. apply mono_zero. intros n m. rewrite form_up, mono_down0 by exact Hj. ring. Qed.
Lemma form_b a b a' b' : form a (S b) (S a') b' = (RtoC (4 * INR (S a')) * form a b a' b')%C.
Proof.
  unfold form. rewrite mono_conj, <- mono_mul. apply mono_ext. intros n m. rewrite form_up, mono_up'. rewrite Cmult_assoc, <- RtoC_mult. do 2 f_equal. ring.
Qed.
Lemma form_b0 a b b' : form a (S b) 0 b' = RtoC 0.
Proof. unfold form. rewrite mono_conj. apply mono_zero. intros n m. rewrite form_up, mono_up0. ring. Qed.
Lemma form_00 a' b' : form 0 0 a' b' = if ((a' =? 0) && (b' =? 0))%bool then RtoC 1 else RtoC 0.
Proof.
  unfold form. cbn [mono vortex]. assert (Z : forall c n m, up c (delta 0 0) n m = RtoC 0) by (intros c n m; unfold up; rewrite (proj1 (delta_0 n m)), (proj2 (delta_0 n m)); ring).
  destruct a' as [|a']; cbn [Nat.eqb andb]; [|cbn [mono]; apply mono_zero; intros; apply Z].
  destruct b' as [|b']; cbn [Nat.eqb andb]; [|rewrite mono_conj; apply mono_zero; intros; apply Z].
  cbn [mono vortex]. rewrite delta_del. unfold del. cbn. f_equal. ring.
Qed.
Lemma form_val a b a' b' : form a b a' b' = if ((a =? b') && (b =? a'))%bool then RtoC (4 ^ (a + b) * INR (fact a * fact b)) else RtoC 0.
Proof.
  revert b a' b'. induction a as [|a IH]; intros b a' b'.
  - revert a' b'. induction b as [|b IHb]; intros a' b'.
    + rewrite form_00, (Nat.eqb_sym 0 b'), (Nat.eqb_sym 0 a'), andb_comm. destruct (_ && _)%bool; [|reflexivity]. f_equal. cbn. ring.
    + destruct a' as [|a']; [rewrite form_b0; cbn [Nat.eqb]; rewrite andb_false_r; reflexivity|]. rewrite form_b, IHb. cbn [Nat.eqb].
      destruct b' as [|b']; cbn [Nat.eqb andb]; [|ring]. destruct (Nat.eqb_spec b a') as [<-|]; [|ring]. rewrite <- RtoC_mult. f_equal. cbn [Nat.add fact pow Nat.mul]. rewrite !Nat.add_0_r. change (fact b + b * fact b)%nat with (S b * fact b)%nat. rewrite mult_INR. ring.
  - destruct b' as [|b']; [rewrite form_a0; cbn [Nat.eqb andb]; reflexivity|]. rewrite form_a, IH. cbn [Nat.eqb].
    destruct (Nat.eqb_spec a b') as [<-|]; cbn [andb]; [|ring]. destruct (b =? a')%nat; [|ring]. rewrite <- RtoC_mult. f_equal. rewrite (fact_simpl a), !mult_INR. cbn [Nat.add pow]. ring.
Qed.
End J.
Lemma helix_conj l : cconj (helix l) = (- helix l)%C.
Proof. unfold helix, cconj. destruct (l <? 0)%Z; apply injective_projections; cbn; ring. Qed.
Lemma helix_cases l l' : helix l' = helix l /\ (l <? 0)%Z = (l' <? 0)%Z \/ helix l' = (- helix l)%C /\ (l <? 0)%Z <> (l' <? 0)%Z.
Proof.
  unfold helix. destruct (l <? 0)%Z, (l' <? 0)%Z; [left; auto|right|right|left; auto]; (split; [|discriminate]); apply injective_projections; cbn; ring.
Qed.
Lemma mode_delta n m n' m' w : RtoC (mode_overlap n m n' m' w) = (RtoC (PI * w ^ 2 / 2) * delta n m n' m')%C.
Proof. unfold mode_overlap, delta. destruct (_ && _)%bool; [|ring]. rewrite <- RtoC_mult. f_equal. ring. Qed.
Lemma lg_exact l p l' p' w : let q := Z.abs_nat l in let q' := Z.abs_nat l' in
  rings (helix l) p q (fun n m => rings (cconj (helix l')) p' q' (fun n' m' => RtoC (mode_overlap n m n' m' w))) =
  if ((l =? l')%Z && (p =? p')%nat)%bool then RtoC (PI * w ^ 2 / 2 * (4 ^ (2 * p + q) * INR (fact p * fact (p + q)))) else RtoC 0.
Proof.
  intros q q'. assert (Hj := helix_sq l). set (j := helix l) in *.
  transitivity (RtoC (PI * w ^ 2 / 2) * rings j p q (fun n m => rings (cconj (helix l')) p' q' (delta n m)))%C.
  { rewrite <- rings_scal. apply rings_ext. intros n m. rewrite <- rings_scal. apply rings_ext. intros n' m'. apply mode_delta. }
  assert (K : rings j p q (fun n m => rings (cconj (helix l')) p' q' (delta n m)) = if ((l =? l')%Z && (p =? p')%nat)%bool then RtoC (4 ^ (2 * p + q) * INR (fact p * fact (p + q))) else RtoC 0).
  { rewrite helix_conj. destruct (helix_cases l l') as [[E S]|[E S]]; rewrite E; fold j.
    - transitivity (form j p (p + q) (p' + q') p').
      + rewrite <- (mono_rings j Hj). unfold form. apply mono_ext. intros n m. rewrite <- (mono_rings (- j)%C (Hmj j Hj)), (mono_swap (- j)%C), opp_opp. reflexivity.
      + rewrite form_val by exact Hj. replace (p + (p + q))%nat with (2 * p + q)%nat by lia.
        destruct (Nat.eqb_spec p p') as [<-|]; [|rewrite andb_false_r; reflexivity]. rewrite andb_true_r. cbn [andb].
        destruct (Z.eqb_spec l l') as [<-|N]; [replace (p + q =? p + q')%nat with true by (symmetry; apply Nat.eqb_eq; reflexivity); reflexivity|].
        replace (p + q =? p + q')%nat with false; [reflexivity|]. symmetry. apply Nat.eqb_neq. unfold q, q'. destruct (Z.ltb_spec l 0), (Z.ltb_spec l' 0); try discriminate S; lia.
    - rewrite opp_opp. transitivity (form j p (p + q) p' (p' + q')).
      + rewrite <- (mono_rings j Hj). unfold form. apply mono_ext. intros n m. rewrite <- (mono_rings j Hj). reflexivity.
      + rewrite form_val by exact Hj. assert (N : (l =? l')%Z = false) by (apply Z.eqb_neq; intros ->; apply S; reflexivity). rewrite N. cbn [andb].
        destruct (Nat.eqb_spec p (p' + q')) as [E1|]; [|reflexivity]. destruct (Nat.eqb_spec (p + q) p') as [E2|]; [|reflexivity]. exfalso. apply S. unfold q, q' in *. replace l with 0%Z by lia. replace l' with 0%Z by lia. reflexivity. }
  rewrite K. destruct (_ && _)%bool; [rewrite <- RtoC_mult; reflexivity|ring].
Qed.
