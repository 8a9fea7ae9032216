(** Evaluating double-precision expressions by certificates (C96, C97). *)
From Coq Require Import Reals Lra Psatz ZArith Arith List Bool Lia.
From Flocq Require Import Core.
From Verif Require Import FloatModel FloatSpec FloatFacts FloatFacts2.
Open Scope R_scope.

(** The double nearest to x is m * 2^e when x lies in the binade and is within half a unit of m * 2^e. *)
Lemma nearest64 x m e : (-1074 <= e)%Z -> 2 ^ 52 * bpow radix2 e <= x < 2 ^ 53 * bpow radix2 e -> Rabs (x * bpow radix2 (- e) - IZR m) < / 2 ->
  binary64 x = IZR m * bpow radix2 e.
Proof.
  intros He [L U] N. assert (P := bpow_gt_0 radix2 e).
  assert (Px : 0 < x) by (assert (0 < 2 ^ 52 * bpow radix2 e) by (apply Rmult_lt_0_compat; [lra|exact P]); lra).
  assert (G : mag radix2 x = (e + 53)%Z :> Z).
  { apply mag_unique. rewrite Rabs_pos_eq by lra. replace (e + 53 - 1)%Z with (Z.of_nat 52 + e)%Z by lia. replace (e + 53)%Z with (Z.of_nat 53 + e)%Z by lia.
    rewrite !bpow_plus, !bpow_nat. split; assumption. }
  unfold binary64, round, F2R. cbn [Fnum Fexp]. 
  assert (Cx : cexp radix2 (FLT_exp (-1074) 53) x = e) by (unfold cexp, FLT_exp; rewrite G; lia).
  unfold scaled_mantissa. rewrite Cx. rewrite (Znearest_imp _ _ m N). reflexivity.
Qed.
(** A positive rational. *)
Lemma rational64 x p q m (s : positive) : (Zpos s <= 1074)%Z -> (0 < q)%Z -> x = IZR p / IZR q -> (2 ^ 52 * q <= p * 2 ^ Zpos s < 2 ^ 53 * q)%Z ->
  (2 * Z.abs (p * 2 ^ Zpos s - m * q) < q)%Z -> binary64 x = IZR m / IZR (2 ^ Zpos s).
Proof.
  intros Hs Hq -> [L U] N. set (w := (2 ^ Zpos s)%Z) in *.
  assert (Ew : bpow radix2 (Zpos s) = IZR w) by (symmetry; unfold w; change (2 ^ Zpos s)%Z with (Zpower radix2 (Zpos s)); apply IZR_Zpower; lia).
  assert (Ei : bpow radix2 (- Zpos s) = / IZR w) by (rewrite bpow_opp, Ew; reflexivity).
  assert (Pw : 0 < IZR w) by (rewrite <- Ew; apply bpow_gt_0). assert (Pq : 0 < IZR q) by (apply IZR_lt; exact Hq). clearbody w.
  apply IZR_le in L. apply IZR_lt in U. apply IZR_lt in N. rewrite !mult_IZR in L, U. rewrite mult_IZR, abs_IZR, minus_IZR, !mult_IZR in N.
  unfold Rdiv at 2. rewrite <- Ei. apply nearest64; [lia| |].
  - rewrite (pow_IZR 2 52), (pow_IZR 2 53). change (2 ^ Z.of_nat 52)%Z with (2 ^ 52)%Z. change (2 ^ Z.of_nat 53)%Z with (2 ^ 53)%Z. rewrite Ei. split.
    + apply Rmult_le_reg_r with (IZR q * IZR w); [apply Rmult_lt_0_compat; assumption|]. replace (IZR (2 ^ 52) * / IZR w * (IZR q * IZR w)) with (IZR (2 ^ 52) * IZR q) by (field; lra).
      replace (IZR p / IZR q * (IZR q * IZR w)) with (IZR p * IZR w) by (field; lra). exact L.
    + apply Rmult_lt_reg_r with (IZR q * IZR w); [apply Rmult_lt_0_compat; assumption|]. replace (IZR (2 ^ 53) * / IZR w * (IZR q * IZR w)) with (IZR (2 ^ 53) * IZR q) by (field; lra).
      replace (IZR p / IZR q * (IZR q * IZR w)) with (IZR p * IZR w) by (field; lra). exact U.
  - rewrite Z.opp_involutive, Ew. replace (IZR p / IZR q * IZR w - IZR m) with ((IZR p * IZR w - IZR m * IZR q) * / IZR q) by (field; lra).
    rewrite Rabs_mult, (Rabs_pos_eq (/ IZR q)) by (left; apply Rinv_0_lt_compat; exact Pq). apply Rmult_lt_reg_r with (IZR q); [exact Pq|]. rewrite Rmult_assoc, Rinv_l by lra. lra.
Qed.
Lemma size9500_is : size9500 = IZR 6375194751874021 / IZR (2 ^ 69).
Proof.
  unfold size9500. rewrite (rational64 (108 / 10) 108 10 6079859496950170 49) by (reflexivity || lia || lra).
  rewrite (rational64 (1 / 1000000) 1 1000000 4722366482869645 72) by (reflexivity || lia || lra).
  apply (rational64 _ (6079859496950170 * 4722366482869645) (2 ^ 49 * 2 ^ 72) 6375194751874021 69); try (reflexivity || lia || (split; reflexivity)).
  rewrite !mult_IZR. field. split; apply IZR_neq; discriminate.
Qed.
Lemma column26 : snd (fl_to_index double 1080 1920 size9500 (fst (fl_grid double 1080 1920 size9500 0 26)) (snd (fl_grid double 1080 1920 size9500 0 26))) = 26 + / IZR (2 ^ 43).
Proof.
  assert (E22 : (2 ^ 22 <= 2 ^ 53)%Z) by (intros Q; discriminate Q).
  rewrite (grid_value double _ _ _ _ _ _ binary64_arithmetic binary64_arithmetic E22 E22 1080 1920 size9500 0 26) by lia. cbn [fst snd].
  unfold fl_to_index. cbv zeta. cbn [fst snd]. unfold double; cbn [rnd dbl machine].
  assert (Hs : binary64 size9500 = size9500) by (unfold size9500; apply (ar_stable _ _ _ _ binary64_arithmetic)). rewrite Hs.
  replace (INR 26) with (IZR 26) by (rewrite INR_IZR_INZ; reflexivity). replace (INR 1920) with (IZR 1920) by (rewrite INR_IZR_INZ; reflexivity).
  replace (26 - 1920 / 2) with (Ropp 934) by lra. rewrite Ropp_mult_distr_l_reverse, (ar_odd _ _ _ _ binary64_arithmetic).
  assert (E1 : binary64 (934 * size9500) = IZR 5814874900635093 / IZR (2 ^ 59)).
  { apply (rational64 _ (934 * 6375194751874021) (2 ^ 69) 5814874900635093 59); try (reflexivity || lia || (split; reflexivity)). rewrite size9500_is, mult_IZR. field. apply IZR_neq. discriminate. }
  rewrite E1. unfold Rdiv at 1. rewrite Ropp_mult_distr_l_reverse, (ar_odd _ _ _ _ binary64_arithmetic).
  assert (E2 : binary64 (IZR 5814874900635093 / IZR (2 ^ 59) * / size9500) = IZR 8215550882742271 / IZR (2 ^ 43)).
  { apply (rational64 _ (5814874900635093 * 2 ^ 69) (2 ^ 59 * 6375194751874021) 8215550882742271 43); try (reflexivity || lia || (split; reflexivity)).
    rewrite size9500_is, !mult_IZR. field. repeat split; apply IZR_neq; discriminate. }
  rewrite E2. replace (1920 / 2) with (IZR 960) by lra.
  rewrite (fl_int _ _ _ _ binary64_arithmetic 960), (fl_int _ _ _ _ binary64_arithmetic 960) by (intros Q; discriminate Q).
  assert (E3 : binary64 (- (IZR 8215550882742271 / IZR (2 ^ 43)) + 960) = IZR 7318349394477088 / IZR (2 ^ 48)).
  { apply (rational64 _ (960 * 2 ^ 43 - 8215550882742271) (2 ^ 43) 7318349394477088 48); try (reflexivity || lia || (split; reflexivity)).
    rewrite minus_IZR, mult_IZR. field. apply IZR_neq. discriminate. }
  rewrite E3. replace (IZR 7318349394477088) with (IZR (26 * 2 ^ 48 + 2 ^ 5)) by reflexivity. rewrite plus_IZR, mult_IZR. replace (IZR (2 ^ 48)) with (IZR (2 ^ 43) * IZR (2 ^ 5)) by (rewrite <- mult_IZR; reflexivity).
  field. split; apply IZR_neq; discriminate.
Qed.
(** ** The padded grid of a simulation agrees with the grid of the device to the last bit. *)
Lemma padded_grid a u eta B Ny Nx ps py px i j : arithmetic u eta B (rnd a) -> (2 ^ 22 <= B)%Z -> (0 <= py <= 2 ^ 20)%Z -> (0 <= px <= 2 ^ 20)%Z ->
  (Z.of_nat i <= 2 ^ 20)%Z -> (Z.of_nat j <= 2 ^ 20)%Z -> fl_padded_grid a Ny Nx ps py px (i + Z.to_nat py) (j + Z.to_nat px) = fl_grid a Ny Nx ps i j.
Proof.
  intros H HB Hy Hx Hi Hj. unfold fl_padded_grid, fl_grid. rewrite !INR_IZR_INZ. rewrite !(fl_int _ _ _ _ H) by lia. rewrite <- !plus_IZR.
  rewrite !(fl_int _ _ _ _ H) by lia. f_equal; f_equal; lia.
Qed.
(** ** Machines *)
Lemma library_machine u eta B f : arithmetic u eta B f -> (2 ^ 20 <= B)%Z -> library (machine f).
Proof.
  intros H HB. assert (Z1 := fl_1 _ _ _ _ H HB). assert (Zm : f (- 1) = - 1) by (replace (f (- 1)) with (- f 1) by (rewrite <- (ar_odd _ _ _ _ H); f_equal; ring); rewrite Z1; ring).
  assert (Q : forall x, -1 <= x <= 1 -> -1 <= f x <= 1).
  { intros x [X1 X2]. split; [apply Rle_trans with (f (-1)); [lra|apply (ar_monotone _ _ _ _ H); exact X1]|apply Rle_trans with (f 1); [apply (ar_monotone _ _ _ _ H); exact X2|lra]]. }
  split; cbn [machine f_cos f_tanh f_asin].
  - intros x. apply Q. apply COS_bound.
  - intros x. apply Q. unfold tanh, sinh, cosh. assert (P1 := exp_pos x). assert (P2 := exp_pos (- x)). assert (P : 0 < exp x + exp (- x)) by lra.
    split; apply Rmult_le_reg_r with ((exp x + exp (- x)) / 2); try lra; replace ((exp x - exp (- x)) / 2 / ((exp x + exp (- x)) / 2) * ((exp x + exp (- x)) / 2)) with ((exp x - exp (- x)) / 2) by (field; lra); lra.
  - rewrite asin_0. exact (fl_0 _ _ _ _ H HB).
Qed.
Lemma double_library : library double. Proof. exact (library_machine _ _ _ _ binary64_arithmetic ltac:(lia)). Qed.
Lemma single_library : library single. Proof. exact (library_machine _ _ _ _ binary32_arithmetic ltac:(lia)). Qed.
(** ** Flush to zero below the smallest normal number *)
Lemma flushed64 : arithmetic (/ 2 ^ 53) (2 * (/ 2 ^ 1022 + / 2 ^ 1075)) (2 ^ 53) (flushed (/ 2 ^ 1022) binary64).
Proof.
  apply (flushed_arithmetic _ _ _ _ binary64_arithmetic ltac:(lia)).
  - apply Rinv_0_lt_compat, pow_lt; lra.
  - apply Rinv_le_contravar; [apply pow_lt; lra|]. apply Rle_pow; [lra|lia].
  - lra.
  - lra.
  - left. apply Rinv_0_lt_compat, pow_lt; lra.
Qed.
Lemma flushed32 : arithmetic (/ 2 ^ 24) (2 * (/ 2 ^ 126 + / 2 ^ 150)) (2 ^ 24) (flushed (/ 2 ^ 126) binary32).
Proof.
  apply (flushed_arithmetic _ _ _ _ binary32_arithmetic ltac:(lia)).
  - apply Rinv_0_lt_compat, pow_lt; lra.
  - apply Rinv_le_contravar; [apply pow_lt; lra|]. apply Rle_pow; [lra|lia].
  - lra.
  - lra.
  - left. apply Rinv_0_lt_compat, pow_lt; lra.
Qed.
(** ** The mask of a patch with integer centre *)
Lemma mask_integer a u eta u' eta' B B' (ci cj cd Ny Nx ii jj : nat) : arithmetic u eta B (rnd a) -> arithmetic u' eta' B' (dbl a) -> (B <= B')%Z ->
  (Z.of_nat Ny ^ 2 + Z.of_nat Nx ^ 2 <= B)%Z -> (Z.of_nat cd ^ 2 <= B)%Z -> (ci <= Ny)%nat -> (cj <= Nx)%nat -> (ii <= Ny)%nat -> (jj <= Nx)%nat ->
  (fl_circular_mask a (INR ci) (INR cj) (INR cd) ii jj = true <-> (INR jj - INR cj) ^ 2 + (INR ii - INR ci) ^ 2 < (INR cd / 2) ^ 2).
Proof.
  intros H H' HBB S D Hci Hcj Hii Hjj.
  assert (Sq : forall n m : nat, (n <= m)%nat -> (Z.of_nat n <= Z.of_nat m ^ 2)%Z) by (intros n m Hnm; assert (Z.of_nat n <= Z.of_nat m)%Z by lia; assert (0 <= Z.of_nat n)%Z by lia; nia).
  assert (Sd : forall n m k : nat, (n <= m)%nat -> (k <= m)%nat -> ((Z.of_nat n - Z.of_nat k) ^ 2 <= Z.of_nat m ^ 2)%Z).
  { intros n m k Hn Hk. assert (Z.abs (Z.of_nat n - Z.of_nat k) <= Z.of_nat m)%Z by lia. rewrite !Z.pow_2_r. assert (V1 : (0 <= Z.of_nat n <= Z.of_nat m)%Z) by lia. assert (V2 : (0 <= Z.of_nat k <= Z.of_nat m)%Z) by lia. clear - V1 V2. set (x := Z.of_nat n) in *. set (y := Z.of_nat k) in *. set (w := Z.of_nat m) in *. clearbody x y w. nia. }
  assert (0 <= Z.of_nat Ny ^ 2)%Z by (apply Z.pow_nonneg; lia). assert (0 <= Z.of_nat Nx ^ 2)%Z by (apply Z.pow_nonneg; lia).
  assert (A1 := Sq ci Ny Hci). assert (A2 := Sq cj Nx Hcj). assert (A3 := Sq ii Ny Hii). assert (A4 := Sq jj Nx Hjj). assert (A5 := Sd ii Ny ci Hii Hci). assert (A6 := Sd jj Nx cj Hjj Hcj).
  assert (Q := mask_exact a u eta u' eta' B B' H H' (Z.of_nat ci) (Z.of_nat cj) (Z.of_nat cd) 0 ii jj ltac:(lia) HBB ltac:(lia) ltac:(lia) ltac:(lia) ltac:(lia)).
  assert (D1 : forall x : R, x / 1 = x) by (intros; field). cbn [pow] in Q. rewrite !D1, <- !INR_IZR_INZ in Q. change (2 ^ Z.of_nat 0)%Z with 1%Z in Q. rewrite !Z.mul_1_r in Q. cbn [pow]. apply Q; lia.
Qed.
(** ** Summaries *)
Lemma grid_after_rounding a u eta u' eta' B B' Ny Nx ps :
  arithmetic u eta B (rnd a) -> arithmetic u' eta' B' (dbl a) -> (2 ^ 22 <= B)%Z -> (2 ^ 22 <= B')%Z -> 0 <= u <= / 2 ^ 24 -> 0 <= eta ->
  (Z.of_nat Ny <= 2 ^ 20)%Z -> (Z.of_nat Nx <= 2 ^ 20)%Z -> 0 < ps -> eta <= u * ps / 2 ->
  exists X Y, (forall i j, (i <= Ny)%nat -> (j <= Nx)%nat -> fl_grid a Ny Nx ps i j = (X j, Y i)) /\
    (forall j j', (j < j')%nat -> (j' <= Nx)%nat -> X j < X j') /\ (forall i i', (i < i')%nat -> (i' <= Ny)%nat -> Y i' < Y i) /\
    (forall j j', (j + j' = Nx)%nat -> X j = - X j') /\ (forall i i', (i + i' = Ny)%nat -> Y i = - Y i') /\
    (forall j, (j <= Nx)%nat -> Rabs (X j - (INR j - INR Nx / 2) * ps) <= (2 * u + u ^ 2) * (Rabs (INR j - INR Nx / 2) * ps) + (INR Nx + 1) * eta) /\
    (forall i, (i <= Ny)%nat -> Rabs (Y i - (INR Ny / 2 - INR i) * ps) <= (2 * u + u ^ 2) * (Rabs (INR Ny / 2 - INR i) * ps) + (INR Ny + 1) * eta).
Proof.
  intros H H' HB HB' Hu He Hy Hx Hp Hs. exists (fun j => fst (fl_grid a Ny Nx ps 0 j)), (fun i => snd (fl_grid a Ny Nx ps i 0)).
  split; [exact (grid_split a u eta u' eta' B B' Ny Nx ps H H' HB HB' Hy Hx)|].
  destruct (grid_monotone a u eta u' eta' B B' Ny Nx ps H H' HB HB' Hu Hy Hx Hp Hs) as [M1 M2].
  destruct (grid_antisymmetric a u eta u' eta' B B' Ny Nx ps H H' HB HB' Hy Hx) as [A1 A2].
  split; [exact M1|]. split; [exact M2|]. split; [exact A1|]. split; [exact A2|].
  assert (G := grid_accurate a u eta u' eta' B B' Ny Nx ps H H' HB HB' Hu He Hy Hx Hp).
  split; [intros j Hj; exact (proj1 (G 0%nat j ltac:(lia) Hj))|intros i Hi; exact (proj2 (G i 0%nat Hi ltac:(lia)))].
Qed.
Lemma index_recovered a u eta u' eta' B B' Ny Nx ps i j :
  arithmetic u eta B (rnd a) -> arithmetic u' eta' B' (dbl a) -> (2 ^ 22 <= B)%Z -> (2 ^ 22 <= B')%Z -> 0 <= u <= / 2 ^ 24 -> 0 <= eta ->
  (Z.of_nat Ny <= 2 ^ 20)%Z -> (Z.of_nat Nx <= 2 ^ 20)%Z -> 0 < ps -> eta <= u * ps / 2 -> eta <= u -> (i <= Ny)%nat -> (j <= Nx)%nat ->
  let p := fl_to_index a Ny Nx ps (fst (fl_grid a Ny Nx ps i j)) (snd (fl_grid a Ny Nx ps i j)) in
  Rabs (fst p - INR i) <= 3 * u * (INR Ny + 3) /\ Rabs (snd p - INR j) <= 3 * u * (INR Nx + 3) /\ Rabs (fst p - INR i) < 1 / 2 /\ Rabs (snd p - INR j) < 1 / 2.
Proof.
  intros H H' HB HB' Hu He Hy Hx Hp Hs Hs' Hi Hj p. destruct (round_trip a u eta u' eta' B B' Ny Nx ps H H' HB HB' Hu He Hy Hx Hp Hs i j Hs' Hi Hj) as [R1 R2]. fold p in R1, R2.
  assert (S : forall n, (Z.of_nat n <= 2 ^ 20)%Z -> 3 * u * (INR n + 3) < 1 / 2).
  { intros n Hn. assert (Q : INR n <= 2 ^ 20) by (rewrite INR_IZR_INZ; replace (2 ^ 20) with (IZR (2 ^ 20)) by (symmetry; apply (pow_IZR 2 20)); apply IZR_le; exact Hn).
    assert (P := pos_INR n). apply Rle_lt_trans with (3 * / 2 ^ 24 * (2 ^ 20 + 3)); [|lra]. apply Rmult_le_compat; lra. }
  repeat split; try assumption; eapply Rle_lt_trans; try eassumption; apply S; assumption.
Qed.
