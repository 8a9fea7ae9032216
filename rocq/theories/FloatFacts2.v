(** Effect of rounding on grids, amplitudes, masks and powers (C95-C98). *)
From Coq Require Import Reals Lra Psatz ZArith Arith List Bool Lia.
From Flocq Require Import Core.
From Coquelicot Require Import Complex.
From Verif Require Import Cx PyBase ProfileModel SlmModel LibModel DmdModel AmpFacts FloatModel FloatSpec FloatFacts.
Open Scope R_scope.

Section Fpu.
Variables (a : fpu) (u eta u' eta' : R) (B B' : Z).
Hypotheses (H : arithmetic u eta B (rnd a)) (H' : arithmetic u' eta' B' (dbl a)) (HB : (2 ^ 22 <= B)%Z) (HB' : (2 ^ 22 <= B')%Z).
Let fl := rnd a.
Lemma HB20 : (2 ^ 20 <= B)%Z. Proof. lia. Qed.
Lemma mono x y : x <= y -> fl x <= fl y. Proof. exact (ar_monotone _ _ _ _ H x y). Qed.
Lemma z0 : fl 0 = 0. Proof. exact (fl_0 _ _ _ _ H HB20). Qed.
Lemma z1 : fl 1 = 1. Proof. exact (fl_1 _ _ _ _ H HB20). Qed.
Lemma z12 : fl (1 / 2) = 1 / 2. Proof. exact (fl_12 _ _ _ _ H HB20). Qed.

(** ** Grids *)
Lemma half_size n : (Z.of_nat n <= 2 ^ 20)%Z -> rnd a (dbl a (INR n / 2)) = IZR (Z.of_nat n) / 2.
Proof.
  intros K. rewrite INR_IZR_INZ, (fl_half _ _ _ _ H') by lia. apply (fl_half _ _ _ _ H). lia.
Qed.
Lemma nat_exact n : (Z.of_nat n <= 2 ^ 20)%Z -> rnd a (INR n) = IZR (Z.of_nat n).
Proof. intros K. rewrite INR_IZR_INZ. apply (fl_int _ _ _ _ H). lia. Qed.
(** The only roundings that matter are that of the pixel size and that of the product. *)
Lemma grid_value Ny Nx ps i j : (Z.of_nat Ny <= 2 ^ 20)%Z -> (Z.of_nat Nx <= 2 ^ 20)%Z -> (i <= Ny)%nat -> (j <= Nx)%nat ->
  fl_grid a Ny Nx ps i j = (fl ((INR j - INR Nx / 2) * fl ps), fl ((INR Ny / 2 - INR i) * fl ps)).
Proof.
  intros Hy Hx Hi Hj. unfold fl_grid, fl_to_coordinate. rewrite !half_size, !nat_exact by lia.
  replace (IZR (Z.of_nat j) - IZR (Z.of_nat Nx) / 2) with (IZR (2 * Z.of_nat j - Z.of_nat Nx) / 2) by (rewrite minus_IZR, mult_IZR; field).
  rewrite <- minus_IZR, (fl_int _ _ _ _ H (Z.of_nat Ny - Z.of_nat i)) by lia.
  replace (IZR (Z.of_nat Ny - Z.of_nat i) - IZR (Z.of_nat Ny) / 2) with (IZR (Z.of_nat Ny - 2 * Z.of_nat i) / 2) by (rewrite !minus_IZR, mult_IZR; field).
  rewrite !(fl_half _ _ _ _ H) by lia. unfold fl. f_equal; f_equal; f_equal; rewrite ?minus_IZR, ?mult_IZR, <- ?INR_IZR_INZ; field.
Qed.
End Fpu.
Section Err.
Variables (f : R -> R) (u eta : R) (B : Z).
Hypotheses (H : arithmetic u eta B f) (Hu : 0 <= u <= / 2 ^ 24) (Heta : 0 <= eta).
Lemma scaled_error k ps : 0 < ps -> Rabs (f (k * f ps) - k * ps) <= (2 * u + u ^ 2) * (Rabs k * ps) + (2 * Rabs k + 1) * eta.
Proof.
  intros Hp. assert (E1 := ar_error _ _ _ _ H ps). assert (E2 := ar_error _ _ _ _ H (k * f ps)).
  rewrite (Rabs_pos_eq ps) in E1 by lra. rewrite Rabs_mult in E2. assert (K := Rabs_pos k).
  assert (A : Rabs (f ps) <= ps + u * ps + eta).
  { replace (f ps) with (ps + (f ps - ps)) by ring. eapply Rle_trans; [apply Rabs_triang|]. rewrite (Rabs_pos_eq ps) by lra. lra. }
  assert (D : Rabs (k * f ps - k * ps) <= Rabs k * (u * ps + eta)).
  { replace (k * f ps - k * ps) with (k * (f ps - ps)) by ring. rewrite Rabs_mult. apply Rmult_le_compat_l; assumption. }
  assert (A' : u * (Rabs k * Rabs (f ps)) <= u * (Rabs k * (ps + u * ps + eta))).
  { apply Rmult_le_compat_l; [lra|]. apply Rmult_le_compat_l; assumption. }
  replace (f (k * f ps) - k * ps) with ((f (k * f ps) - k * f ps) + (k * f ps - k * ps)) by ring.
  eapply Rle_trans; [apply Rabs_triang|].
  assert (U : u * (Rabs k * eta) <= Rabs k * eta).
  { assert (0 <= Rabs k * eta) by (apply Rmult_le_pos; lra). assert (u <= 1) by (assert (/ 2 ^ 24 <= 1) by lra; lra). nra. }
  nra.
Qed.
Lemma pitch_bounds ps : 0 < ps -> eta <= u * ps / 2 -> ps / 2 <= f ps <= 2 * ps.
Proof.
  intros Hp He. assert (E1 := ar_error _ _ _ _ H ps). rewrite (Rabs_pos_eq ps) in E1 by lra. apply Rabs_le_inv in E1.
  assert (u * ps <= / 2 ^ 24 * ps) by (apply Rmult_le_compat_r; lra). lra.
Qed.
Lemma scaled_strict k k' ps : 0 < ps -> eta <= u * ps / 2 -> Rabs k <= 2 ^ 20 -> Rabs k' <= 2 ^ 20 -> k + 1 <= k' -> f (k * f ps) < f (k' * f ps).
Proof.
  intros Hp He K K' L. destruct (pitch_bounds ps Hp He) as [P1 P2]. set (p := f ps) in *. clearbody p.
  assert (E := ar_error _ _ _ _ H (k * p)). assert (E' := ar_error _ _ _ _ H (k' * p)). rewrite Rabs_mult, (Rabs_pos_eq p) in E, E' by lra.
  apply Rabs_le_inv in E. apply Rabs_le_inv in E'.
  assert (S1 : u * (Rabs k * p) <= / 2 ^ 24 * (2 ^ 20 * p)).
  { apply Rmult_le_compat; [lra|apply Rmult_le_pos; [apply Rabs_pos|lra]|lra|apply Rmult_le_compat_r; lra]. }
  assert (S2 : u * (Rabs k' * p) <= / 2 ^ 24 * (2 ^ 20 * p)).
  { apply Rmult_le_compat; [lra|apply Rmult_le_pos; [apply Rabs_pos|lra]|lra|apply Rmult_le_compat_r; lra]. }
  assert (S3 : eta <= / 2 ^ 24 * p). { assert (u * ps / 2 <= / 2 ^ 24 * ps / 2) by (unfold Rdiv; apply Rmult_le_compat_r; [lra|]; apply Rmult_le_compat_r; lra). lra. }
  assert ((k' - k) * p >= p) by nra. lra.
Qed.
(** Index -> coordinate -> quotient by the pitch. *)
Lemma quotient_error k ps : 0 < ps -> eta <= u * ps / 2 -> eta <= u -> Rabs (f (f (k * f ps) / f ps) - k) <= u * (2.01 * Rabs k + 2.01).
Proof.
  intros Hp He He'. destruct (pitch_bounds ps Hp He) as [P1 P2]. set (p := f ps) in *. clearbody p.
  assert (E := ar_error _ _ _ _ H (k * p)). rewrite Rabs_mult, (Rabs_pos_eq p) in E by lra. set (x := f (k * p)) in *. clearbody x.
  assert (K := Rabs_pos k). assert (Pp : 0 < p) by lra.
  assert (Q : Rabs (x / p - k) <= u * (Rabs k + 1)).
  { replace (x / p - k) with ((x - k * p) / p) by (field; lra). unfold Rdiv. rewrite Rabs_mult, (Rabs_pos_eq (/ p)) by (left; apply Rinv_0_lt_compat; exact Pp).
    apply Rmult_le_reg_r with p; [exact Pp|]. rewrite Rmult_assoc, Rinv_l, Rmult_1_r by lra.
    assert (eta <= u * p) by (assert (u * ps <= u * (2 * p)) by (apply Rmult_le_compat_l; lra); lra). nra. }
  assert (E2 := ar_error _ _ _ _ H (x / p)). set (q := x / p) in *. clearbody q.
  assert (A : Rabs q <= Rabs k + u * (Rabs k + 1)).
  { replace q with (k + (q - k)) by ring. eapply Rle_trans; [apply Rabs_triang|]. lra. }
  replace (f q - k) with ((f q - q) + (q - k)) by ring. eapply Rle_trans; [apply Rabs_triang|].
  assert (u * (Rabs k + 1) <= 0.01 * (Rabs k + 1)) by (apply Rmult_le_compat_r; lra).
  assert (u * Rabs q <= u * (1.01 * Rabs k + 0.01)) by (apply Rmult_le_compat_l; lra). nra.
Qed.
Lemma added_error q e c t : Rabs (q - t) <= e -> e <= 1 -> eta <= u -> Rabs (f (c + q) - (c + t)) <= e + u * (Rabs (c + t) + 2).
Proof.
  intros E E1 He. assert (E2 := ar_error _ _ _ _ H (c + q)).
  assert (A : Rabs (c + q) <= Rabs (c + t) + 1).
  { replace (c + q) with ((c + t) + (q - t)) by ring. eapply Rle_trans; [apply Rabs_triang|]. lra. }
  replace (f (c + q) - (c + t)) with ((f (c + q) - (c + q)) + (q - t)) by ring. eapply Rle_trans; [apply Rabs_triang|].
  assert (u * Rabs (c + q) <= u * (Rabs (c + t) + 1)) by (apply Rmult_le_compat_l; lra). nra.
Qed.
End Err.

Section Grid.
Variables (a : fpu) (u eta u' eta' : R) (B B' : Z) (Ny Nx : nat) (ps : R).
Hypotheses (H : arithmetic u eta B (rnd a)) (H' : arithmetic u' eta' B' (dbl a)) (HB : (2 ^ 22 <= B)%Z) (HB' : (2 ^ 22 <= B')%Z).
Hypotheses (Hu : 0 <= u <= / 2 ^ 24) (Heta : 0 <= eta) (Hy : (Z.of_nat Ny <= 2 ^ 20)%Z) (Hx : (Z.of_nat Nx <= 2 ^ 20)%Z) (Hps : 0 < ps) (He : eta <= u * ps / 2).
Let X j := fst (fl_grid a Ny Nx ps 0 j).
Let Y i := snd (fl_grid a Ny Nx ps i 0).
Lemma grid_split i j : (i <= Ny)%nat -> (j <= Nx)%nat -> fl_grid a Ny Nx ps i j = (X j, Y i).
Proof. intros Hi Hj. unfold X, Y. rewrite !(grid_value a u eta u' eta' B B' H H' HB HB' Ny Nx ps) by lia. reflexivity. Qed.
Lemma centre_bound n k : (Z.of_nat n <= 2 ^ 20)%Z -> (k <= n)%nat -> Rabs (INR k - INR n / 2) <= INR n / 2 /\ INR n <= 2 ^ 20.
Proof.
  intros Hn Hk. assert (A := pos_INR k). assert (D := le_INR k n Hk).
  assert (INR n <= 2 ^ 20). { rewrite INR_IZR_INZ. replace (2 ^ 20) with (IZR (2 ^ 20)) by (symmetry; apply (pow_IZR 2 20)). apply IZR_le. exact Hn. }
  split; [|assumption]. apply Rabs_le. lra.
Qed.
Lemma grid_accurate i j : (i <= Ny)%nat -> (j <= Nx)%nat ->
  Rabs (X j - (INR j - INR Nx / 2) * ps) <= (2 * u + u ^ 2) * (Rabs (INR j - INR Nx / 2) * ps) + (INR Nx + 1) * eta /\
  Rabs (Y i - (INR Ny / 2 - INR i) * ps) <= (2 * u + u ^ 2) * (Rabs (INR Ny / 2 - INR i) * ps) + (INR Ny + 1) * eta.
Proof.
  intros Hi Hj. unfold X, Y. rewrite !(grid_value a u eta u' eta' B B' H H' HB HB' Ny Nx ps) by lia. cbn [fst snd].
  destruct (centre_bound Nx j Hx Hj) as [B1 _]. destruct (centre_bound Ny i Hy Hi) as [B2 _]. rewrite <- Rabs_Ropp in B2. replace (- (INR i - INR Ny / 2)) with (INR Ny / 2 - INR i) in B2 by ring.
  split; (eapply Rle_trans; [apply (scaled_error _ u eta B H Hu Heta _ _ Hps)|]); apply Rplus_le_compat_l; apply Rmult_le_compat_r; lra.
Qed.
Lemma grid_antisymmetric : (forall j j', (j + j' = Nx)%nat -> X j = - X j') /\ (forall i i', (i + i' = Ny)%nat -> Y i = - Y i').
Proof.
  unfold X, Y. split; [intros j j' E|intros i i' E]; rewrite !(grid_value a u eta u' eta' B B' H H' HB HB' Ny Nx ps) by lia; cbn [fst snd]; rewrite <- (ar_odd _ _ _ _ H); f_equal; rewrite <- E, plus_INR; field.
Qed.
Lemma grid_monotone : (forall j j', (j < j')%nat -> (j' <= Nx)%nat -> X j < X j') /\ (forall i i', (i < i')%nat -> (i' <= Ny)%nat -> Y i' < Y i).
Proof.
  unfold X, Y. split; [intros j j' L L'|intros i i' L L']; rewrite !(grid_value a u eta u' eta' B B' H H' HB HB' Ny Nx ps) by lia; cbn [fst snd].
  - destruct (centre_bound Nx j Hx ltac:(lia)) as [B1 B0]. destruct (centre_bound Nx j' Hx ltac:(lia)) as [B2 _].
    assert (D : INR j + 1 <= INR j') by (rewrite <- S_INR; apply le_INR; lia).
    apply (scaled_strict _ u eta B H Hu); try assumption; try lra; (eapply Rle_trans; [eassumption|lra]).
  - destruct (centre_bound Ny i Hy ltac:(lia)) as [B1 B0]. destruct (centre_bound Ny i' Hy ltac:(lia)) as [B2 _].
    rewrite <- Rabs_Ropp in B1, B2. replace (- (INR i - INR Ny / 2)) with (INR Ny / 2 - INR i) in B1 by ring. replace (- (INR i' - INR Ny / 2)) with (INR Ny / 2 - INR i') in B2 by ring.
    assert (D : INR i + 1 <= INR i') by (rewrite <- S_INR; apply le_INR; lia).
    apply (scaled_strict _ u eta B H Hu); try assumption; try lra; (eapply Rle_trans; [eassumption|lra]).
Qed.
Lemma round_trip i j : eta <= u -> (i <= Ny)%nat -> (j <= Nx)%nat ->
  let p := fl_to_index a Ny Nx ps (fst (fl_grid a Ny Nx ps i j)) (snd (fl_grid a Ny Nx ps i j)) in
  Rabs (fst p - INR i) <= 3 * u * (INR Ny + 3) /\ Rabs (snd p - INR j) <= 3 * u * (INR Nx + 3).
Proof.
  intros He' Hi Hj. rewrite (grid_value a u eta u' eta' B B' H H' HB HB' Ny Nx ps) by lia. cbn [fst snd]. unfold fl_to_index.
  rewrite !(half_size a u eta u' eta' B B' H H' HB HB'), (nat_exact a u eta B H HB Ny) by lia. rewrite <- !INR_IZR_INZ. cbv zeta. cbn [fst snd].
  destruct (centre_bound Nx j Hx Hj) as [B1 N1]. destruct (centre_bound Ny i Hy Hi) as [B2 N2]. rewrite <- Rabs_Ropp in B2. replace (- (INR i - INR Ny / 2)) with (INR Ny / 2 - INR i) in B2 by ring.
  assert (Q1 := quotient_error (rnd a) u eta B H Hu (INR j - INR Nx / 2) ps Hps He He').
  assert (Q2 := quotient_error (rnd a) u eta B H Hu (INR Ny / 2 - INR i) ps Hps He He').
  set (q1 := rnd a (rnd a ((INR j - INR Nx / 2) * rnd a ps) / rnd a ps)) in *. set (q2 := rnd a (rnd a ((INR Ny / 2 - INR i) * rnd a ps) / rnd a ps)) in *. clearbody q1 q2.
  assert (I0 := pos_INR i). assert (J0 := pos_INR j). assert (I1 := le_INR i Ny Hi). assert (J1 := le_INR j Nx Hj).
  assert (R1 : Rabs (q1 - (INR j - INR Nx / 2)) <= u * (1.005 * INR Nx + 2.01)).
  { eapply Rle_trans; [exact Q1|]. apply Rmult_le_compat_l; lra. }
  assert (R2 : Rabs (q2 - (INR Ny / 2 - INR i)) <= u * (1.005 * INR Ny + 2.01)).
  { eapply Rle_trans; [exact Q2|]. apply Rmult_le_compat_l; lra. }
  assert (L1 : u * (1.005 * INR Nx + 2.01) <= 1 / 2).
  { apply Rle_trans with (/ 2 ^ 24 * (1.005 * 2 ^ 20 + 2.01)); [apply Rmult_le_compat; lra|lra]. }
  assert (L2 : u * (1.005 * INR Ny + 2.01) <= 1 / 4).
  { apply Rle_trans with (/ 2 ^ 24 * (1.005 * 2 ^ 20 + 2.01)); [apply Rmult_le_compat; lra|lra]. }
  assert (S1 := added_error (rnd a) u eta B H Hu Heta q1 _ (INR Nx / 2) _ R1 ltac:(lra) He').
  assert (S2 := added_error (rnd a) u eta B H Hu Heta q2 _ (INR Ny / 2) _ R2 ltac:(lra) He').
  replace (INR Nx / 2 + (INR j - INR Nx / 2)) with (INR j) in S1 by field. replace (INR Ny / 2 + (INR Ny / 2 - INR i)) with (INR Ny - INR i) in S2 by field.
  rewrite (Rplus_comm q2), (Rplus_comm q1). rewrite (Rabs_pos_eq (INR j)) in S1 by lra. rewrite (Rabs_pos_eq (INR Ny - INR i)) in S2 by lra.
  split.
  - set (s := rnd a (INR Ny / 2 + q2)) in *. clearbody s.
    assert (T : Rabs (- s - - (INR Ny - INR i)) <= u * (1.005 * INR Ny + 2.01) + u * (INR Ny - INR i + 2)).
    { replace (- s - - (INR Ny - INR i)) with (- (s - (INR Ny - INR i))) by ring. rewrite Rabs_Ropp. exact S2. }
    assert (L3 : u * (INR Ny - INR i + 2) <= 1 / 4).
    { apply Rle_trans with (/ 2 ^ 24 * (2 ^ 20 + 2)); [apply Rmult_le_compat; lra|lra]. }
    assert (S3 := added_error (rnd a) u eta B H Hu Heta (- s) _ (INR Ny) _ T ltac:(lra) He').
    replace (INR Ny + - (INR Ny - INR i)) with (INR i) in S3 by ring. change (INR Ny + - s) with (INR Ny - s) in S3. rewrite (Rabs_pos_eq (INR i)) in S3 by lra.
    eapply Rle_trans; [exact S3|].
    assert (0 <= u * INR Ny) by (apply Rmult_le_pos; lra). nra.
  - eapply Rle_trans; [exact S1|]. assert (u * INR j <= u * INR Nx) by (apply Rmult_le_compat_l; lra). assert (0 <= u * INR Nx) by (apply Rmult_le_pos; lra). nra.
Qed.
End Grid.

(** ** The circular mask *)
Lemma pow_2e e : 2 ^ e * 2 ^ e = 2 ^ (2 * e).
Proof. rewrite <- pow_add. f_equal. lia. Qed.
Section Mask.
Variables (a : fpu) (u eta u' eta' : R) (B B' : Z).
Hypotheses (H : arithmetic u eta B (rnd a)) (H' : arithmetic u' eta' B' (dbl a)).
(** Centre and diameter are multiples of 2^-e. *)
Lemma mask_exact (ci cj cd : Z) e ii jj : (2 * e + 2 <= 100)%nat -> (B <= B')%Z ->
  (Z.abs ci <= B)%Z -> (Z.abs cj <= B)%Z -> (Z.of_nat ii <= B)%Z -> (Z.of_nat jj <= B)%Z ->
  ((Z.of_nat jj * 2 ^ Z.of_nat e - cj) ^ 2 + (Z.of_nat ii * 2 ^ Z.of_nat e - ci) ^ 2 <= B)%Z -> (cd ^ 2 <= B)%Z ->
  (fl_circular_mask a (IZR ci / 2 ^ e) (IZR cj / 2 ^ e) (IZR cd / 2 ^ e) ii jj = true <->
   (INR jj - IZR cj / 2 ^ e) ^ 2 + (INR ii - IZR ci / 2 ^ e) ^ 2 < (IZR cd / 2 ^ e / 2) ^ 2).
Proof.
  intros He HBB Hi Hj Hii Hjj Hs Hd. assert (P : 0 < 2 ^ e) by (apply pow_lt; lra).
  assert (PZ : IZR (2 ^ Z.of_nat e) = 2 ^ e) by (rewrite <- pow_IZR; reflexivity).
  set (dj := (Z.of_nat jj * 2 ^ Z.of_nat e - cj)%Z) in *. set (di := (Z.of_nat ii * 2 ^ Z.of_nat e - ci)%Z) in *.
  assert (Sq : forall z : Z, (Z.abs z <= z ^ 2)%Z) by (intros z; nia).
  assert (A1 := Sq dj). assert (A2 := Sq di). assert (A3 := Sq cd). assert (0 <= dj ^ 2)%Z by nia. assert (0 <= di ^ 2)%Z by nia.
  assert (Ej : INR jj - IZR cj / 2 ^ e = IZR dj / 2 ^ e) by (unfold dj; rewrite minus_IZR, mult_IZR, PZ, <- INR_IZR_INZ; field; lra).
  assert (Ei : INR ii - IZR ci / 2 ^ e = IZR di / 2 ^ e) by (unfold di; rewrite minus_IZR, mult_IZR, PZ, <- INR_IZR_INZ; field; lra).
  assert (SQ : forall z, (IZR z / 2 ^ e) ^ 2 = IZR (z ^ 2) / 2 ^ (2 * e)).
  { intros z. rewrite <- pow_2e. change (z ^ 2)%Z with (z * (z * 1))%Z. rewrite !mult_IZR. field. lra. }
  unfold fl_circular_mask. cbv zeta.
  rewrite (ar_exact _ _ _ _ H ci e), (ar_exact _ _ _ _ H cj e) by (assumption || lia).
  replace (rnd a (INR jj)) with (INR jj) by (rewrite INR_IZR_INZ; symmetry; apply (fl_int _ _ _ _ H); lia).
  replace (rnd a (INR ii)) with (INR ii) by (rewrite INR_IZR_INZ; symmetry; apply (fl_int _ _ _ _ H); lia).
  rewrite Ej, Ei. rewrite (ar_exact _ _ _ _ H dj e), (ar_exact _ _ _ _ H di e) by lia. rewrite !SQ.
  rewrite (ar_exact _ _ _ _ H (dj ^ 2) (2 * e)), (ar_exact _ _ _ _ H (di ^ 2) (2 * e)) by lia.
  replace (IZR (dj ^ 2) / 2 ^ (2 * e) + IZR (di ^ 2) / 2 ^ (2 * e)) with (IZR (dj ^ 2 + di ^ 2) / 2 ^ (2 * e)) by (rewrite plus_IZR; unfold Rdiv; ring).
  rewrite (ar_exact _ _ _ _ H (dj ^ 2 + di ^ 2) (2 * e)) by lia.
  replace (IZR cd / 2 ^ e / 2) with (IZR cd / 2 ^ (e + 1)) by (rewrite pow_add; field; lra).
  rewrite (ar_exact _ _ _ _ H' cd (e + 1)) by lia.
  replace ((IZR cd / 2 ^ (e + 1)) ^ 2) with (IZR (cd ^ 2) / 2 ^ (2 * e + 2)).
  2:{ rewrite (pow_add 2 (2 * e) 2), <- pow_2e, pow_add. change (cd ^ 2)%Z with (cd * (cd * 1))%Z. rewrite !mult_IZR. field. lra. }
  assert (Z0 : (0 <= cd ^ 2)%Z) by nia.
  rewrite (ar_exact _ _ _ _ H' (cd ^ 2) (2 * e + 2)), (ar_exact _ _ _ _ H (cd ^ 2) (2 * e + 2)) by lia.
  destruct (Rlt_dec _ _); split; intros; try assumption; try reflexivity; try discriminate; contradiction.
Qed.
End Mask.
