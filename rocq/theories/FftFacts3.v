(** A mixed-radix FFT is accurate (C111), continued: butterflies by direct summation, numbers for single and double precision. *)
From Coq Require Import Reals Lra Psatz ZArith Arith List Lia.
From Coquelicot Require Import Complex.
From Verif Require Import Cx Sums DFT SimFacts FloatModel FloatSpec FloatFacts FlSimModel FlSimSpec NormFacts FlSimFacts FftModel FftSpec FftFacts FftFacts2.
Import ListNotations.
Open Scope R_scope.

(** ** The cast *)
Lemma cast_near a a' u eta B w b ly lx f e d : arithmetic u eta B (rnd a) -> 0 <= u <= 1 / 8 -> 0 <= eta -> let ny := size ly in let nx := size lx in
  norm ny nx (fun i j => fl_ifft2 a' w b ly lx f i j - ifft2 ny nx f i j)%C <= e * norm ny nx (ifft2 ny nx f) + d ->
  norm ny nx (fun i j => numpy_ifft2 a a' w b ly lx f i j - ifft2 ny nx f i j)%C <= ((1 + e) * (1 + u) - 1) * norm ny nx (ifft2 ny nx f) + ((1 + u) * d + sqrt (INR (ny * nx)) * (2 * eta)).
Proof.
  intros H Hu He ny nx Q. set (z := fl_ifft2 a' w b ly lx f) in *. set (I := ifft2 ny nx f) in *.
  assert (P : norm ny nx (fun i j => numpy_ifft2 a a' w b ly lx f i j - I i j)%C <= (1 + u) * norm ny nx (fun i j => z i j - I i j)%C + u * norm ny nx I + sqrt (INR (ny * nx)) * (2 * eta)).
  { apply pointwise; try lra. intros i j _ _. eapply Rle_trans; [apply (Cmod_sub_via _ (z i j))|]. assert (R := cround a u eta B H Hu He (z i j)). unfold numpy_ifft2. cbv zeta. fold z.
    assert (V := Cmod_via (I i j) (z i j)). assert (u * Cmod (z i j) <= u * (Cmod (I i j) + Cmod (z i j - I i j)%C)) by (apply Rmult_le_compat_l; lra). lra. }
  eapply Rle_trans; [exact P|]. assert ((1 + u) * norm ny nx (fun i j => z i j - I i j)%C <= (1 + u) * (e * norm ny nx I + d)) by (apply Rmult_le_compat_l; lra). lra.
Qed.

(** ** Direct summation *)
Section Direct.
Variables (a : fpu) (u eta : R) (B : Z) (w : table).
Hypotheses (H : arithmetic u eta B (rnd a)) (Hu : 0 <= u <= 1 / 8) (He : 0 <= eta) (W : good_table (2 * u) w).
Notation direct_rel := (direct_rel u). Notation direct_abs := (direct_abs u eta).
Lemma csum_near (T t : nat -> C) (g : nat -> R) n : (forall j, (j < n)%nat -> Cmod (t j) <= g j /\ Cmod (T j - t j)%C <= 10 * u * g j + 8 * eta) ->
  Cmod (fl_csum a n T - csum n t)%C <= ((1 + 10 * u) * (1 + u) ^ n - 1) * rsum n g + 10 * INR n * eta * (1 + u) ^ n /\ Cmod (csum n t) <= rsum n g.
Proof.
  induction n as [|n IH]; intros Q.
  - cbn [fl_csum csum rsum INR pow]. replace (RtoC 0 - RtoC 0)%C with (RtoC 0) by ring. rewrite Cmod_0. lra.
  - destruct IH as [I1 I2]. { intros j Hj. apply Q. lia. } destruct (Q n ltac:(lia)) as [Q1 Q2].
    assert (G : 0 <= g n) by (eapply Rle_trans; [apply Cmod_ge_0|exact Q1]). assert (Gs : 0 <= rsum n g) by (eapply Rle_trans; [apply Cmod_ge_0|exact I2]).
    cbn [fl_csum csum rsum]. split; [|eapply Rle_trans; [apply Cmod_triangle|]; lra].
    set (S := fl_csum a n T) in *. set (s := csum n t) in *. unfold fl_cadd. change (fst S + fst (T n)) with (fst (S + T n)%C). change (snd S + snd (T n)) with (snd (S + T n)%C).
    eapply Rle_trans; [apply (Cmod_sub_via _ (S + T n)%C)|]. assert (R := cround a u eta B H Hu He (S + T n)%C).
    assert (E : Cmod ((S + T n) - (s + t n))%C <= Cmod (S - s)%C + Cmod (T n - t n)%C) by (replace ((S + T n) - (s + t n))%C with ((S - s) + (T n - t n))%C by ring; apply Cmod_triangle).
    assert (V := Cmod_via (s + t n)%C (S + T n)%C). assert (Tr := Cmod_triangle s (t n)). rewrite S_INR. cbn [pow].
    assert (P1 : 1 <= (1 + u) ^ n) by (apply pow_R1_Rle; lra). set (p := (1 + u) ^ n) in *. clearbody p.
    set (x := Cmod ((S + T n) - (s + t n))%C) in *. assert (X : x <= ((1 + 10 * u) * p - 1) * (rsum n g + g n) + (10 * INR n * p + 8) * eta).
    { assert (10 * u * g n <= ((1 + 10 * u) * p - 1) * g n) by (apply Rmult_le_compat_r; [exact G|]; nra). lra. }
    assert (M : Cmod (S + T n)%C <= rsum n g + g n + x) by lra. assert (u * Cmod (S + T n)%C <= u * (rsum n g + g n + x)) by (apply Rmult_le_compat_l; lra).
    assert ((1 + u) * x <= (1 + u) * (((1 + 10 * u) * p - 1) * (rsum n g + g n) + (10 * INR n * p + 8) * eta)) by (apply Rmult_le_compat_l; lra).
    assert (8 * (1 + u) * eta + 2 * eta <= 10 * ((1 + u) * p) * eta). { assert (1 + u <= (1 + u) * p) by nra. nra. }
    apply Rle_trans with ((1 + u) * x + u * (rsum n g + g n) + 2 * eta); [lra|]. lra.
Qed.
Lemma sum_norm1 r f : rsum r (fun j => Cmod (f j)) <= sqrt (INR r) * norm1 r f.
Proof.
  assert (P : 0 <= rsum r (fun j => Cmod (f j))) by (apply rsum_ge_0; intros; apply Cmod_ge_0). rewrite norm1_eq, <- sqrt_mult; [|apply pos_INR|apply rsum_ge_0; intros; apply pow2_ge_0].
  rewrite <- (sqrt_pow2 _ P). apply sqrt_le_1_alt. assert (Q := cauchy_schwarz 1 r (fun _ _ => 1) (fun _ j => Cmod (f j))). rewrite !rsum2_one in Q.
  rewrite (rsum_ext r (fun j => 1 * Cmod (f j)) (fun j => Cmod (f j))) in Q by (intros; ring). rewrite (rsum_ext r (fun j => 1 ^ 2) (fun _ => 1)), rsum_const, Rmult_1_r in Q by (intros; ring). exact Q.
Qed.
Lemma root_period n k : (0 < n)%nat -> root n (k mod n) = root n k.
Proof.
  intros Hn. unfold root. assert (P := INR_neq_0 n Hn). rewrite (Nat.div_mod k n) at 2 by lia. rewrite plus_INR, mult_INR.
  replace (2 * PI * ((INR n * INR (k / n) + INR (k mod n)) / INR n)) with (2 * PI * (INR (k mod n) / INR n) + 2 * PI * IZR (Z.of_nat (k / n))) by (rewrite <- INR_IZR_INZ; field; exact P).
  rewrite cis_plus, cis_2PI_Z. ring.
Qed.
Lemma direct_good r : (0 < r)%nat -> good_butterfly (direct_rel r) (direct_abs r) (direct a w) r.
Proof.
  intros Hr f. assert (P1 : 1 <= (1 + u) ^ r) by (apply pow_R1_Rle; lra). assert (Pr := pos_INR r). set (be := (1 + 10 * u) * (1 + u) ^ r - 1). assert (Pb : 0 <= be) by (unfold be; nra).
  set (g := fun _ : nat => RtoC (be * (sqrt (INR r) * norm1 r f) + 10 * INR r * eta * (1 + u) ^ r)).
  assert (N0 : 0 <= sqrt (INR r) * norm1 r f) by (apply Rmult_le_pos; [apply sqrt_pos|apply norm1_ge_0]).
  assert (Pg : 0 <= be * (sqrt (INR r) * norm1 r f) + 10 * INR r * eta * (1 + u) ^ r). { apply Rplus_le_le_0_compat; apply Rmult_le_pos; try assumption; try lra. apply Rmult_le_pos; [|exact He]. lra. }
  apply Rle_trans with (norm1 r g).
  - unfold norm1. apply norm_mod; [|intros _ _; exact Pg]. intros _ k _ _. unfold direct, dft. destruct (csum_near (fun j => fl_cmul a (f j) (w r ((j * k) mod r)%nat)) (fun j => f j * root r (j * k))%C (fun j => Cmod (f j)) r) as [Q _].
    { intros j _. split; [rewrite Cmod_mult, root_mod; lra|]. rewrite <- (root_period r (j * k)) by exact Hr. apply (twiddle_near a u eta B H Hu He w W). apply Nat.mod_upper_bound. lia. }
    eapply Rle_trans; [exact Q|]. apply Rplus_le_compat_r. apply Rmult_le_compat_l; [exact Pb|apply sum_norm1].
  - unfold g, norm1 at 1. rewrite norm_const by exact Pg. replace (1 * r)%nat with r by lia. unfold FftSpec.direct_rel, FftSpec.direct_abs. fold be. right. ring.
Qed.
End Direct.

(** ** Numbers *)
Lemma pow_bound u r : 0 <= u -> INR r * u <= 1 / 8 -> (1 + u) ^ r <= 1 + 2 * (INR r * u).
Proof.
  intros Hu. induction r as [|r IH]; intros Hr; [cbn [pow INR]; lra|]. rewrite S_INR in *. cbn [pow]. assert (P := pos_INR r). assert (INR r * u <= 1 / 8) by nra. specialize (IH ltac:(assumption)).
  assert ((1 + u) * (1 + u) ^ r <= (1 + u) * (1 + 2 * (INR r * u))) by (apply Rmult_le_compat_l; lra). assert (u * (INR r * u) <= u * (1 / 8)) by (apply Rmult_le_compat_l; lra). lra.
Qed.
Lemma sqrt_le_self r : (1 <= r)%nat -> 0 <= sqrt (INR r) <= INR r.
Proof. intros Hr. assert (1 <= INR r) by (change 1 with (INR 1); apply le_INR, Hr). split; [apply sqrt_pos|]. rewrite <- (sqrt_pow2 (INR r)) at 2 by lra. apply sqrt_le_1_alt. nra. Qed.
Lemma direct_rel_bound u r : 0 <= u -> (2 <= r)%nat -> INR r * u <= / 2 ^ 20 -> 0 <= direct_rel u r /\ (1 + 10 * u) * (1 + direct_rel u r) <= 1 + 16 * u * INR r ^ 2.
Proof.
  intros Hu Hr Hs. assert (R2 : 2 <= INR r) by (change 2 with (INR 2); apply le_INR, Hr). assert (S2 : / 2 ^ 20 <= 1 / 1000000) by lra.
  assert (P := pow_bound u r Hu ltac:(lra)). assert (P1 : 1 <= (1 + u) ^ r) by (apply pow_R1_Rle; lra). unfold direct_rel. set (s := sqrt (INR r)). assert (Sp : 0 <= s) by apply sqrt_pos. assert (Ss : s * s = INR r) by (apply sqrt_sqrt; lra).
  assert (S3 : s <= 3 / 4 * INR r). { assert (1.4 <= s) by (apply Rsqr_incr_0_var; [unfold Rsqr; lra|exact Sp]). nra. }
  set (p := (1 + u) ^ r) in *. clearbody p. clearbody s. set (x := INR r) in *. clearbody x. assert (U6 : u <= 1 / 1000000) by nra.
  assert (B1 : (1 + 10 * u) * p - 1 <= 10 * u + 2.001 * (x * u)) by (assert (10 * u * p <= 10 * u * (1 + 2 * (x * u))) by (apply Rmult_le_compat_l; lra); nra).
  assert (B0 : 0 <= (1 + 10 * u) * p - 1) by nra. split; [apply Rmult_le_pos; assumption|].
  assert (B2 : s * ((1 + 10 * u) * p - 1) <= s * (10 * u + 2.001 * (x * u))) by (apply Rmult_le_compat_l; assumption). 
  assert (B3 : s * (10 * u + 2.001 * (x * u)) <= 7.5 * (u * x) + 1.51 * (u * x ^ 2)) by (assert (0 <= u * x) by nra; nra).
  assert (B4 : s * ((1 + 10 * u) * p - 1) <= 5.3 * (u * x ^ 2)) by (assert (0 <= u * x) by nra; nra).
  assert (B5 : u * x ^ 2 <= x * / 1000000) by nra. assert (B6 : 10 * u <= 2.5 * (u * x ^ 2)) by nra. assert (B7 : 0 <= u * x ^ 2) by nra.
  assert (10 * u * (s * ((1 + 10 * u) * p - 1)) <= 10 * u * (5.3 * (u * x ^ 2))) by (apply Rmult_le_compat_l; lra). assert (u * (u * x ^ 2) <= 1 / 1000000 * (u * x ^ 2)) by (apply Rmult_le_compat_r; lra). lra.
Qed.
Lemma size_ge_1 l : Forall (fun r => 2 <= r)%nat l -> (1 <= size l)%nat.
Proof. intros H. apply size_pos. eapply Forall_impl; [|exact H]. cbv beta. intros; lia. Qed.
Lemma fft_rel_bound u l : 0 <= u -> Forall (fun r => 2 <= r)%nat l -> INR (size l) * u <= / 2 ^ 20 -> fft_rel (direct_rel u) (10 * u) l <= 16 * u * INR (size l) ^ 2.
Proof.
  intros Hu Hl. induction Hl as [|r l Hr Hl IH]; intros Hs; [cbn; nra|]. assert (S1 := size_ge_1 l Hl). change (size (r :: l)) with (r * size l)%nat in *. rewrite mult_INR in *.
  assert (R2 : 2 <= INR r) by (change 2 with (INR 2); apply le_INR, Hr). assert (M1 : 1 <= INR (size l)) by (change 1 with (INR 1); apply le_INR, S1).
  assert (P : 0 <= INR r * u) by nra. assert (P' : 0 <= INR (size l) * u) by nra. assert (Q1 : INR r * u <= / 2 ^ 20) by nra. assert (Q2 : INR (size l) * u <= / 2 ^ 20) by nra. specialize (IH Q2).
  destruct (direct_rel_bound u r Hu Hr Q1) as [D0 D1]. cbn [fft_rel].
  assert (F0 : 0 <= fft_rel (direct_rel u) (10 * u) l). { apply fft_rel_ge_0; [lra|]. intros q. unfold direct_rel. apply Rmult_le_pos; [apply sqrt_pos|]. assert (1 <= (1 + u) ^ q) by (apply pow_R1_Rle; lra). nra. }
  assert (G : (1 + fft_rel (direct_rel u) (10 * u) l) * (1 + 10 * u) * (1 + direct_rel u r) <= (1 + fft_rel (direct_rel u) (10 * u) l) * (1 + 16 * u * INR r ^ 2)) by (rewrite Rmult_assoc; apply Rmult_le_compat_l; lra).
  assert (S2 : / 2 ^ 20 <= 1 / 1000000) by lra. set (x := INR r) in *. assert (U : u <= 1 / 1000000) by nra.
  destruct l as [|q l'].
  - cbn [fft_rel size fold_right] in *. change (INR 1) with 1. nra.
  - assert (M2 : 2 <= INR (size (q :: l'))). { inversion Hl; subst. change (size (q :: l')) with (q * size l')%nat. assert (T := size_ge_1 l' ltac:(assumption)). change 2 with (INR 2). apply le_INR. nia. }
    set (F := fft_rel (direct_rel u) (10 * u) (q :: l')) in *. set (y := INR (size (q :: l'))) in *. clearbody F x y.
    assert (X4 : 4 <= x ^ 2) by nra. assert (Y4 : 4 <= y ^ 2) by nra. replace ((x * y) ^ 2) with (x ^ 2 * y ^ 2) by ring. set (A := x ^ 2) in *. set (C := y ^ 2) in *. clearbody A C. clear M2 M1 R2 Q1 Q2 P P' Hs D1 D0.
    assert (K : A + C <= A * C / 2) by nra. assert (0 <= u * A) by nra. assert (0 <= u * C) by nra. assert (AC : 0 <= u * (A * C)) by (apply Rmult_le_pos; nra).
    assert (V : (1 + F) * (1 + 16 * u * A) <= (1 + 16 * u * C) * (1 + 16 * u * A)) by (apply Rmult_le_compat_r; nra).
    assert (u * (u * (A * C)) <= 1 / 1000000 * (u * (A * C))) by (apply Rmult_le_compat_r; assumption). assert (u * (A + C) <= u * (A * C / 2)) by (apply Rmult_le_compat_l; assumption). nra.
Qed.
Lemma fft_abs_bound u eta l : 0 <= u -> 0 <= eta -> Forall (fun r => 2 <= r)%nat l -> INR (size l) ^ 2 * u <= / 2 ^ 20 -> fft_abs (direct_rel u) (direct_abs u eta) (10 * u) (8 * eta) l <= 18 * eta * INR (size l) ^ 4.
Proof.
  intros Hu He Hl. induction Hl as [|r l Hr Hl IH]; intros Hs; [cbn; lra|]. assert (S1 := size_ge_1 l Hl). cbn [fft_abs]. change (size (r :: l)) with (r * size l)%nat in *. set (m := size l) in *.
  assert (R2 : 2 <= INR r) by (change 2 with (INR 2); apply le_INR, Hr). assert (M1 : 1 <= INR m) by (change 1 with (INR 1); apply le_INR, S1).
  assert (Sr := sqrt_le_self r ltac:(lia)). assert (Sm := sqrt_le_self m S1). assert (Er : sqrt (INR r) * sqrt (INR r) = INR r) by (apply sqrt_sqrt; lra). rewrite sqrt_mul. rewrite mult_INR in *.
  assert (S2 : / 2 ^ 20 <= 1 / 1000000) by lra. assert (N2 : 4 <= (INR r * INR m) ^ 2) by (assert (2 <= INR r * INR m) by nra; nra). assert (U : u <= 1 / 1000000) by nra.
  assert (Q0 : INR r ^ 2 <= (INR r * INR m) ^ 2) by (apply pow_incr; nra). assert (Q0m : INR m ^ 2 <= (INR r * INR m) ^ 2) by (apply pow_incr; nra).
  assert (Q1 : INR r ^ 2 * u <= / 2 ^ 20) by nra. assert (Q2 : INR m ^ 2 * u <= / 2 ^ 20) by nra. specialize (IH Q2). assert (Q3 : INR r * u <= / 2 ^ 20) by nra.
  destruct (direct_rel_bound u r Hu Hr Q3) as [D0 D1]. assert (D2 : 1 + direct_rel u r <= 2) by nra. assert (P := pow_bound u r Hu ltac:(lra)). assert (P1 : 1 <= (1 + u) ^ r) by (apply pow_R1_Rle; lra).
  assert (A0 : 0 <= fft_abs (direct_rel u) (direct_abs u eta) (10 * u) (8 * eta) l).
  { apply fft_abs_ge_0; try lra; intros q; assert (1 <= (1 + u) ^ q) by (apply pow_R1_Rle; lra); assert (Z := pos_INR q); [unfold direct_rel|unfold direct_abs]; (apply Rmult_le_pos; [apply sqrt_pos|]); [nra|]. apply Rmult_le_pos; [|lra]. apply Rmult_le_pos; lra. }
  unfold direct_abs at 2. set (A := fft_abs (direct_rel u) (direct_abs u eta) (10 * u) (8 * eta) l) in *. set (D := 1 + direct_rel u r) in *. assert (D0' : 1 <= D) by (unfold D; lra). set (p := (1 + u) ^ r) in *. clearbody A D p.
  set (sr := sqrt (INR r)) in *. set (sm := sqrt (INR m)) in *. clearbody sr sm. set (x := INR r) in *. set (y := INR m) in *. clearbody x y.
  replace (sr * D * ((1 + 10 * u) * (sr * A) + sr * sm * (8 * eta)) + sm * (sr * (10 * x * eta * p))) with (D * ((1 + 10 * u) * (sr * sr * A) + sr * sr * sm * (8 * eta)) + sm * sr * (10 * x * eta * p)) by ring. rewrite Er.
  assert (T1 : D * ((1 + 10 * u) * (x * A) + x * sm * (8 * eta)) <= 2 * (2 * (x * A) + x * y * (8 * eta))).
  { assert (0 <= x * A) by nra. assert (0 <= x * sm * (8 * eta)) by (apply Rmult_le_pos; nra). assert (x * sm * (8 * eta) <= x * y * (8 * eta)) by (apply Rmult_le_compat_r; nra).
    apply Rmult_le_compat; [lra| |exact D2|]; nra. }
  assert (T2 : sm * sr * (10 * x * eta * p) <= y * x * (10 * x * eta * 2)).
  { assert (p <= 2) by lra. assert (0 <= 10 * x * eta) by (cbn [pow]; nra). apply Rmult_le_compat; [nra|apply Rmult_le_pos; lra|nra|apply Rmult_le_compat_l; lra]. }
  assert (Z : 18 * eta * (y ^ 4) * (4 * x) + 16 * eta * (x * y) + 20 * eta * (x ^ 2 * y) <= 18 * eta * (x * y) ^ 4).
  { assert (Y2 : 1 <= y ^ 3) by (apply pow_R1_Rle, M1). assert (Y4 : y <= y ^ 4) by (cbn [pow] in *; nra). assert (X3 : 8 <= x ^ 3) by (apply Rle_trans with (2 ^ 3); [lra|apply pow_incr; lra]).
    assert (X4 : 8 * x <= x ^ 4) by (cbn [pow] in *; nra). assert (X4' : 4 * x ^ 2 <= x ^ 4) by (cbn [pow] in *; nra). assert (X2 : 2 * x <= x ^ 2) by nra.
    assert (x ^ 2 * y <= x ^ 4 * y ^ 4 / 4). { apply Rle_trans with (x ^ 2 * y ^ 4); [apply Rmult_le_compat_l; nra|]. assert (0 <= y ^ 4) by lra. nra. }
    assert (x * y <= x ^ 2 * y / 2) by nra. assert (4 * x * y ^ 4 <= x ^ 4 * y ^ 4 / 2) by nra. replace ((x * y) ^ 4) with (x ^ 4 * y ^ 4) by ring. nra. }
  nra.
Qed.
(** ** NumPy: double precision, then a cast to single precision *)
Lemma size_INR l : (size l <= 4096)%nat -> INR (size l) <= 4096.
Proof. intros Hl. apply Rle_trans with (INR 4096); [apply le_INR, Hl|]. rewrite INR_IZR_INZ. apply IZR_le. vm_compute. discriminate. Qed.
Lemma numbers l u eta : u = / 2 ^ 53 -> 0 <= eta <= / 2 ^ 300 -> Forall (fun r => 2 <= r)%nat l -> (size l <= 4096)%nat ->
  0 <= axis_rel u (direct_rel u) l <= / 2 ^ 24 /\ 0 <= axis_abs u eta (direct_rel u) (direct_abs u eta) l <= / 2 ^ 155.
Proof.
  intros Eu He Hl Hs. assert (Hu : 0 <= u <= / 2 ^ 53) by (rewrite Eu; lra). clear Eu. apply size_INR in Hs. assert (S1 := size_ge_1 l Hl). assert (M1 : 1 <= INR (size l)) by (change 1 with (INR 1); apply le_INR, S1).
  set (n := INR (size l)) in *. assert (N2 : n ^ 2 <= 4096 ^ 2) by (apply pow_incr; lra). assert (B2 : n ^ 2 * u <= 4096 ^ 2 * / 2 ^ 53) by (apply Rmult_le_compat; nra). assert (B1 : n * u <= 4096 * / 2 ^ 53) by (apply Rmult_le_compat; lra).
  assert (F := fft_rel_bound u l (proj1 Hu) Hl ltac:(fold n; lra)). assert (A := fft_abs_bound u eta l (proj1 Hu) (proj1 He) Hl ltac:(fold n; lra)). fold n in F, A.
  assert (Db : forall q, 0 <= direct_rel u q). { intros q. assert (1 <= (1 + u) ^ q) by (apply pow_R1_Rle; lra). unfold direct_rel. apply Rmult_le_pos; [apply sqrt_pos|nra]. }
  assert (Dd : forall q, 0 <= direct_abs u eta q). { intros q. assert (1 <= (1 + u) ^ q) by (apply pow_R1_Rle; lra). assert (Z := pos_INR q). unfold direct_abs. apply Rmult_le_pos; [apply sqrt_pos|]. apply Rmult_le_pos; [|lra]. apply Rmult_le_pos; lra. }
  split.
  - split; [apply axis_rel_ge_0; [lra|exact Db]|]. unfold axis_rel. assert (F0 := fft_rel_ge_0 (direct_rel u) (10 * u) l ltac:(lra) Db). set (x := fft_rel (direct_rel u) (10 * u) l) in *. assert (X : x <= 16 * (4096 ^ 2 * / 2 ^ 53)) by lra. nra.
  - split; [apply axis_abs_ge_0; try assumption; try lra|]. unfold axis_abs. fold n. assert (A0 := fft_abs_ge_0 (direct_rel u) (direct_abs u eta) (10 * u) (8 * eta) l ltac:(lra) ltac:(lra) Db Dd). set (x := fft_abs (direct_rel u) (direct_abs u eta) (10 * u) (8 * eta) l) in *. clearbody x.
    assert (N4 : n ^ 4 <= 4096 ^ 4) by (apply pow_incr; lra). assert (X : x <= 18 * / 2 ^ 300 * 4096 ^ 4). { eapply Rle_trans; [exact A|]. apply Rmult_le_compat; [lra|apply pow_le; lra|lra|exact N4]. }
    assert (Y : (1 + 4 * u) * x / n <= 2 * (18 * / 2 ^ 300 * 4096 ^ 4)). { apply Rle_trans with ((1 + 4 * u) * x * 1); [|nra]. unfold Rdiv. apply Rmult_le_compat_l; [apply Rmult_le_pos; lra|]. rewrite <- Rinv_1. apply Rinv_le_contravar; lra. }
    destruct (sqrt_le_self (size l) S1) as [Q1 Q2]. fold n in Q1, Q2. assert (Z : sqrt n * (2 * eta) <= 4096 * (2 * / 2 ^ 300)) by (apply Rmult_le_compat; lra). lra.
Qed.
Lemma inv_le j k : (j <= k)%nat -> 0 < / 2 ^ k <= / 2 ^ j.
Proof. intros Hjk. split; [apply Rinv_0_lt_compat, pow_lt; lra|]. apply Rinv_le_contravar; [apply pow_lt; lra|]. apply Rle_pow; [lra|exact Hjk]. Qed.
Theorem numpy_single w ly lx : good_table (2 * / 2 ^ 53) w -> Forall (fun r => 2 <= r)%nat (ly ++ lx) -> (size ly <= 4096)%nat -> (size lx <= 4096)%nat ->
  accurate single (/ 2 ^ 20) (/ 2 ^ 120) (size ly) (size lx) (numpy_ifft2 single double w (direct double w) ly lx).
Proof.
  intros W Hl Sy Sx f _. assert (U : 0 <= / 2 ^ 53 <= 1 / 8) by lra. assert (E := inv_le 300 1075 ltac:(lia)). set (u := / 2 ^ 53) in *. assert (EQ : u = / 2 ^ 53) by reflexivity. clearbody u. set (eta := / 2 ^ 1075) in *. assert (AR : arithmetic u eta (2 ^ 53) (rnd double)) by (rewrite EQ; exact binary64_arithmetic). clearbody eta.
  assert (HE : 0 <= eta) by lra. assert (Hl' := Hl). apply Forall_app in Hl'. destruct Hl' as [Hly Hlx].
  destruct (numbers ly u eta EQ ltac:(lra) Hly Sy) as [Ry Ay]. destruct (numbers lx u eta EQ ltac:(lra) Hlx Sx) as [Rx Ax].
  assert (Y1 := size_ge_1 ly Hly). assert (X1 := size_ge_1 lx Hlx). assert (Yn := size_INR ly Sy). assert (Xn := size_INR lx Sx). assert (Yp := pos_INR (size ly)). assert (Xp := pos_INR (size lx)).
  assert (Q := ifft2_near double u eta (2 ^ 53) AR U HE w W (direct double w) (direct_rel u) (direct_abs u eta)).
  specialize (Q ltac:(intros q; assert (1 <= (1 + u) ^ q) by (apply pow_R1_Rle; lra); unfold direct_rel; apply Rmult_le_pos; [apply sqrt_pos|nra])).
  specialize (Q ltac:(intros q; assert (1 <= (1 + u) ^ q) by (apply pow_R1_Rle; lra); assert (Z := pos_INR q); unfold direct_abs; apply Rmult_le_pos; [apply sqrt_pos|]; apply Rmult_le_pos; [|lra]; apply Rmult_le_pos; lra)).
  specialize (Q ly lx f). assert (G : Forall (fun r => (0 < r)%nat /\ good_butterfly (direct_rel u r) (direct_abs u eta r) (direct double w) r) (ly ++ lx)).
  { eapply Forall_impl; [|exact Hl]. cbv beta. intros r Hr. split; [lia|]. apply (direct_good double u eta (2 ^ 53)); try assumption. lia. }
  specialize (Q G). cbv zeta in Q. rewrite mult_INR in Q. assert (NN : INR (size ly) * INR (size lx) <= 4096 * 4096) by (apply Rmult_le_compat; assumption).
  specialize (Q ltac:(apply Rle_trans with (/ 2 ^ 300 * (4096 * 4096)); [apply Rmult_le_compat; [exact HE|apply Rmult_le_pos; assumption|lra|exact NN]|rewrite EQ; lra])).
  apply (cast_near single double (/ 2 ^ 24) (/ 2 ^ 150) (2 ^ 24) w (direct double w) ly lx f _ _ binary32_arithmetic ltac:(lra) ltac:(left; apply (inv_le 150 150); reflexivity)) in Q. eapply Rle_trans; [exact Q|].
  destruct (sqrt_le_self (size lx) X1) as [Q1 Q2]. destruct (sqrt_le_self (size ly) Y1) as [Q3 Q4].
  set (ry := axis_rel u (direct_rel u) ly) in *. set (rx := axis_rel u (direct_rel u) lx) in *. set (ay := axis_abs u eta (direct_rel u) (direct_abs u eta) ly) in *. set (ax := axis_abs u eta (direct_rel u) (direct_abs u eta) lx) in *. clearbody ry rx ay ax.
  apply Rplus_le_compat.
  - apply Rmult_le_compat_r; [apply norm_ge_0|]. assert ((1 + ry) * (1 + rx) <= (1 + / 2 ^ 24) * (1 + / 2 ^ 24)) by (apply Rmult_le_compat; lra). lra.
  - rewrite sqrt_mul. assert ((1 + ry) * ax <= 2 * / 2 ^ 155) by (apply Rmult_le_compat; lra). assert (sqrt (INR (size lx)) * ay <= 4096 * / 2 ^ 155) by (apply Rmult_le_compat; lra).
    assert (sqrt (INR (size ly)) * sqrt (INR (size lx)) <= 4096 * 4096) by (apply Rmult_le_compat; lra). assert (E5 := inv_le 150 150 ltac:(lia)). set (e5 := / 2 ^ 150) in *. assert (EE : e5 = / 2 ^ 150) by reflexivity. 
    assert (sqrt (INR (size ly)) * sqrt (INR (size lx)) * (2 * e5) <= 4096 * 4096 * (2 * e5)) by (apply Rmult_le_compat_r; lra). clearbody e5. lra.
Qed.

(** ** Exact arithmetic *)
Lemma norm_0 ny nx f : norm ny nx f <= 0 -> forall i j, (i < ny)%nat -> (j < nx)%nat -> f i j = RtoC 0.
Proof.
  intros Q i j Hi Hj. assert (Z : norm ny nx f = 0) by (apply Rle_antisym; [exact Q|apply norm_ge_0]). unfold norm in Z. apply sqrt_eq_0 in Z; [|apply sumsq_ge_0].
  apply rsum2_eq_0 with (i := i) (j := j) in Z; try assumption; [|intros; apply pow2_ge_0]. apply Cmod_eq_0. assert (G := Cmod_ge_0 (f i j)). nra.
Qed.
Lemma exact_arithmetic : arithmetic 0 0 1 (rnd exact).
Proof. constructor; cbn [rnd exact]; intros; try reflexivity; try assumption. rewrite Rminus_diag_eq, Rabs_R0 by reflexivity. lra. Qed.
Lemma zero_rel l : fft_rel (fun _ => 0) (10 * 0) l = 0.
Proof. induction l as [|r l IH]; cbn [fft_rel]; [reflexivity|]. rewrite IH. ring. Qed.
Lemma zero_abs l : fft_abs (fun _ => 0) (fun _ => 0) (10 * 0) (8 * 0) l = 0.
Proof. induction l as [|r l IH]; cbn [fft_abs]; [reflexivity|]. rewrite IH. ring. Qed.
Lemma exact_fft w b ly lx f i j : (forall n k, (k < n)%nat -> w n k = root n k) -> (forall r f k, (k < r)%nat -> b r f k = dft r f k) -> Forall (fun r => 0 < r)%nat (ly ++ lx) ->
  (i < size ly)%nat -> (j < size lx)%nat -> fl_ifft2 exact w b ly lx f i j = ifft2 (size ly) (size lx) f i j.
Proof.
  intros W Hb Hl Hi Hj. assert (Q := ifft2_near exact 0 0 1 exact_arithmetic ltac:(lra) ltac:(lra) w). 
  specialize (Q ltac:(intros n k Hk; rewrite W by exact Hk; replace (root n k - root n k)%C with (RtoC 0) by ring; rewrite Cmod_0; lra) b (fun _ => 0) (fun _ => 0) ltac:(intros; lra) ltac:(intros; lra) ly lx f).
  assert (G : Forall (fun r => (0 < r)%nat /\ good_butterfly 0 0 b r) (ly ++ lx)).
  { eapply Forall_impl; [|exact Hl]. cbv beta. intros r Hr. split; [exact Hr|]. intros g. rewrite (norm1_ext r _ (fun _ => RtoC 0)) by (intros k Hk; rewrite Hb by exact Hk; ring).
    unfold norm1 at 1. rewrite norm_const by lra. lra. }
  specialize (Q G ltac:(lra)). unfold axis_rel, axis_abs in Q. rewrite !zero_rel, !zero_abs in Q.
  assert (Z := norm_0 (size ly) (size lx) (fun i j => fl_ifft2 exact w b ly lx f i j - ifft2 (size ly) (size lx) f i j)%C ltac:(eapply Rle_trans; [exact Q|]; right; unfold Rdiv; ring) i j Hi Hj). cbv beta in Z.
  replace (fl_ifft2 exact w b ly lx f i j) with ((fl_ifft2 exact w b ly lx f i j - ifft2 (size ly) (size lx) f i j) + ifft2 (size ly) (size lx) f i j)%C by ring. rewrite Z. ring.
Qed.
Lemma exact_direct r f k : (k < r)%nat -> direct exact root r f k = dft r f k.
Proof.
  intros Hk. unfold direct, dft. assert (E : forall g n, fl_csum exact n g = csum n g).
  { intros g n. induction n as [|n IH]; [reflexivity|]. cbn [fl_csum csum]. rewrite IH. reflexivity. }
  rewrite E. apply csum_ext. intros j _. rewrite root_period by lia. unfold fl_cmul, Cmult. cbn [rnd exact]. f_equal. 
Qed.
Lemma rounded_table_good : good_table (2 * / 2 ^ 53) (rounded_table binary64).
Proof.
  intros n k _. unfold rounded_table. eapply Rle_trans; [apply (cround double (/ 2 ^ 53) (/ 2 ^ 1075) (2 ^ 53) binary64_arithmetic); [lra|left; apply (inv_le 1075 1075); reflexivity]|]. rewrite root_mod.
  assert (E := inv_le 300 1075 ltac:(lia)). set (eta := / 2 ^ 1075) in *. clearbody eta. lra.
Qed.
