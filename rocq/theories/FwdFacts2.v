(** NumPy's forward transform as the hologram calculation uses it. *)
From Coq Require Import Reals Lra Psatz ZArith Arith List Lia FunctionalExtensionality.
From Coquelicot Require Import Complex.
From Verif Require Import Cx Sums DFT FloatModel FloatSpec FlSimSpec FloatFacts NormFacts FlSimFacts FftModel FftSpec FftFacts FftFacts2 FftFacts3 FwdModel FwdSpec FwdFacts FlHoloSpec.
Open Scope R_scope.

Lemma table_unconj t w : good_table t (conj_table w) -> good_forward_table t w.
Proof. intros W n k Hk. specialize (W n k Hk). unfold conj_table in W. rewrite <- Cmod_cconj, cconj_minus, cconj_cconj. exact W. Qed.
Lemma cconj_plus (x y : C) : cconj (x + y)%C = (cconj x + cconj y)%C.
Proof. unfold cconj, Cplus. cbn [fst snd]. f_equal. ring. Qed.
Lemma fl_csum_conj a u eta B n g : arithmetic u eta B (rnd a) -> fl_csum a n g = cconj (fl_csum a n (fun j => cconj (g j))).
Proof.
  intros H. induction n as [|n IH]; cbn [fl_csum]; [unfold cconj, RtoC; cbn [fst snd]; f_equal; ring|].
  rewrite IH. set (x := fl_csum a n _). unfold fl_cadd, cconj. cbn [fst snd]. f_equal. rewrite <- (ar_odd _ _ _ _ H). f_equal. ring.
Qed.
Lemma direct_conj a u eta B w r f k : arithmetic u eta B (rnd a) -> direct a w r f k = cconj (direct a (conj_table w) r (fun j => cconj (f j)) k).
Proof.
  intros H. unfold direct. rewrite (fl_csum_conj a u eta B) by exact H. f_equal. f_equal. apply functional_extensionality. intros j. symmetry. apply (cmul_conj a u eta B H).
Qed.
Lemma direct_forward a u eta B w r : arithmetic u eta B (rnd a) -> 0 <= u <= 1 / 8 -> 0 <= eta -> good_forward_table (2 * u) w -> (0 < r)%nat ->
  good_forward_butterfly (direct_rel u r) (direct_abs u eta r) (direct a w) r.
Proof.
  intros H Hu He W Hr f. assert (G := direct_good a u eta B (conj_table w) H Hu He (table_conj _ _ W) r Hr (fun j => cconj (f j))). rewrite norm1_conj in G. eapply Rle_trans; [|exact G]. right.
  rewrite <- norm1_conj. apply norm1_ext. intros k _. rewrite (direct_conj a u eta B w r f k H). unfold dft. rewrite cconj_minus, cconj_cconj, csum_conj. f_equal. f_equal. apply functional_extensionality. intros j. rewrite cconj_mult, cconj_cconj. reflexivity.
Qed.
Theorem numpy_forward w ly lx : good_forward_table (2 * / 2 ^ 53) w -> Forall (fun r => 2 <= r)%nat (ly ++ lx) -> (size ly <= 4096)%nat -> (size lx <= 4096)%nat ->
  accurate_forward single (/ 2 ^ 22) (/ 2 ^ 120) (size ly) (size lx) (numpy_fft2 single double w (direct double w) ly lx).
Proof.
  intros W Hl Sy Sx f _. assert (U : 0 <= / 2 ^ 53 <= 1 / 8) by lra. assert (E := inv_le 300 1075 ltac:(lia)). set (u := / 2 ^ 53) in *. assert (EQ : u = / 2 ^ 53) by reflexivity. clearbody u. set (eta := / 2 ^ 1075) in *. assert (AR : arithmetic u eta (2 ^ 53) (rnd double)) by (rewrite EQ; exact binary64_arithmetic). clearbody eta.
  assert (HE : 0 <= eta) by lra. assert (Hl' := Hl). apply Forall_app in Hl'. destruct Hl' as [Hly Hlx].
  assert (Y1 := size_ge_1 ly Hly). assert (X1 := size_ge_1 lx Hlx). assert (Yn := size_INR ly Sy). assert (Xn := size_INR lx Sx). assert (Yp := pos_INR (size ly)). assert (Xp := pos_INR (size lx)).
  assert (Db : forall q, 0 <= direct_rel u q). { intros q. assert (1 <= (1 + u) ^ q) by (apply pow_R1_Rle; lra). unfold direct_rel. apply Rmult_le_pos; [apply sqrt_pos|nra]. }
  assert (Dd : forall q, 0 <= direct_abs u eta q). { intros q. assert (1 <= (1 + u) ^ q) by (apply pow_R1_Rle; lra). assert (Z := pos_INR q). unfold direct_abs. apply Rmult_le_pos; [apply sqrt_pos|]. apply Rmult_le_pos; [|lra]. apply Rmult_le_pos; lra. }
  assert (NB : forall l, Forall (fun r => 2 <= r)%nat l -> (size l <= 4096)%nat -> 0 <= fft_rel (direct_rel u) (10 * u) l <= / 2 ^ 25 /\ 0 <= fft_abs (direct_rel u) (direct_abs u eta) (10 * u) (8 * eta) l <= / 2 ^ 200).
  { intros l HL HS. apply size_INR in HS. assert (S1 := size_ge_1 l HL). assert (M1 : 1 <= INR (size l)) by (change 1 with (INR 1); apply le_INR, S1). set (n := INR (size l)) in *.
    assert (N2 : n ^ 2 <= 4096 ^ 2) by (apply pow_incr; lra). assert (B2 : n ^ 2 * u <= 4096 ^ 2 * / 2 ^ 53) by (apply Rmult_le_compat; nra). assert (B1 : n * u <= 4096 * / 2 ^ 53) by (apply Rmult_le_compat; lra).
    assert (F := fft_rel_bound u l (proj1 U) HL ltac:(fold n; lra)). assert (A := fft_abs_bound u eta l (proj1 U) HE HL ltac:(fold n; lra)). fold n in F, A.
    split; (split; [first [apply fft_rel_ge_0; [lra|exact Db]|apply fft_abs_ge_0; try assumption; lra]|]); [lra|].
    assert (N4 : n ^ 4 <= 4096 ^ 4) by (apply pow_incr; lra). eapply Rle_trans; [exact A|]. apply Rle_trans with (18 * / 2 ^ 300 * 4096 ^ 4); [|lra]. apply Rmult_le_compat; [lra|apply pow_le; lra|lra|exact N4]. }
  destruct (NB ly Hly Sy) as [Ry Ay]. destruct (NB lx Hlx Sx) as [Rx Ax].
  assert (Q := forward_near double u eta (2 ^ 53) w (direct double w) (direct_rel u) (direct_abs u eta) ly lx f AR U HE ltac:(rewrite EQ in *; exact W) Db Dd).
  specialize (Q ltac:(eapply Forall_impl; [|exact Hl]; cbv beta; intros r Hr; split; [lia|]; apply (direct_forward double u eta (2 ^ 53) w r AR U HE ltac:(rewrite EQ in *; exact W)); lia)). cbv zeta in Q.
  destruct (sqrt_le_self (size lx) X1) as [Q1 Q2]. destruct (sqrt_le_self (size ly) Y1) as [Q3 Q4].
  set (ry := fft_rel (direct_rel u) (10 * u) ly) in *. set (rx := fft_rel (direct_rel u) (10 * u) lx) in *. set (ay := fft_abs (direct_rel u) (direct_abs u eta) (10 * u) (8 * eta) ly) in *. set (ax := fft_abs (direct_rel u) (direct_abs u eta) (10 * u) (8 * eta) lx) in *. clearbody ry rx ay ax.
  set (z := fl_fft2 double w (direct double w) ly lx f) in *. set (I := fft2 (size ly) (size lx) f) in *.
  assert (Q' : norm (size ly) (size lx) (fun i j => z i j - I i j)%C <= / 2 ^ 23 * norm (size ly) (size lx) I + / 2 ^ 180).
  { eapply Rle_trans; [exact Q|]. apply Rplus_le_compat.
    - apply Rmult_le_compat_r; [apply norm_ge_0|]. assert ((1 + ry) * (1 + rx) <= (1 + / 2 ^ 25) * (1 + / 2 ^ 25)) by (apply Rmult_le_compat; lra). lra.
    - assert (INR (size ly) * ax <= 4096 * / 2 ^ 200) by (apply Rmult_le_compat; lra). assert (0 <= INR (size ly) * ax) by (apply Rmult_le_pos; lra). assert ((1 + ry) * (INR (size ly) * ax) <= 2 * (4096 * / 2 ^ 200)) by (apply Rmult_le_compat; lra).
      assert (sqrt (INR (size lx)) * ay <= 4096 * / 2 ^ 200) by (apply Rmult_le_compat; lra). lra. }
  assert (E5 := inv_le 150 150 ltac:(lia)). set (e5 := / 2 ^ 150) in *. assert (EE : e5 = / 2 ^ 150) by reflexivity.
  assert (AS : arithmetic (/ 2 ^ 24) e5 (2 ^ 24) (rnd single)) by (rewrite EE; exact binary32_arithmetic). 
  assert (P : norm (size ly) (size lx) (fun i j => numpy_fft2 single double w (direct double w) ly lx f i j - I i j)%C <= (1 + / 2 ^ 24) * norm (size ly) (size lx) (fun i j => z i j - I i j)%C + / 2 ^ 24 * norm (size ly) (size lx) I + sqrt (INR (size ly * size lx)) * (2 * e5)).
  { apply pointwise; try lra. intros i j _ _. eapply Rle_trans; [apply (Cmod_sub_via _ (z i j))|]. assert (R := cround single (/ 2 ^ 24) e5 (2 ^ 24) AS ltac:(lra) ltac:(lra) (z i j)). unfold numpy_fft2. cbv zeta. fold z.
    assert (V := Cmod_via (I i j) (z i j)). assert (/ 2 ^ 24 * Cmod (z i j) <= / 2 ^ 24 * (Cmod (I i j) + Cmod (z i j - I i j)%C)) by (apply Rmult_le_compat_l; lra). lra. }
  eapply Rle_trans; [exact P|]. rewrite sqrt_mul.
  assert (sqrt (INR (size ly)) * sqrt (INR (size lx)) <= 4096 * 4096) by (apply Rmult_le_compat; lra).
  assert (sqrt (INR (size ly)) * sqrt (INR (size lx)) * (2 * e5) <= 4096 * 4096 * (2 * e5)) by (apply Rmult_le_compat_r; lra).
  assert (N0 := norm_ge_0 (size ly) (size lx) I). set (nI := norm (size ly) (size lx) I) in *. set (nz := norm (size ly) (size lx) (fun i j => z i j - I i j)%C) in *. clearbody nI nz.
  assert ((1 + / 2 ^ 24) * nz <= (1 + / 2 ^ 24) * (/ 2 ^ 23 * nI + / 2 ^ 180)) by (apply Rmult_le_compat_l; lra). clearbody e5. lra.
Qed.
Lemma rounded_forward_good : good_forward_table (2 * / 2 ^ 53) (rounded_forward_table binary64).
Proof.
  intros n k Hk. assert (G := rounded_table_good n k Hk). unfold rounded_forward_table. unfold rounded_table in G.
  assert (O : binary64 (- snd (root n k)) = - binary64 (snd (root n k))) by apply (ar_odd _ _ _ _ binary64_arithmetic). rewrite O.
  rewrite <- Cmod_cconj, cconj_minus, cconj_cconj. unfold cconj. cbn [fst snd]. rewrite Ropp_involutive. exact G.
Qed.
