(** Error of a forward FFT. *)
From Coq Require Import Reals Lra Psatz ZArith Arith List Lia FunctionalExtensionality.
From Coquelicot Require Import Complex.
From Verif Require Import Cx Sums DFT FloatModel FloatSpec FlSimSpec FloatFacts NormFacts FlSimFacts FftModel FftSpec FftFacts FftFacts2 FftFacts3 FwdModel FwdSpec FlHoloSpec.
Open Scope R_scope.

Lemma cconj_minus (x y : C) : cconj (x - y)%C = (cconj x - cconj y)%C.
Proof. unfold cconj, Cminus, Cplus, Copp. cbn [fst snd]. f_equal. ring. Qed.
Lemma norm_conj ny nx f : norm ny nx (fun i j => cconj (f i j)) = norm ny nx f.
Proof. unfold norm. f_equal. apply rsum2_ext. intros. rewrite Cmod_cconj. reflexivity. Qed.
Lemma norm1_conj n f : norm1 n (fun i => cconj (f i)) = norm1 n f.
Proof. exact (norm_conj 1 n (fun _ => f)). Qed.

(** ** Without the factor 1/n, in the direction of FftFacts2 *)
Definition dft2 (ny nx : nat) (f : nat -> nat -> C) (i j : nat) : C := dft ny (fun u => dft nx (f u) j) i.
Lemma rows_norm ny nx f : norm ny nx (fun u j => dft nx (f u) j) = sqrt (INR nx) * norm ny nx f.
Proof.
  rewrite !norm_rows. rewrite (norm1_ext ny _ (fun i => RtoC (norm1 nx (f i)) * RtoC (sqrt (INR nx)))%C).
  - unfold norm1 at 1. rewrite norm_scal, Rabs_pos_eq by apply sqrt_pos. reflexivity.
  - intros i _. change (fun j => dft nx (f i) j) with (dft nx (f i)). rewrite dft_norm, <- RtoC_mult. f_equal. ring.
Qed.
Lemma dft2_norm ny nx f : norm ny nx (dft2 ny nx f) = sqrt (INR ny) * norm ny nx (fun u j => dft nx (f u) j).
Proof.
  rewrite norm_transpose. unfold dft2. rewrite (rows_norm nx ny (fun j u => dft nx (f u) j)). f_equal. symmetry. apply norm_transpose.
Qed.

Section Backward.
Variables (a : fpu) (u eta : R) (B : Z).
Hypotheses (H : arithmetic u eta B (rnd a)) (Hu : 0 <= u <= 1 / 8) (He : 0 <= eta).
Variables (w : table) (b : butterfly) (eb db : nat -> R).
Hypotheses (W : good_table (2 * u) w) (Hb : forall r, 0 <= eb r) (Hdb : forall r, 0 <= db r).
Notation rel := (fft_rel eb (10 * u)). Notation ab := (fft_abs eb db (10 * u) (8 * eta)).
Lemma back_near ly lx f : Forall (fun r => (0 < r)%nat /\ good_butterfly (eb r) (db r) b r) (ly ++ lx) -> let ny := size ly in let nx := size lx in
  norm ny nx (fun i j => fl_fft2 a w b ly lx f i j - dft2 ny nx f i j)%C <=
  ((1 + rel ly) * (1 + rel lx) - 1) * norm ny nx (dft2 ny nx f) + ((1 + rel ly) * (INR ny * ab lx) + sqrt (INR nx) * ab ly).
Proof.
  intros Hl ny nx. apply Forall_app in Hl. destruct Hl as [Hly Hlx].
  assert (Ey := fft_rel_ge_0 eb (10 * u) ly ltac:(lra) Hb). assert (Ex := fft_rel_ge_0 eb (10 * u) lx ltac:(lra) Hb).
  assert (Dy := fft_abs_ge_0 eb db (10 * u) (8 * eta) ly ltac:(lra) ltac:(lra) Hb Hdb). assert (Dx := fft_abs_ge_0 eb db (10 * u) (8 * eta) lx ltac:(lra) ltac:(lra) Hb Hdb).
  assert (Sy := sqrt_pos (INR ny)). assert (Sx := sqrt_pos (INR nx)).
  set (Yh := fun v j => fl_fft a w b lx (f v) j). set (Y := fun v j => dft nx (f v) j).
  assert (AY : norm ny nx (fun v j => Yh v j - Y v j)%C <= rel lx * norm ny nx Y + sqrt (INR ny) * ab lx).
  { unfold Y at 2. rewrite rows_norm.
    assert (Q := rowwise ny nx (fun v j => Yh v j - Y v j)%C f f (rel lx * sqrt (INR nx)) 0 (ab lx) ltac:(apply Rmult_le_pos; assumption) ltac:(lra) Dx). rewrite Rmult_0_l, Rplus_0_r, Rmult_assoc in Q. apply Q.
    intros i _. rewrite Rmult_0_l, Rplus_0_r, Rmult_assoc. exact (fft_near a u eta B H Hu He w W b eb db Hb Hdb lx Hlx (f i)). }
  assert (AX : norm ny nx (fun i j => fl_fft2 a w b ly lx f i j - dft2 ny nx f i j)%C <= (1 + rel ly) * sqrt (INR ny) * norm ny nx (fun v j => Yh v j - Y v j)%C + rel ly * sqrt (INR ny) * norm ny nx Y + sqrt (INR nx) * ab ly).
  { apply colwise; [apply Rmult_le_pos; lra|apply Rmult_le_pos; lra|exact Dy|]. intros j Hj. assert (An := fft_near a u eta B H Hu He w W b eb db Hb Hdb ly Hly (fun v => Yh v j)). fold ny in An.
    rewrite (norm1_ext ny _ (fun i => (fl_fft a w b ly (fun v => Yh v j) i - dft ny (fun v => Yh v j) i) + dft ny (fun v => Yh v j - Y v j) i)%C).
    2:{ intros i _. rewrite <- dft_minus. unfold fl_fft2, dft2, Yh, Y. ring. }
    eapply Rle_trans; [apply norm1_minkowski|]. change (fun i => dft ny (fun v => Yh v j - Y v j)%C i) with (dft ny (fun v => Yh v j - Y v j)%C). rewrite dft_norm.
    assert (V := norm1_via ny (fun v => Y v j) (fun v => Yh v j)). assert (0 <= rel ly * sqrt (INR ny)) by (apply Rmult_le_pos; assumption).
    assert (rel ly * sqrt (INR ny) * norm1 ny (fun v => Yh v j) <= rel ly * sqrt (INR ny) * (norm1 ny (fun v => Y v j) + norm1 ny (fun v => Yh v j - Y v j)%C)) by (apply Rmult_le_compat_l; assumption). lra. }
  eapply Rle_trans; [exact AX|]. rewrite dft2_norm. fold Y. set (A := norm ny nx (fun v j => Yh v j - Y v j)%C) in *. set (N := norm ny nx Y) in *.
  assert (0 <= (1 + rel ly) * sqrt (INR ny)) by (apply Rmult_le_pos; lra).
  assert ((1 + rel ly) * sqrt (INR ny) * A <= (1 + rel ly) * sqrt (INR ny) * (rel lx * N + sqrt (INR ny) * ab lx)) by (apply Rmult_le_compat_l; assumption).
  assert (SS : sqrt (INR ny) * sqrt (INR ny) = INR ny) by (apply sqrt_sqrt, pos_INR). replace (INR ny * ab lx) with (sqrt (INR ny) * sqrt (INR ny) * ab lx) by (rewrite SS; reflexivity). lra.
Qed.
End Backward.

(** ** Conjugation turns one direction into the other *)
Section Conj.
Variables (a : fpu) (u eta : R) (B : Z).
Hypothesis H : arithmetic u eta B (rnd a).
Lemma cmul_conj z t : fl_cmul a (cconj z) (cconj t) = cconj (fl_cmul a z t).
Proof.
  unfold fl_cmul, cconj. cbn [fst snd]. f_equal.
  - f_equal. f_equal. f_equal. ring.
  - rewrite <- (ar_odd _ _ _ _ H). f_equal. rewrite Ropp_plus_distr, <- !(ar_odd _ _ _ _ H). f_equal; f_equal; ring.
Qed.
Definition conj_table (w : table) : table := fun n k => cconj (w n k).
Definition conj_butterfly (b : butterfly) : butterfly := fun r f k => cconj (b r (fun j => cconj (f j)) k).
Lemma cconj_cconj z : cconj (cconj z) = z. Proof. destruct z as [x y]. unfold cconj. cbn [fst snd]. rewrite Ropp_involutive. reflexivity. Qed.
Lemma fft_conj w b l f k : fl_fft a w b l f k = cconj (fl_fft a (conj_table w) (conj_butterfly b) l (fun j => cconj (f j)) k).
Proof.
  revert f k. induction l as [|r l IH]; intros f k; cbn [fl_fft]; cbv zeta; [symmetry; apply cconj_cconj|].
  unfold conj_butterfly at 1. rewrite cconj_cconj. f_equal. apply functional_extensionality. intros p. unfold conj_table at 2.
  rewrite IH, <- cmul_conj, cconj_cconj. reflexivity.
Qed.
Lemma fft2_conj w b ly lx f i j : fl_fft2 a w b ly lx f i j = cconj (fl_fft2 a (conj_table w) (conj_butterfly b) ly lx (fun u v => cconj (f u v)) i j).
Proof.
  unfold fl_fft2. rewrite fft_conj. f_equal. f_equal. apply functional_extensionality. intros p. rewrite fft_conj, cconj_cconj. reflexivity.
Qed.
End Conj.
Lemma table_conj t w : good_forward_table t w -> good_table t (conj_table w).
Proof. intros W n k Hk. specialize (W n k Hk). unfold conj_table. rewrite <- Cmod_cconj, cconj_minus, cconj_cconj. exact W. Qed.
Lemma csum_conj n f : cconj (csum n f) = csum n (fun j => cconj (f j)).
Proof. induction n as [|n IH]; cbn [csum]; [unfold cconj, RtoC; cbn [fst snd]; f_equal; ring|]. rewrite <- IH. unfold cconj, Cplus. cbn [fst snd]. f_equal. ring. Qed.
Lemma cconj_mult (x y : C) : cconj (x * y)%C = (cconj x * cconj y)%C.
Proof. unfold cconj, Cmult. cbn [fst snd]. f_equal; ring. Qed.
Lemma butterfly_conj e d b r : good_forward_butterfly e d b r -> good_butterfly e d (conj_butterfly b) r.
Proof.
  intros G f. specialize (G (fun j => cconj (f j))). rewrite norm1_conj in G. eapply Rle_trans; [|exact G]. right.
  rewrite <- norm1_conj. apply norm1_ext. intros k _. unfold conj_butterfly, dft. rewrite cconj_minus, cconj_cconj, csum_conj. f_equal. f_equal. apply functional_extensionality. intros j. apply cconj_mult.
Qed.
Lemma fft2_dft2 ny nx f i j : (0 < ny)%nat -> (0 < nx)%nat -> fft2 ny nx f i j = cconj (dft2 ny nx (fun u v => cconj (f u v)) i j).
Proof.
  intros Hy Hx. unfold fft2, dft2, dft, csum2. rewrite csum_conj. apply csum_ext. intros v _. rewrite cconj_mult, csum_conj, <- csum_scal_r. apply csum_ext. intros p _.
  rewrite cconj_mult, cconj_cconj. unfold root. rewrite <- !cis_neg, <- Cmult_assoc, <- cis_plus. f_equal. f_equal. rewrite (Nat.mul_comm i), (Nat.mul_comm j). ring.
Qed.
(** ** The forward transform *)
Lemma forward_near a u eta B w b eb db ly lx f : arithmetic u eta B (rnd a) -> 0 <= u <= 1 / 8 -> 0 <= eta -> good_forward_table (2 * u) w ->
  (forall r, 0 <= eb r) -> (forall r, 0 <= db r) -> Forall (fun r => (0 < r)%nat /\ good_forward_butterfly (eb r) (db r) b r) (ly ++ lx) ->
  let ny := size ly in let nx := size lx in let rel := fft_rel eb (10 * u) in let ab := fft_abs eb db (10 * u) (8 * eta) in
  norm ny nx (fun i j => fl_fft2 a w b ly lx f i j - fft2 ny nx f i j)%C <=
  ((1 + rel ly) * (1 + rel lx) - 1) * norm ny nx (fft2 ny nx f) + ((1 + rel ly) * (INR ny * ab lx) + sqrt (INR nx) * ab ly).
Proof.
  intros H Hu He W Hb Hdb Hl ny nx rel ab.
  assert (Hy : (0 < ny)%nat) by (apply size_pos; apply Forall_app in Hl; eapply Forall_impl; [|exact (proj1 Hl)]; intros q [Q _]; exact Q).
  assert (Hx : (0 < nx)%nat) by (apply size_pos; apply Forall_app in Hl; eapply Forall_impl; [|exact (proj2 Hl)]; intros q [Q _]; exact Q).
  assert (Q := back_near a u eta B H Hu He (conj_table w) (conj_butterfly b) eb db (table_conj _ _ W) Hb Hdb ly lx (fun u v => cconj (f u v))). 
  specialize (Q ltac:(eapply Forall_impl; [|exact Hl]; intros r [R1 R2]; split; [exact R1|apply butterfly_conj, R2])). cbv zeta in Q. fold ny nx rel ab in Q.
  replace (norm ny nx (fun i j => fl_fft2 a w b ly lx f i j - fft2 ny nx f i j)%C) with (norm ny nx (fun i j => fl_fft2 a (conj_table w) (conj_butterfly b) ly lx (fun u v => cconj (f u v)) i j - dft2 ny nx (fun u v => cconj (f u v)) i j)%C).
  - replace (norm ny nx (fft2 ny nx f)) with (norm ny nx (dft2 ny nx (fun u v => cconj (f u v)))); [exact Q|]. rewrite <- norm_conj. apply norm_ext. intros i j _ _. symmetry. apply fft2_dft2; assumption.
  - rewrite <- norm_conj. apply norm_ext. intros i j _ _. rewrite (fft2_conj a u eta B H w b ly lx f i j), (fft2_dft2 ny nx f i j), cconj_minus by assumption. reflexivity.
Qed.
