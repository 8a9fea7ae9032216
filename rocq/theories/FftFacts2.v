(** A mixed-radix FFT is accurate (C111), continued: all stages, both axes, the cast. *)
From Coq Require Import Reals Lra Psatz ZArith Arith List Lia.
From Coquelicot Require Import Complex.
From Verif Require Import Cx Sums DFT SimFacts FloatModel FloatSpec FloatFacts FlSimModel FlSimSpec NormFacts FftModel FftSpec FftFacts.
Import ListNotations.
Open Scope R_scope.

Lemma size_pos l : Forall (fun r => 0 < r)%nat l -> (0 < size l)%nat.
Proof. induction 1; cbn [size fold_right]; [lia|]. unfold size in *. nia. Qed.
Lemma fft_rel_ge_0 eb et l : 0 <= et -> (forall r, 0 <= eb r) -> 0 <= fft_rel eb et l.
Proof. intros Ht Hb. induction l as [|r l IH]; cbn [fft_rel]; [lra|]. specialize (Hb r). assert (1 <= (1 + fft_rel eb et l) * (1 + et)) by nra. nra. Qed.
Lemma fft_abs_ge_0 eb db et dt l : 0 <= et -> 0 <= dt -> (forall r, 0 <= eb r) -> (forall r, 0 <= db r) -> 0 <= fft_abs eb db et dt l.
Proof.
  intros Ht Hd Hb Hdb. induction l as [|r l IH]; cbn [fft_abs]; [lra|]. specialize (Hb r). specialize (Hdb r).
  apply Rplus_le_le_0_compat; apply Rmult_le_pos; try apply sqrt_pos; try assumption.
  - apply Rmult_le_pos; [apply sqrt_pos|lra].
  - apply Rplus_le_le_0_compat; apply Rmult_le_pos; try lra; [apply Rmult_le_pos; [apply sqrt_pos|exact IH]|apply sqrt_pos].
Qed.
Section Fft.
Variables (a : fpu) (u eta : R) (B : Z).
Hypotheses (H : arithmetic u eta B (rnd a)) (Hu : 0 <= u <= 1 / 8) (He : 0 <= eta).
Lemma rnd_near x : Rabs (rnd a x - x) <= u * Rabs x + eta. Proof. exact (ar_error _ _ _ _ H x). Qed.
Lemma pair_bound x y c d : 0 <= c -> 0 <= d -> Rabs x <= c -> Rabs y <= d -> Cmod (x, y) <= c + d.
Proof.
  intros Hc Hd Hx Hy. unfold Cmod. cbn [fst snd]. rewrite <- (sqrt_pow2 (c + d)) by lra. apply sqrt_le_1_alt. rewrite <- (pow2_abs x), <- (pow2_abs y).
  assert (0 <= Rabs x) by apply Rabs_pos. assert (0 <= Rabs y) by apply Rabs_pos. assert (Rabs x ^ 2 <= c ^ 2) by (apply pow_incr; lra). assert (Rabs y ^ 2 <= d ^ 2) by (apply pow_incr; lra). nra.
Qed.
(** Rounding a complex number. *)
Lemma cround z : Cmod ((rnd a (fst z), rnd a (snd z)) - z)%C <= u * Cmod z + 2 * eta.
Proof.
  destruct z as [x y]. cbn [fst snd]. assert (E1 := rnd_near x). assert (E2 := rnd_near y).
  assert (Q : Cmod ((rnd a x, rnd a y) - (x, y))%C <= Cmod (u * Rabs x + eta, u * Rabs y + eta)).
  { unfold Cmod. apply sqrt_le_1_alt. unfold Cminus, Cplus, Copp. cbn [fst snd]. apply Rplus_le_compat; rewrite <- pow2_abs; apply pow_incr; (split; [apply Rabs_pos|]); assumption. }
  eapply Rle_trans; [exact Q|]. change (u * Rabs x + eta, u * Rabs y + eta) with (Cplus (u * Rabs x, u * Rabs y) (eta, eta)). eapply Rle_trans; [apply Cmod_triangle|].
  apply Rplus_le_compat.
  - right. replace (u * Rabs x, u * Rabs y) with (RtoC u * (Rabs x, Rabs y))%C by (unfold RtoC, Cmult; cbn [fst snd]; f_equal; ring).
    rewrite Cmod_mult, Cmod_R, (Rabs_pos_eq u) by lra. f_equal. unfold Cmod. cbn [fst snd]. rewrite !pow2_abs. reflexivity.
  - replace (2 * eta) with (eta + eta) by ring. apply pair_bound; try exact He; rewrite Rabs_pos_eq by exact He; lra.
Qed.
(** A product. *)
Lemma two_products p q s : Rabs s = 1 -> Rabs (rnd a (rnd a p + s * rnd a q) - (p + s * q)) <= 3 * u * (Rabs p + Rabs q) + 4 * eta.
Proof.
  intros Hs. assert (E1 := rnd_near p). assert (E2 := rnd_near q). assert (E3 := rnd_near (rnd a p + s * rnd a q)).
  assert (D : Rabs (rnd a p + s * rnd a q - (p + s * q)) <= u * (Rabs p + Rabs q) + 2 * eta).
  { replace (rnd a p + s * rnd a q - (p + s * q)) with ((rnd a p - p) + s * (rnd a q - q)) by ring. eapply Rle_trans; [apply Rabs_triang|]. rewrite Rabs_mult, Hs. lra. }
  assert (M : Rabs (rnd a p + s * rnd a q) <= Rabs p + Rabs q + (u * (Rabs p + Rabs q) + 2 * eta)).
  { replace (rnd a p + s * rnd a q) with ((p + s * q) + (rnd a p + s * rnd a q - (p + s * q))) by ring. eapply Rle_trans; [apply Rabs_triang|]. apply Rplus_le_compat; [|exact D].
    eapply Rle_trans; [apply Rabs_triang|]. rewrite Rabs_mult, Hs. lra. }
  replace (rnd a (rnd a p + s * rnd a q) - (p + s * q)) with ((rnd a (rnd a p + s * rnd a q) - (rnd a p + s * rnd a q)) + (rnd a p + s * rnd a q - (p + s * q))) by ring.
  eapply Rle_trans; [apply Rabs_triang|]. assert (P := Rabs_pos p). assert (Q := Rabs_pos q). set (t := Rabs p + Rabs q) in *. assert (0 <= t) by (unfold t; lra). clearbody t.
  assert (u * Rabs (rnd a p + s * rnd a q) <= u * (t + (u * t + 2 * eta))) by (apply Rmult_le_compat_l; lra). assert (0 <= u * t) by nra. nra.
Qed.
Lemma cross z w : Rabs (fst z * fst w) + Rabs (snd z * snd w) <= Cmod z * Cmod w /\ Rabs (fst z * snd w) + Rabs (snd z * fst w) <= Cmod z * Cmod w.
Proof.
  destruct z as [x y], w as [p q]. cbn [fst snd]. rewrite !Rabs_mult. unfold Cmod. cbn [fst snd]. rewrite <- sqrt_mult by nra.
  rewrite <- (pow2_abs x), <- (pow2_abs y), <- (pow2_abs p), <- (pow2_abs q). generalize (Rabs_pos x) (Rabs_pos y) (Rabs_pos p) (Rabs_pos q). generalize (Rabs x) (Rabs y) (Rabs p) (Rabs q). intros x' y' p' q' X Y P Q.
  split; (match goal with |- ?l <= _ => rewrite <- (sqrt_pow2 l) by nra end); apply sqrt_le_1_alt.
  - assert (0 <= (x' * q' - y' * p') ^ 2) by apply pow2_ge_0. nra.
  - assert (0 <= (x' * p' - y' * q') ^ 2) by apply pow2_ge_0. nra.
Qed.
Lemma cmul_near z w : Cmod (fl_cmul a z w - z * w)%C <= 6 * u * (Cmod z * Cmod w) + 8 * eta.
Proof.
  destruct (cross z w) as [X1 X2]. assert (G1 := two_products (fst z * fst w) (snd z * snd w) (-1) ltac:(rewrite Rabs_left; lra)). assert (G2 := two_products (fst z * snd w) (snd z * fst w) 1 ltac:(apply Rabs_R1)).
  assert (P : 0 <= Cmod z * Cmod w) by (apply Rmult_le_pos; apply Cmod_ge_0).
  replace (fl_cmul a z w - z * w)%C with ((rnd a (rnd a (fst z * fst w) + -1 * rnd a (snd z * snd w)) - (fst z * fst w + -1 * (snd z * snd w)), rnd a (rnd a (fst z * snd w) + 1 * rnd a (snd z * fst w)) - (fst z * snd w + 1 * (snd z * fst w))) : C).
  2:{ unfold fl_cmul, Cminus, Cplus, Copp, Cmult. cbn [fst snd]. f_equal; [|rewrite !Rmult_1_l; ring].
      replace (rnd a (fst z * fst w) + -1 * rnd a (snd z * snd w)) with (rnd a (fst z * fst w) - rnd a (snd z * snd w)) by ring. ring. }
  assert (V : forall t, 0 <= t <= Cmod z * Cmod w -> 3 * u * t <= 3 * u * (Cmod z * Cmod w)) by (intros; apply Rmult_le_compat_l; lra).
  assert (V1 := V _ (conj (Rplus_le_le_0_compat _ _ (Rabs_pos _) (Rabs_pos _)) X1)). assert (V2 := V _ (conj (Rplus_le_le_0_compat _ _ (Rabs_pos _) (Rabs_pos _)) X2)).
  eapply Rle_trans; [apply (pair_bound _ _ (3 * u * (Cmod z * Cmod w) + 4 * eta) (3 * u * (Cmod z * Cmod w) + 4 * eta)); try nra|]; lra.
Qed.
Variables (w : table).
Hypothesis (W : good_table (2 * u) w).
Lemma table_mod n k : (k < n)%nat -> Cmod (w n k) <= 5 / 4.
Proof. intros Hk. eapply Rle_trans; [apply (Cmod_via (root n k))|]. rewrite root_mod. assert (Q := W n k Hk). lra. Qed.
Lemma twiddle_near z n k : (k < n)%nat -> Cmod (fl_cmul a z (w n k) - z * root n k)%C <= 10 * u * Cmod z + 8 * eta.
Proof.
  intros Hk. eapply Rle_trans; [apply (Cmod_sub_via _ (z * w n k)%C)|]. replace (z * w n k - z * root n k)%C with (z * (w n k - root n k))%C by ring. rewrite (Cmod_mult z (w n k - root n k)%C).
  assert (Q := cmul_near z (w n k)). assert (T := table_mod n k Hk). assert (V := W n k Hk). assert (P := Cmod_ge_0 z).
  assert (Cmod z * Cmod (w n k - root n k)%C <= Cmod z * (2 * u)) by (apply Rmult_le_compat_l; assumption).
  assert (Cmod z * Cmod (w n k) <= Cmod z * (5 / 4)) by (apply Rmult_le_compat_l; assumption). assert (6 * u * (Cmod z * Cmod (w n k)) <= 6 * u * (Cmod z * (5 / 4))) by (apply Rmult_le_compat_l; lra). nra.
Qed.
Variables (b : butterfly) (eb db : nat -> R).
Hypotheses (Hb : forall r, 0 <= eb r) (Hdb : forall r, 0 <= db r).
Lemma fft_near l : Forall (fun r => (0 < r)%nat /\ good_butterfly (eb r) (db r) b r) l -> forall f,
  norm1 (size l) (fun k => fl_fft a w b l f k - dft (size l) f k)%C <= fft_rel eb (10 * u) l * (sqrt (INR (size l)) * norm1 (size l) f) + fft_abs eb db (10 * u) (8 * eta) l.
Proof.
  induction 1 as [|r l [Hr Hbr] Hl IH]; intros f.
  - cbn [fl_fft size fold_right fft_rel fft_abs]. right. rewrite norm1_eq. cbn [rsum]. unfold dft. cbn [csum]. unfold root. replace (2 * PI * (INR (0 * 0) / INR 1)) with 0 by (cbn [Nat.mul INR]; field). rewrite cis_0.
    replace (f 0%nat - (RtoC 0 + f 0%nat * 1))%C with (RtoC 0) by ring. rewrite Cmod_0. replace (0 + 0 ^ 2) with 0 by ring. rewrite sqrt_0. ring.
  - assert (Hm : (0 < size l)%nat) by (apply size_pos; eapply Forall_impl; [|exact Hl]; intros q [Q _]; exact Q).
    cbn [fft_rel fft_abs]. change (size (r :: l)) with (r * size l)%nat. cbn [fl_fft]. cbv zeta.
    apply (stage r (size l) (fl_fft a w b l) b (fun p k z => fl_cmul a z (w (r * size l)%nat (p * k)%nat))); try assumption; try (apply Hb); try (apply Hdb); try lra.
    + apply fft_rel_ge_0; [lra|exact Hb].
    + apply fft_abs_ge_0; try assumption; lra.
    + intros p k z Hp Hk. apply twiddle_near. nia.
Qed.
(** One axis, with the factor 1/n. *)
Notation axis_rel := (axis_rel u eb). Notation axis_abs := (axis_abs u eta eb db).
Lemma scale_near z n : (0 < n)%nat -> eta * INR n <= u -> let c := rnd a (/ INR n) in
  Cmod ((rnd a (fst z * c), rnd a (snd z * c)) - z * RtoC (/ INR n))%C <= 4 * u * / INR n * Cmod z + 2 * eta.
Proof.
  intros Hn Hs c. assert (P : 0 < INR n) by (apply lt_0_INR, Hn). assert (I : 0 < / INR n) by (apply Rinv_0_lt_compat, P).
  assert (E : Rabs (c - / INR n) <= 2 * u * / INR n).
  { unfold c. assert (Q := rnd_near (/ INR n)). rewrite (Rabs_pos_eq (/ INR n)) in Q by lra. assert (eta <= u * / INR n). { apply Rmult_le_reg_r with (INR n); [exact P|]. rewrite Rmult_assoc, Rinv_l, Rmult_1_r by lra. exact Hs. } lra. }
  assert (Ec : Rabs c <= 5 / 4 * / INR n). { replace c with (/ INR n + (c - / INR n)) by ring. eapply Rle_trans; [apply Rabs_triang|]. rewrite (Rabs_pos_eq (/ INR n)) by lra. nra. }
  replace (fst z * c) with (fst (z * RtoC c)%C) by (unfold Cmult, RtoC; cbn [fst snd]; ring). replace (snd z * c) with (snd (z * RtoC c)%C) by (unfold Cmult, RtoC; cbn [fst snd]; ring).
  eapply Rle_trans; [apply (Cmod_sub_via _ (z * RtoC c)%C)|]. assert (Q := cround (z * RtoC c)%C). replace (z * RtoC c - z * RtoC (/ INR n))%C with (z * RtoC (c - / INR n))%C by (rewrite RtoC_minus; ring).
  rewrite Cmod_mult, Cmod_R in Q. rewrite (Cmod_mult z (RtoC _)), Cmod_R. assert (G := Cmod_ge_0 z).
  assert (Cmod z * Rabs (c - / INR n) <= Cmod z * (2 * u * / INR n)) by (apply Rmult_le_compat_l; assumption).
  assert (Cmod z * Rabs c <= Cmod z * (5 / 4 * / INR n)) by (apply Rmult_le_compat_l; assumption). assert (u * (Cmod z * Rabs c) <= u * (Cmod z * (5 / 4 * / INR n))) by (apply Rmult_le_compat_l; lra).
  assert (0 <= u * (Cmod z * / INR n)) by (apply Rmult_le_pos; [lra|apply Rmult_le_pos; lra]). lra.
Qed.
Lemma sqrt_inv n : (0 < n)%nat -> sqrt (INR n) * / INR n = / sqrt (INR n).
Proof. intros Hn. assert (P : 0 < INR n) by (apply lt_0_INR, Hn). assert (S := sqrt_lt_R0 _ P). rewrite <- (sqrt_sqrt (INR n)) at 2 by lra. field. lra. Qed.
Lemma axis_near l f : Forall (fun r => (0 < r)%nat /\ good_butterfly (eb r) (db r) b r) l -> eta * INR (size l) <= u ->
  norm1 (size l) (fun k => fl_axis a w b l f k - dft (size l) f k * RtoC (/ INR (size l)))%C <= axis_rel l * (/ sqrt (INR (size l)) * norm1 (size l) f) + axis_abs l.
Proof.
  intros Hl Hs. assert (Hn : (0 < size l)%nat) by (apply size_pos; eapply Forall_impl; [|exact Hl]; intros q [Q _]; exact Q).
  set (n := size l) in *. assert (P : 0 < INR n) by (apply lt_0_INR, Hn). assert (I : 0 < / INR n) by (apply Rinv_0_lt_compat, P).
  assert (A := fft_near l Hl f). fold n in A. set (z := fl_fft a w b l f) in *. set (D := dft n f) in *.
  assert (Q : norm1 n (fun k => fl_axis a w b l f k - D k * RtoC (/ INR n))%C <= (1 + 4 * u) * / INR n * norm1 n (fun k => z k - D k)%C + 4 * u * / INR n * norm1 n D + sqrt (INR n) * (2 * eta)).
  { replace n with (1 * n)%nat at 6 by lia. apply pointwise; try (apply Rmult_le_pos; lra); try lra. intros _ k _ _. eapply Rle_trans; [apply (Cmod_sub_via _ (z k * RtoC (/ INR n))%C)|].
    assert (S := scale_near (z k) n Hn Hs). cbv zeta in S. unfold fl_axis. cbv zeta. fold n. fold z. replace (z k * RtoC (/ INR n) - D k * RtoC (/ INR n))%C with ((z k - D k) * RtoC (/ INR n))%C by ring.
    rewrite Cmod_mult, Cmod_R, (Rabs_pos_eq (/ INR n)) by lra. assert (V := Cmod_via (D k) (z k)). assert (0 <= 4 * u * / INR n) by (apply Rmult_le_pos; lra).
    assert (4 * u * / INR n * Cmod (z k) <= 4 * u * / INR n * (Cmod (D k) + Cmod (z k - D k)%C)) by (apply Rmult_le_compat_l; assumption). lra. }
  eapply Rle_trans; [exact Q|]. assert (ND : norm1 n D = sqrt (INR n) * norm1 n f) by apply dft_norm. rewrite ND in *. rewrite <- sqrt_inv by exact Hn. unfold FftSpec.axis_rel, FftSpec.axis_abs. fold n.
  set (R0 := fft_rel eb (10 * u) l) in *. set (A0 := fft_abs eb db (10 * u) (8 * eta) l) in *. set (N := norm1 n f) in *. set (s := sqrt (INR n)) in *.
  assert (0 <= (1 + 4 * u) * / INR n) by (apply Rmult_le_pos; lra).
  assert ((1 + 4 * u) * / INR n * norm1 n (fun k => z k - D k)%C <= (1 + 4 * u) * / INR n * (R0 * (s * N) + A0)) by (apply Rmult_le_compat_l; assumption).
  eapply Rle_trans; [apply Rplus_le_compat_r, Rplus_le_compat_r; eassumption|]. right. unfold Rdiv. ring.
Qed.
(** Both axes. *)
Lemma ifft2_dft ny nx f i j : (0 < ny)%nat -> (0 < nx)%nat -> ifft2 ny nx f i j = (dft ny (fun v => dft nx (f v) j * RtoC (/ INR nx)) i * RtoC (/ INR ny))%C.
Proof.
  intros Hy Hx. unfold ifft2, dft, csum2. assert (Py := INR_neq_0 ny Hy). assert (Px := INR_neq_0 nx Hx). assert (Qy := RtoC_neq_0 _ Py). assert (Qx := RtoC_neq_0 _ Px).
  rewrite mult_INR, RtoC_mult, !RtoC_inv by assumption. rewrite (csum_ext ny (fun v => csum nx (fun j0 => f v j0 * root nx (j0 * j)) * / RtoC (INR nx) * root ny (v * i))%C (fun v => csum nx (fun p => f v p * cis (2 * PI * (INR (v * i) / INR ny + INR (p * j) / INR nx))) * / RtoC (INR nx))%C).
  - rewrite csum_scal_r. field. auto.
  - intros v _. replace (csum nx (fun j0 => f v j0 * root nx (j0 * j)) * / RtoC (INR nx) * root ny (v * i))%C with (csum nx (fun j0 => f v j0 * root nx (j0 * j)) * root ny (v * i) * / RtoC (INR nx))%C by ring. f_equal.
    rewrite <- csum_scal_r. apply csum_ext. intros p _. unfold root. replace (2 * PI * (INR (v * i) / INR ny + INR (p * j) / INR nx)) with (2 * PI * (INR (p * j) / INR nx) + 2 * PI * (INR (v * i) / INR ny)) by ring. rewrite cis_plus. ring.
Qed.
Lemma ifft2_norm ny nx f : (0 < ny)%nat -> (0 < nx)%nat -> norm ny nx (ifft2 ny nx f) = / sqrt (INR ny) * (/ sqrt (INR nx) * norm ny nx f).
Proof.
  intros Hy Hx. assert (E := ifft2_parseval ny nx f). rewrite <- !rsum2_Cmod in E. assert (Py : 0 < INR ny) by (apply lt_0_INR, Hy). assert (Px : 0 < INR nx) by (apply lt_0_INR, Hx).
  assert (Sy := sqrt_lt_R0 _ Py). assert (Sx := sqrt_lt_R0 _ Px). apply Rmult_eq_reg_l with (sqrt (INR ny) * sqrt (INR nx)); [|nra]. transitivity (norm ny nx f); [|field; lra].
  unfold norm. rewrite <- E, mult_INR, sqrt_mult; [|nra|apply sumsq_ge_0]. rewrite sqrt_mult by lra. reflexivity.
Qed.
Lemma axis_rel_ge_0 l : 0 <= axis_rel l.
Proof. unfold FftSpec.axis_rel. assert (Q := fft_rel_ge_0 eb (10 * u) l ltac:(lra) Hb). nra. Qed.
Lemma axis_abs_ge_0 l : (0 < size l)%nat -> 0 <= axis_abs l.
Proof.
  intros Hn. unfold FftSpec.axis_abs. assert (P : 0 < INR (size l)) by (apply lt_0_INR, Hn). apply Rplus_le_le_0_compat; [|apply Rmult_le_pos; [apply sqrt_pos|lra]].
  apply Rmult_le_pos; [|left; apply Rinv_0_lt_compat, P]. apply Rmult_le_pos; [lra|]. apply fft_abs_ge_0; try assumption; lra.
Qed.
Lemma ifft2_near ly lx f : Forall (fun r => (0 < r)%nat /\ good_butterfly (eb r) (db r) b r) (ly ++ lx) -> let ny := size ly in let nx := size lx in eta * INR (ny * nx) <= u ->
  norm ny nx (fun i j => fl_ifft2 a w b ly lx f i j - ifft2 ny nx f i j)%C <=
  ((1 + axis_rel ly) * (1 + axis_rel lx) - 1) * norm ny nx (ifft2 ny nx f) + ((1 + axis_rel ly) * axis_abs lx + sqrt (INR nx) * axis_abs ly).
Proof.
  intros Hl ny nx Hs. apply Forall_app in Hl. destruct Hl as [Hly Hlx].
  assert (Hy : (0 < ny)%nat) by (apply size_pos; eapply Forall_impl; [|exact Hly]; intros q [Q _]; exact Q). assert (Hx : (0 < nx)%nat) by (apply size_pos; eapply Forall_impl; [|exact Hlx]; intros q [Q _]; exact Q).
  assert (Py : 1 <= INR ny) by (change 1 with (INR 1); apply le_INR; lia). assert (Px : 1 <= INR nx) by (change 1 with (INR 1); apply le_INR; lia). rewrite mult_INR in Hs.
  assert (Sy : eta * INR ny <= u) by (assert (0 <= eta * INR ny) by (apply Rmult_le_pos; lra); nra). assert (Sx : eta * INR nx <= u) by (assert (0 <= eta * INR nx) by (apply Rmult_le_pos; lra); nra).
  assert (Ry := sqrt_lt_R0 (INR ny) ltac:(lra)). assert (Rx := sqrt_lt_R0 (INR nx) ltac:(lra)). assert (Iy : 0 < / sqrt (INR ny)) by (apply Rinv_0_lt_compat, Ry). assert (Ix : 0 < / sqrt (INR nx)) by (apply Rinv_0_lt_compat, Rx).
  assert (Ey := axis_rel_ge_0 ly). assert (Ex := axis_rel_ge_0 lx). assert (Dy := axis_abs_ge_0 ly Hy). assert (Dx := axis_abs_ge_0 lx Hx).
  set (Yh := fun v j => fl_axis a w b lx (f v) j). set (Y := fun v j => (dft nx (f v) j * RtoC (/ INR nx))%C).
  assert (AY : norm ny nx (fun v j => Yh v j - Y v j)%C <= axis_rel lx * (/ sqrt (INR nx) * norm ny nx f) + sqrt (INR ny) * axis_abs lx).
  { assert (Q := rowwise ny nx (fun v j => Yh v j - Y v j)%C f f (axis_rel lx * / sqrt (INR nx)) 0 (axis_abs lx) ltac:(nra) ltac:(lra) Dx). rewrite Rmult_0_l, Rplus_0_r, Rmult_assoc in Q. apply Q.
    intros i _. rewrite Rmult_0_l, Rplus_0_r, Rmult_assoc. apply axis_near; assumption. }
  assert (NY : norm ny nx Y = / sqrt (INR nx) * norm ny nx f).
  { rewrite !norm_rows. rewrite (norm1_ext ny _ (fun i => RtoC (norm1 nx (f i)) * RtoC (/ sqrt (INR nx)))%C).
    - unfold norm1 at 1. rewrite norm_scal, Rabs_pos_eq by lra. reflexivity.
    - intros i _. unfold Y. unfold norm1 at 1. rewrite norm_scal. fold (norm1 nx (fun j => dft nx (f i) j)). change (fun j => dft nx (f i) j) with (dft nx (f i)). rewrite dft_norm, Rabs_pos_eq by (left; apply Rinv_0_lt_compat; lra).
      rewrite <- RtoC_mult. f_equal. rewrite <- sqrt_inv by exact Hx. ring. }
  assert (NI := ifft2_norm ny nx f Hy Hx). rewrite <- NY in NI. rewrite <- NY in AY.
  assert (AX : norm ny nx (fun i j => fl_ifft2 a w b ly lx f i j - ifft2 ny nx f i j)%C <= (1 + axis_rel ly) * / sqrt (INR ny) * norm ny nx (fun v j => Yh v j - Y v j)%C + axis_rel ly * / sqrt (INR ny) * norm ny nx Y + sqrt (INR nx) * axis_abs ly).
  { apply colwise; [nra|nra|exact Dy|]. intros j Hj. assert (An := axis_near ly (fun v => Yh v j) Hly Sy). fold ny in An.
    rewrite (norm1_ext ny _ (fun i => (fl_axis a w b ly (fun v => Yh v j) i - dft ny (fun v => Yh v j) i * RtoC (/ INR ny)) + dft ny (fun v => Yh v j - Y v j) i * RtoC (/ INR ny))%C).
    2:{ intros i _. rewrite ifft2_dft, <- dft_minus by assumption. unfold fl_ifft2, Yh, Y. ring. }
    eapply Rle_trans; [apply norm1_minkowski|]. unfold norm1 at 2. rewrite norm_scal. fold (norm1 ny (fun i => dft ny (fun v => Yh v j - Y v j)%C i)). change (fun i => dft ny (fun v => Yh v j - Y v j)%C i) with (dft ny (fun v => Yh v j - Y v j)%C).
    rewrite dft_norm, Rabs_pos_eq by (left; apply Rinv_0_lt_compat; lra). replace (/ INR ny * (sqrt (INR ny) * norm1 ny (fun v => Yh v j - Y v j)%C)) with (/ sqrt (INR ny) * norm1 ny (fun v => Yh v j - Y v j)%C) by (rewrite <- sqrt_inv by exact Hy; ring).
    assert (V := norm1_via ny (fun v => Y v j) (fun v => Yh v j)). assert (0 <= axis_rel ly * / sqrt (INR ny)) by nra.
    assert (axis_rel ly * / sqrt (INR ny) * norm1 ny (fun v => Yh v j) <= axis_rel ly * / sqrt (INR ny) * (norm1 ny (fun v => Y v j) + norm1 ny (fun v => Yh v j - Y v j)%C)) by (apply Rmult_le_compat_l; assumption). lra. }
  eapply Rle_trans; [exact AX|]. rewrite NI. set (A := norm ny nx (fun v j => Yh v j - Y v j)%C) in *. set (N := norm ny nx Y) in *.
  assert (0 <= (1 + axis_rel ly) * / sqrt (INR ny)) by nra.
  assert ((1 + axis_rel ly) * / sqrt (INR ny) * A <= (1 + axis_rel ly) * / sqrt (INR ny) * (axis_rel lx * N + sqrt (INR ny) * axis_abs lx)) by (apply Rmult_le_compat_l; assumption).
  eapply Rle_trans; [apply Rplus_le_compat_r, Rplus_le_compat_r; eassumption|]. right. field. lra.
Qed.
End Fft.
