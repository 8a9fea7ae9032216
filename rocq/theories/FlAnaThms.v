(** Theorems on the rounding errors of analysis.py in the form they are stated in PropsFlAna.v. *)
From Coq Require Import Reals ZArith List Permutation Bool Lia Lra Psatz.
From Flocq Require Import Core.
From Verif Require Import Cx Sums PyBase ProfileModel ZernSpec AnaSpec AnaFacts AnaThms AnsiFacts AnalysisModel FloatModel FloatSpec FloatFacts FloatFacts4 FlSimSpec FlAnaModel FlAnaSpec FlAnaFacts FlAnaFacts2 FlAnaFacts3.
Import ListNotations.
Open Scope R_scope.

Lemma safe_radius u eta B q ny nx k n : arithmetic u eta B (flt q) -> (2 ^ 44 <= B)%Z -> (Z.of_nat ny <= 2 ^ 20)%Z -> (Z.of_nat nx <= 2 ^ 20)%Z -> (k * k <= B)%Z -> (2 * n <= 100)%nat ->
  clear_radius q ny nx (IZR k / 2 ^ n) /\ selected q ny nx (IZR k / 2 ^ n) = inside ny nx (IZR k / 2 ^ n).
Proof. intros A HB Hy Hx Hk Hn. assert (C := dyadic_radius u eta B q A HB ny nx k n Hk Hn). split; [exact C|]. apply (selected_inside u eta B q A HB); assumption. Qed.
Lemma removal u eta B v theta B' w xi B'' q h ny nx radius t zv (G : nat -> nat -> Prop) dl e F f (d : bool) g :
  arithmetic u eta B (np q) -> arithmetic v theta B' (sc q) -> arithmetic w xi B'' (flt q) -> (2 ^ 44 <= B'')%Z -> 0 <= u -> 0 <= eta -> 0 <= v -> 0 <= theta ->
  (Z.of_nat ny <= 2 ^ 20)%Z -> (Z.of_nat nx <= 2 ^ 20)%Z -> 0 < radius -> clear_radius q ny nx radius -> adds_selected q ny nx radius t ->
  (forall i j, In (i, j) (inside ny nx radius) -> G i j) ->
  0 <= e <= dl -> dl <= 1 / 1000 -> u <= dl -> v <= dl -> (1 + u) ^ (depth t + 2) - 1 <= dl -> eta <= dl * F -> theta <= dl * F -> 0 < F ->
  (forall i j, (i < ny)%nat -> (j < nx)%nat -> G i j -> Rabs (f i j) <= F) ->
  (forall n m, In (n, m) ([(0, 0); (1, -1); (1, 1)] ++ if d then [(2, 0)] else [])%Z -> evaluates G ny nx radius false e n m (zv n m)) ->
  remove_trivial_phase h ny nx f radius d = Ok (Some g) ->
  forall i j, (i < ny)%nat -> (j < nx)%nat -> G i j -> Rabs (fl_remove_trivial_phase q t zv f d i j - g i j) <= (if d then 17600 else 2700) * dl * F.
Proof.
  intros A A' A'' HB Hu He Hv Ht Hy Hx HR CR AS HG H0 Hd Hud Hvd Hg Het Htt HF0 HF Ev E i j Hi Hj Gij.
  unfold adds_selected in AS. rewrite (selected_inside w xi B'' q A'' HB ny nx radius Hy Hx CR) in AS.
  assert (NE : inside ny nx radius <> []). { intros K. rewrite K in AS. apply Permutation_sym, Permutation_nil in AS. pose proof (np_len_pos t) as L. rewrite np_len_pixels, AS in L. cbn in L. lra. }
  apply (remove_close u eta v theta B B' q A A' Hu He Hv Ht h ny nx radius t zv G HR NE AS HG dl e F); try assumption; try lra.
  - intros i0 j0 (a & b & c). apply HF; assumption.
  - repeat split; assumption.
Qed.
Lemma piston u eta B v theta B' w xi B'' q h ny nx radius t zv dl e F f :
  arithmetic u eta B (np q) -> arithmetic v theta B' (sc q) -> arithmetic w xi B'' (flt q) -> (2 ^ 44 <= B'')%Z -> 0 <= u -> 0 <= eta -> 0 <= v -> 0 <= theta ->
  (Z.of_nat ny <= 2 ^ 20)%Z -> (Z.of_nat nx <= 2 ^ 20)%Z -> 0 < radius -> clear_radius q ny nx radius -> adds_selected q ny nx radius t ->
  0 <= e <= dl -> dl <= 1 / 1000 -> u <= dl -> v <= dl -> (1 + u) ^ (depth t + 2) - 1 <= dl -> eta <= dl * F -> theta <= dl * F -> 0 < F ->
  (forall i j, In (i, j) (inside ny nx radius) -> Rabs (f i j) <= F) ->
  (forall n m, In (n, m) [(0, 0); (1, -1); (1, 1)]%Z -> evaluates (fun i j => In (i, j) (inside ny nx radius)) ny nx radius false e n m (zv n m)) ->
  exists g, remove_trivial_phase h ny nx f radius false = Ok (Some g) /\ Rabs (average (inside ny nx radius) (fl_remove_trivial_phase q t zv f false)) <= 2700 * dl * F.
Proof.
  intros A A' A'' HB Hu He Hv Ht Hy Hx HR CR AS H0 Hd Hud Hvd Hg Het Htt HF0 HF Ev.
  assert (NE : inside ny nx radius <> []). { pose proof AS as AS'. unfold adds_selected in AS'. rewrite (selected_inside w xi B'' q A'' HB ny nx radius Hy Hx CR) in AS'. intros K. rewrite K in AS'. apply Permutation_sym, Permutation_nil in AS'. pose proof (np_len_pos t) as L. rewrite np_len_pixels, AS' in L. cbn in L. lra. }
  destruct (remove_closed h ny nx f radius false HR NE) as (g & E & _). exists g. split; [exact E|]. pose proof (rt_zero_mean h ny nx f radius g HR NE E) as M.
  replace (average (inside ny nx radius) (fl_remove_trivial_phase q t zv f false)) with (average (inside ny nx radius) (fun i j => fl_remove_trivial_phase q t zv f false i j - g i j)) by (rewrite average_minus, M; ring).
  apply average_bound; [exact NE|]. intros i j I. pose proof I as I'. apply in_inside in I'. destruct I' as (i1 & i2 & _).
  apply (removal u eta B v theta B' w xi B'' q h ny nx radius t zv (fun i j => In (i, j) (inside ny nx radius)) dl e F f false g); try assumption; try tauto. intros i0 j0 _ _. apply HF.
Qed.
Lemma decomposition u eta B v theta B' w xi B'' q h ny nx radius t zv (G : nat -> nat -> Prop) x e Zm F f T :
  arithmetic u eta B (np q) -> arithmetic v theta B' (sc q) -> arithmetic w xi B'' (flt q) -> (2 ^ 44 <= B'')%Z -> 0 <= u -> 0 <= eta -> 0 <= v -> 0 <= theta -> 0 <= w -> 0 <= xi ->
  (Z.of_nat ny <= 2 ^ 20)%Z -> (Z.of_nat nx <= 2 ^ 20)%Z -> 0 < radius -> clear_radius q ny nx radius -> adds_selected q ny nx radius t ->
  (forall i j, In (i, j) (inside ny nx radius) -> G i j) -> 0 <= e -> 0 <= Zm ->
  (forall i j, (i < ny)%nat -> (j < nx)%nat -> G i j -> Rabs (f i j) <= F) -> (9 + 8 * (Z.of_nat T - 1) <= 2 ^ 53)%Z ->
  (forall k n m, (k < T)%nat -> zvalid n m -> (2 * Z.of_nat k = n * (n + 2) + m)%Z -> evaluates G ny nx radius x e n m (zv n m) /\ mode_bound G ny nx radius x Zm n m) ->
  let ec := coefficient_error u eta (depth t) F Zm e in
  exists cs g csf gf, zernike_decomposition h ny nx f radius (Z.of_nat T) x = Ok (map Some cs, Some g) /\ fl_zernike_decomposition q t zv f (Z.of_nat T) = Ok (csf, gf) /\ length cs = T /\
    Forall2 (fun c c' => Rabs (c' - c) <= ec) cs csf /\
    (forall i j, (i < ny)%nat -> (j < nx)%nat -> G i j -> Rabs (gf i j - g i j) <= reconstruction_error w xi (term_error v theta (F * Zm) ec Zm e) (F * Zm * Zm) T).
Proof.
  intros A A' A'' HB Hu He Hv Ht Hw Hxi Hy Hx HR CR AS HG H0 HZ HF HT Ev ec.
  unfold adds_selected in AS. rewrite (selected_inside w xi B'' q A'' HB ny nx radius Hy Hx CR) in AS.
  assert (NE : inside ny nx radius <> []). { intros K. rewrite K in AS. apply Permutation_sym, Permutation_nil in AS. pose proof (np_len_pos t) as L. rewrite np_len_pixels, AS in L. cbn in L. lra. }
  destruct (decompose_close u eta v theta B B' q A A' Hu He Hv h ny nx radius t zv G HR NE AS HG w xi B'' A'' Hw x e Zm F f H0) with (T := T) as (cs & g & csf & gf & E1 & E2 & E3 & E4 & E5); try assumption.
  - intros i j (a & b & c). apply HF; assumption.
  - exists cs, g, csf, gf. do 4 (split; [assumption|]). intros i j Hi Hj Gij. apply E5. repeat split; assumption.
Qed.
Lemma exact_arithmetic B : arithmetic 0 0 B (fun x => x).
Proof. split; intros; try reflexivity; try assumption. replace (x - x) with 0 by ring. rewrite Rabs_R0. lra. Qed.
Lemma no_rounding h ny nx radius t zv f (d : bool) g : 0 < radius -> adds_selected (Build_numerics (fun x => x) (fun x => x) (fun x => x)) ny nx radius t ->
  (Z.of_nat ny <= 2 ^ 20)%Z -> (Z.of_nat nx <= 2 ^ 20)%Z -> (forall n m, evaluates (fun _ _ => True) ny nx radius false 0 n m (zv n m)) ->
  remove_trivial_phase h ny nx f radius d = Ok (Some g) -> agree ny nx (fl_remove_trivial_phase (Build_numerics (fun x => x) (fun x => x) (fun x => x)) t zv f d) g.
Proof.
  intros HR AS Hy Hx Ev E i j Hi Hj. set (q := Build_numerics (fun x => x) (fun x => x) (fun x => x)) in *.
  assert (Mx : forall n (a : nat -> R), exists M, 0 < M /\ forall k, (k < n)%nat -> Rabs (a k) <= M).
  { induction n as [|n IH]; intros a; [exists 1; split; [lra|lia]|]. destruct (IH a) as (M & M0 & HM). exists (M + Rabs (a n)). pose proof (Rabs_pos (a n)). split; [lra|]. intros k Hk. destruct (Nat.eq_dec k n) as [->|N]; [lra|]. pose proof (HM k ltac:(lia)). lra. }
  assert (M2 : exists M, 0 < M /\ forall i j, (i < ny)%nat -> (j < nx)%nat -> Rabs (f i j) <= M).
  { clear - Mx. induction ny as [|n IH]; [exists 1; split; [lra|lia]|]. destruct IH as (M & M0 & HM). destruct (Mx nx (f n)) as (K & K0 & HK). exists (M + K). split; [lra|]. intros i j Hi Hj. destruct (Nat.eq_dec i n) as [->|N]; [pose proof (HK j Hj); lra|]. pose proof (HM i j ltac:(lia) Hj). lra. }
  destruct M2 as (F & F0 & HF).
  assert (D := removal 0 0 (2 ^ 44) 0 0 (2 ^ 44) 0 0 (2 ^ 44) q h ny nx radius t zv (fun _ _ => True) 0 0 F f d g (exact_arithmetic _) (exact_arithmetic _) (exact_arithmetic _)).
  assert (Rabs (fl_remove_trivial_phase q t zv f d i j - g i j) <= (if d then 17600 else 2700) * 0 * F).
  { apply D; try assumption; try lra; try lia; try tauto; try (intros; apply HF; assumption); try (intros; apply Ev).
    - intros i0 j0 _ _ L. cbn. lra.
    - replace (1 + 0) with 1 by ring. rewrite pow1. lra. }
  rewrite Rmult_0_r, Rmult_0_l in H. pose proof (Rabs_pos (fl_remove_trivial_phase q t zv f d i j - g i j)). destruct (Req_dec (fl_remove_trivial_phase q t zv f d i j - g i j) 0) as [Z0|Z0]; [lra|]. apply Rabs_pos_lt in Z0. lra.
Qed.
Lemma small_pow n : (n <= 52)%nat -> (1 + / 2 ^ 53) ^ n - 1 <= / 2 ^ 47.
Proof.
  intros Hn. assert (U : 0 < / 2 ^ 53 <= / 64 * / 2 ^ 47). { split; [apply Rinv_0_lt_compat, pow_lt; lra|]. replace (2 ^ 53) with (64 * 2 ^ 47) by ring. rewrite Rinv_mult. lra. }
  set (u := / 2 ^ 53) in *. assert (V : 0 < / 2 ^ 47 <= / 1000). { split; [apply Rinv_0_lt_compat, pow_lt; lra|]. apply Rinv_le_contravar; [lra|]. apply Rle_trans with (2 ^ 10); [lra|]. apply Rle_pow; [lra|lia]. } set (w := / 2 ^ 47) in *.
  assert (K : forall k, (k <= 64)%nat -> (1 + u) ^ k <= 1 + INR k * u * 1.1).
  { induction k as [|k IH]; intros Hk; [cbn; lra|]. cbn [pow]. pose proof (IH ltac:(lia)) as I. rewrite S_INR. assert (Q : INR k <= 64) by (replace 64 with (INR 64) by (cbn; lra); apply le_INR; lia). pose proof (pos_INR k).
    assert (INR k * u <= 64 * u) by (apply Rmult_le_compat_r; lra). assert (0 <= INR k * u) by (apply Rmult_le_pos; lra).
    assert ((1 + u) * (1 + u) ^ k <= (1 + u) * (1 + INR k * u * 1.1)) by (apply Rmult_le_compat_l; lra). assert (u * (INR k * u) <= u * (64 * u)) by (apply Rmult_le_compat_l; lra). assert (u * u <= u * (/ 64000)) by (apply Rmult_le_compat_l; lra). lra. }
  pose proof (K n ltac:(lia)). assert (Q : INR n <= 52) by (replace 52 with (INR 52) by (cbn; lra); apply le_INR; lia). assert (INR n * u <= 52 * u) by (apply Rmult_le_compat_r; lra). nra.
Qed.
Lemma in_double q h ny nx radius t zv F f (d : bool) g : flt q = binary64 -> np q = binary64 -> sc q = binary64 ->
  (Z.of_nat ny <= 2 ^ 20)%Z -> (Z.of_nat nx <= 2 ^ 20)%Z -> 0 < radius -> clear_radius q ny nx radius -> adds_selected q ny nx radius t -> (depth t <= 50)%nat -> / 2 ^ 1000 <= F ->
  (forall i j, (i < ny)%nat -> (j < nx)%nat -> Rabs (f i j) <= F) ->
  (forall n m, In (n, m) ([(0, 0); (1, -1); (1, 1)] ++ if d then [(2, 0)] else [])%Z -> evaluates (fun _ _ => True) ny nx radius false (/ 2 ^ 47) n m (zv n m)) ->
  remove_trivial_phase h ny nx f radius d = Ok (Some g) ->
  forall i j, (i < ny)%nat -> (j < nx)%nat -> Rabs (fl_remove_trivial_phase q t zv f d i j - g i j) <= F / 2 ^ 32.
Proof.
  intros Q1 Q2 Q3 Hy Hx HR CR AS Dp HF0 HF Ev E i j Hi Hj. pose proof binary64_arithmetic as A.
  assert (P : forall n, 0 < / 2 ^ n) by (intros; apply Rinv_0_lt_compat, pow_lt; lra). assert (Pm : forall n m, (m <= n)%nat -> / 2 ^ n <= / 2 ^ m). { intros n m L. apply Rinv_le_contravar; [apply pow_lt; lra|]. apply Rle_pow; [lra|exact L]. }
  assert (F0 : 0 < F) by (pose proof (P 1000%nat); lra).
  assert (et : / 2 ^ 1075 <= / 2 ^ 47 * F). { apply Rle_trans with (/ 2 ^ 47 * / 2 ^ 1000). - rewrite <- Rinv_mult, <- pow_add. apply Pm. lia. - apply Rmult_le_compat_l; [apply Rlt_le, P|exact HF0]. }
  assert (K : Rabs (fl_remove_trivial_phase q t zv f d i j - g i j) <= (if d then 17600 else 2700) * / 2 ^ 47 * F).
  { apply (removal (/ 2 ^ 53) (/ 2 ^ 1075) (2 ^ 53) (/ 2 ^ 53) (/ 2 ^ 1075) (2 ^ 53) (/ 2 ^ 53) (/ 2 ^ 1075) (2 ^ 53) q h ny nx radius t zv (fun _ _ => True) (/ 2 ^ 47) (/ 2 ^ 47) F f d g); try assumption; try lia; try (rewrite ?Q1, ?Q2, ?Q3; exact A); try (apply Rlt_le, P); try tauto.
    - split; [apply Rlt_le, P|lra].
    - apply Rle_trans with (/ 2 ^ 10); [apply Pm; lia|]. replace (2 ^ 10) with 1024 by ring. lra.
    - apply Pm. lia.
    - apply Pm. lia.
    - apply small_pow. lia.
    - intros; apply HF; assumption. }
  eapply Rle_trans; [exact K|]. replace (2 ^ 47) with (32768 * 2 ^ 32) by ring. rewrite Rinv_mult. pose proof (P 32%nat). unfold Rdiv. rewrite (Rmult_comm F). apply Rmult_le_compat_r; [lra|]. destruct d; lra.
Qed.
Lemma inside_13 : inside 1 3 2 = [(0, 0); (0, 1); (0, 2)]%nat.
Proof.
  unfold inside. cbn [seq list_prod map app filter fst snd]. unfold dist_sq, px, py. cbn [INR].
  repeat (destruct (Rlt_dec _ _) as [L|L]; [clear L|exfalso; apply L; lra]). reflexivity.
Qed.
Lemma case_13 : let q := Build_numerics binary64 binary64 binary64 in let t := Added (Added (Pixel 0 0) (Pixel 0 1)) (Pixel 0 2) in
  clear_radius q 1 3 2 /\ adds_selected q 1 3 2 t /\ (depth t <= 50)%nat.
Proof.
  intros q t. destruct (safe_radius (/ 2 ^ 53) (/ 2 ^ 1075) (2 ^ 53) q 1 3 2 0 binary64_arithmetic) as [C S]; try lia. replace (IZR 2 / 2 ^ 0) with 2 in * by (cbn [pow]; field).
  split; [exact C|]. split; [|cbn; lia]. unfold adds_selected. rewrite S, inside_13. cbn [t pixels app]. apply Permutation_refl.
Qed.
Lemma lost_pixel : let q := Build_numerics binary64 binary64 binary64 in let r := IZR 4642204239785223 / 2 ^ 50 in
  binary64 r = r /\ fl_aperture q 9 9 r 3 8 = false /\ dist_sq 9 9 3 8 < r ^ 2.
Proof.
  intros q r. assert (P50 : 0 < 2 ^ 50) by (apply pow_lt; lra).
  assert (R2 : r ^ 2 = IZR 21550060203879900199937169159729 / IZR (2 ^ 100)).
  { unfold r. replace (IZR (2 ^ 100)) with (2 ^ 50 * 2 ^ 50) by (rewrite <- pow_add, pow_IZR; reflexivity). replace 21550060203879900199937169159729 with (4642204239785223 * 4642204239785223)%R by (rewrite <- mult_IZR; reflexivity). field. }
  assert (D : dist_sq 9 9 3 8 = 17). { unfold dist_sq, px, py. cbn [INR]. field. }
  assert (B : binary64 (r ^ 2) = 17).
  { pose proof (nearest64 (r ^ 2) (17 * 2 ^ 48) (-48)) as N. rewrite N; [| lia | |].
    - rewrite mult_IZR. change (bpow radix2 (-48)) with (/ IZR (2 ^ 48)). field. lra.
    - change (bpow radix2 (-48)) with (/ 281474976710656). rewrite R2. change (IZR (2 ^ 100)) with 1267650600228229401496703205376.
      replace (2 ^ 52) with 4503599627370496 by (rewrite pow_IZR; reflexivity). replace (2 ^ 53) with 9007199254740992 by (rewrite pow_IZR; reflexivity). split; lra.
    - change (bpow radix2 (- -48)) with 281474976710656. rewrite R2. change (IZR (2 ^ 100)) with 1267650600228229401496703205376. change (IZR (17 * 2 ^ 48)) with 4785074604081152. apply Rabs_def1; lra. }
  split; [|split].
  - apply (ar_exact _ _ _ _ binary64_arithmetic); lia.
  - apply not_true_is_false. intros K. apply (aperture_rounded (/ 2 ^ 53) (/ 2 ^ 1075) (2 ^ 53) q binary64_arithmetic) in K; try lia. apply (proj2 K). rewrite D. symmetry. exact B.
  - rewrite D, R2. change (IZR (2 ^ 100)) with 1267650600228229401496703205376. lra.
Qed.
