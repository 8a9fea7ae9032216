(** Rounding errors of analysis.py: the coefficients. *)
From Coq Require Import Reals ZArith List Permutation Lia Lra Psatz.
From Verif Require Import Cx Sums ZernSpec AnaSpec AnaFacts FloatModel FloatSpec FloatFacts FlSimSpec FlAnaModel FlAnaSpec.
Import ListNotations.
Open Scope R_scope.

Lemma total_perm l l' f : Permutation l l' -> total l f = total l' f.
Proof. induction 1; rewrite ?total_cons; lra. Qed.
Lemma total_le l f g : (forall i j, In (i, j) l -> f i j <= g i j) -> total l f <= total l g.
Proof.
  induction l as [|[i j] l IH]; intros H; [rewrite !total_nil; lra|]. rewrite !total_cons. cbn [fst snd]. pose proof (H i j (or_introl eq_refl)).
  assert (total l f <= total l g) by (apply IH; intros; apply H; right; assumption). lra.
Qed.
Lemma total_abs l f : Rabs (total l f) <= total l (fun i j => Rabs (f i j)).
Proof. induction l as [|[i j] l IH]; [rewrite !total_nil, Rabs_R0; lra|]. rewrite !total_cons. cbn [fst snd]. eapply Rle_trans; [apply Rabs_triang|]. lra. Qed.
Lemma total_const l c : total l (fun _ _ => c) = INR (length l) * c.
Proof. induction l as [|p l IH]; [rewrite total_nil; cbn; ring|]. rewrite total_cons, IH. cbn [length]. rewrite S_INR. ring. Qed.
Lemma total_bound l f M : (forall i j, In (i, j) l -> Rabs (f i j) <= M) -> Rabs (total l f) <= INR (length l) * M.
Proof. intros H. eapply Rle_trans; [apply total_abs|]. rewrite <- total_const. apply total_le. exact H. Qed.
Lemma np_len_pixels t : np_len t = length (pixels t).
Proof. induction t; cbn [np_len pixels]; [reflexivity|]. rewrite app_length. congruence. Qed.
Lemma np_len_pos t : 1 <= INR (np_len t).
Proof. induction t; cbn [np_len]; [cbn; lra|]. rewrite plus_INR. lra. Qed.
Lemma pow_1 u k : 0 <= u -> 1 <= (1 + u) ^ k. Proof. intros. apply pow_R1_Rle. lra. Qed.

Section Sum.
Variables (u eta : R) (B : Z) (r : R -> R).
Hypothesis A : arithmetic u eta B r.
Hypothesis Hu : 0 <= u.
Hypothesis He : 0 <= eta.

Lemma rnd_err x y e : Rabs (x - y) <= e -> Rabs (r x - y) <= e + u * (Rabs y + e) + eta.
Proof.
  intros H. pose proof (ar_error _ _ _ _ A x). replace (r x - y) with ((r x - x) + (x - y)) by ring. eapply Rle_trans; [apply Rabs_triang|].
  assert (Rabs x <= Rabs y + e). { replace x with (y + (x - y)) by ring. eapply Rle_trans; [apply Rabs_triang|]. lra. }
  assert (u * Rabs x <= u * (Rabs y + e)) by (apply Rmult_le_compat_l; assumption). lra.
Qed.
Lemma np_sum_error f t : Rabs (np_sum r f t - total (pixels t) f) <= ((1 + u) ^ depth t - 1) * total (pixels t) (fun i j => Rabs (f i j)) + (1 + u) ^ depth t * ((INR (np_len t) - 1) * eta).
Proof.
  induction t as [i j|x IHx y IHy]; cbn [np_sum pixels depth np_len].
  - rewrite !total_cons, !total_nil. cbn [fst snd pow INR]. replace (f i j - (f i j + 0)) with 0 by ring. rewrite Rabs_R0. lra.
  - rewrite !total_app. set (X := np_sum r f x) in *. set (Y := np_sum r f y) in *. set (tx := total (pixels x) f) in *. set (ty := total (pixels y) f) in *.
    set (ax := total (pixels x) (fun i j => Rabs (f i j))) in *. set (ay := total (pixels y) (fun i j => Rabs (f i j))) in *.
    assert (Hax : Rabs tx <= ax) by apply total_abs. assert (Hay : Rabs ty <= ay) by apply total_abs. pose proof (Rabs_pos tx). pose proof (Rabs_pos ty).
    set (m := Nat.max (depth x) (depth y)). rewrite plus_INR. pose proof (np_len_pos x) as Lx. pose proof (np_len_pos y) as Ly. set (lx := INR (np_len x)) in *. set (ly := INR (np_len y)) in *.
    assert (Px : (1 + u) ^ depth x <= (1 + u) ^ m) by (apply Rle_pow; [lra|apply Nat.le_max_l]). assert (Py : (1 + u) ^ depth y <= (1 + u) ^ m) by (apply Rle_pow; [lra|apply Nat.le_max_r]).
    pose proof (pow_1 u m Hu) as Pm. cbn [pow]. set (g := (1 + u) ^ m) in *.
    assert (Ex : Rabs (X - tx) <= (g - 1) * ax + g * ((lx - 1) * eta)). { eapply Rle_trans; [exact IHx|]. apply Rplus_le_compat; apply Rmult_le_compat_r; try lra. apply Rmult_le_pos; lra. }
    assert (Ey : Rabs (Y - ty) <= (g - 1) * ay + g * ((ly - 1) * eta)). { eapply Rle_trans; [exact IHy|]. apply Rplus_le_compat; apply Rmult_le_compat_r; try lra. apply Rmult_le_pos; lra. }
    assert (S : Rabs (X + Y - (tx + ty)) <= (g - 1) * (ax + ay) + g * ((lx + ly - 2) * eta)). { replace (X + Y - (tx + ty)) with ((X - tx) + (Y - ty)) by ring. eapply Rle_trans; [apply Rabs_triang|]. lra. }
    eapply Rle_trans; [apply rnd_err, S|]. assert (Rabs (tx + ty) <= ax + ay) by (eapply Rle_trans; [apply Rabs_triang|]; lra).
    assert (u * Rabs (tx + ty) <= u * (ax + ay)) by (apply Rmult_le_compat_l; assumption).
    assert (eta <= (1 + u) * g * eta). { assert (1 * 1 <= (1 + u) * g) by (apply Rmult_le_compat; lra). rewrite <- (Rmult_1_l eta) at 1. apply Rmult_le_compat_r; lra. }
    assert (E : forall w, (1 + u) * g * w = (1 + u) * (g * w)) by (intros; ring). lra || nra.
Qed.
End Sum.
Lemma abs_le_add x y e : Rabs (x - y) <= e -> Rabs x <= Rabs y + e.
Proof. intros H. replace x with (y + (x - y)) by ring. eapply Rle_trans; [apply Rabs_triang|]. lra. Qed.
Lemma mult_le x y a b : Rabs x <= a -> Rabs y <= b -> Rabs (x * y) <= a * b.
Proof. intros. rewrite Rabs_mult. apply Rmult_le_compat; auto using Rabs_pos. Qed.

Section Coef.
Variables (u eta : R) (B : Z) (q : numerics).
Hypothesis A : arithmetic u eta B (np q).
Hypothesis Hu : 0 <= u.
Hypothesis He : 0 <= eta.

Lemma coefficient_close t l f fq z zf F E Zm e : Permutation (pixels t) l -> 0 <= e ->
  (forall i j, In (i, j) l -> Rabs (f i j) <= F /\ Rabs (fq i j - f i j) <= E /\ Rabs (z i j) <= Zm /\ Rabs (zf i j - z i j) <= e) ->
  Rabs (fl_coefficient q t fq zf - average l (fun i j => f i j * z i j)) <= E * Zm + coefficient_error u eta (depth t) (F + E) Zm e.
Proof.
  intros P H0 H. unfold fl_coefficient. set (p := fun i j => np q (fq i j * zf i j)). set (N := INR (np_len t)).
  assert (N1 : 1 <= N) by apply np_len_pos. assert (NL : INR (length l) = N). { unfold N. rewrite np_len_pixels. f_equal. symmetry. apply Permutation_length, P. }
  assert (HP : forall i j, In (i, j) (pixels t) -> In (i, j) l) by (intros i j; apply Permutation_in, P).
  set (d := depth t). set (g := (1 + u) ^ d). pose proof (pow_1 u d Hu) as G1. fold g in G1.
  set (Fq := F + E). set (Zq := Zm + e). set (b := (1 + u) * (Fq * Zq) + eta).
  assert (Q : forall i j, In (i, j) (pixels t) -> Rabs (fq i j * zf i j) <= Fq * Zq).
  { intros i j I. destruct (H i j (HP _ _ I)) as (h1 & h2 & h3 & h4). apply mult_le; [pose proof (abs_le_add _ _ _ h2)|pose proof (abs_le_add _ _ _ h4)]; unfold Fq, Zq; lra. }
  assert (Pe : forall i j, In (i, j) (pixels t) -> Rabs (p i j - f i j * z i j) <= E * Zm + Fq * e + u * (Fq * Zq) + eta).
  { intros i j I. pose proof (Q i j I) as Q0. destruct (H i j (HP _ _ I)) as (h1 & h2 & h3 & h4). pose proof (ar_error _ _ _ _ A (fq i j * zf i j)) as R1. fold (p i j) in R1.
    replace (p i j - f i j * z i j) with ((p i j - fq i j * zf i j) + (fq i j * (zf i j - z i j) + (fq i j - f i j) * z i j)) by ring.
    eapply Rle_trans; [apply Rabs_triang|]. pose proof (Rabs_triang (fq i j * (zf i j - z i j)) ((fq i j - f i j) * z i j)).
    assert (Rabs (fq i j * (zf i j - z i j)) <= Fq * e) by (apply mult_le; [pose proof (abs_le_add _ _ _ h2); unfold Fq; lra|exact h4]).
    assert (Rabs ((fq i j - f i j) * z i j) <= E * Zm) by (apply mult_le; assumption).
    assert (u * Rabs (fq i j * zf i j) <= u * (Fq * Zq)) by (apply Rmult_le_compat_l; assumption). lra. }
  assert (Pb : forall i j, In (i, j) (pixels t) -> Rabs (p i j) <= b).
  { intros i j I. pose proof (Q i j I) as Q0. pose proof (ar_error _ _ _ _ A (fq i j * zf i j)) as R1. fold (p i j) in R1. pose proof (abs_le_add _ _ _ R1).
    assert (u * Rabs (fq i j * zf i j) <= u * (Fq * Zq)) by (apply Rmult_le_compat_l; assumption). unfold b. lra. }
  assert (T1 : total (pixels t) (fun i j => Rabs (p i j)) <= N * b). { unfold N. rewrite np_len_pixels, <- total_const. apply total_le. exact Pb. }
  assert (T2 : Rabs (total (pixels t) p - total (pixels t) (fun i j => f i j * z i j)) <= N * (E * Zm + Fq * e + u * (Fq * Zq) + eta)).
  { replace (total (pixels t) p - total (pixels t) (fun i j => f i j * z i j)) with (total (pixels t) (fun i j => 1 * p i j + -1 * (f i j * z i j))) by (rewrite total_lin; ring).
    unfold N. rewrite np_len_pixels. apply total_bound. intros i j I. replace (1 * p i j + -1 * (f i j * z i j)) with (p i j - f i j * z i j) by ring. apply Pe, I. }
  pose proof (np_sum_error u eta B (np q) A Hu He p t) as T3. fold d g in T3. fold N in T3.
  set (Sm := np_sum (np q) p t) in *. set (Tp := total (pixels t) p) in *.
  assert (S1 : Rabs (Sm - Tp) <= N * ((g - 1) * b + g * eta)).
  { eapply Rle_trans; [exact T3|]. assert ((g - 1) * total (pixels t) (fun i j => Rabs (p i j)) <= (g - 1) * (N * b)) by (apply Rmult_le_compat_l; lra).
    assert (g * ((N - 1) * eta) <= g * (N * eta)). { apply Rmult_le_compat_l; [lra|]. apply Rmult_le_compat_r; lra. } lra. }
  assert (S2 : Rabs Tp <= N * b). { unfold N. rewrite np_len_pixels. apply total_bound. exact Pb. }
  unfold average. rewrite NL, <- (total_perm _ _ _ P). set (Tx := total (pixels t) (fun i j => f i j * z i j)) in *.
  assert (N0 : 0 < N) by lra.
  assert (Dv : forall x M, Rabs x <= N * M -> Rabs (x / N) <= M).
  { intros x M Hx. unfold Rdiv. rewrite Rabs_mult, (Rabs_pos_eq (/ N)) by (apply Rlt_le, Rinv_0_lt_compat, N0). apply (Rmult_le_reg_l N); [exact N0|]. replace (N * (Rabs x * / N)) with (Rabs x) by (field; lra). exact Hx. }
  apply Dv in S1, S2, T2.
  assert (S3 : Rabs (Sm / N - Tp / N) <= (g - 1) * b + g * eta) by (replace (Sm / N - Tp / N) with ((Sm - Tp) / N) by (field; lra); exact S1).
  pose proof (rnd_err u eta B (np q) A Hu _ _ _ S3) as S4.
  replace (np q (Sm / N) - Tx / N) with ((np q (Sm / N) - Tp / N) + (Tp - Tx) / N) by (field; lra). eapply Rle_trans; [apply Rabs_triang|].
  assert (u * (Rabs (Tp / N) + ((g - 1) * b + g * eta)) <= u * (b + ((g - 1) * b + g * eta))) by (apply Rmult_le_compat_l; lra).
  unfold coefficient_error. fold d Fq Zq. rewrite !pow_add. fold g. cbn [pow]. unfold b in *.
  assert (0 <= u * g) by (apply Rmult_le_pos; lra). assert (K1 : 1 <= (1 + u) * g) by nra.
  assert (1 * eta <= (1 + u) * g * eta) by (apply Rmult_le_compat_r; lra). nra.
Qed.
End Coef.

(** ** c * z, the remainder and the reconstruction *)
Section Terms.
Variables (u eta v theta : R) (B B' : Z) (q : numerics).
Hypothesis A : arithmetic u eta B (np q).
Hypothesis A' : arithmetic v theta B' (sc q).
Hypothesis Hu : 0 <= u.
Hypothesis He : 0 <= eta.
Hypothesis Hv : 0 <= v.
Hypothesis Ht : 0 <= theta.

Lemma term_close c cf (z zf : nat -> nat -> R) K ec Zm e i j : 0 <= e -> Rabs c <= K -> Rabs (cf - c) <= ec -> Rabs (z i j) <= Zm -> Rabs (zf i j - z i j) <= e ->
  Rabs (fl_term q cf zf i j - c * z i j) <= term_error v theta K ec Zm e.
Proof.
  intros H0 HK Hc Hz Hf. unfold fl_term. set (y := z i j) in *. set (w := zf i j) in *. pose proof (abs_le_add _ _ _ Hc) as Bc. pose proof (abs_le_add _ _ _ Hf) as Bw.
  pose proof (ar_error _ _ _ _ A' cf) as R1. assert (R2 : Rabs (sc q cf - cf) <= v * (K + ec) + theta). { assert (v * Rabs cf <= v * (K + ec)) by (apply Rmult_le_compat_l; lra). lra. }
  assert (Bs : Rabs (sc q cf) <= (1 + v) * (K + ec) + theta). { pose proof (abs_le_add _ _ _ R2). lra. }
  pose proof (ar_error _ _ _ _ A' (sc q cf * w)) as R3. assert (Bp : Rabs (sc q cf * w) <= ((1 + v) * (K + ec) + theta) * (Zm + e)) by (apply mult_le; lra).
  assert (v * Rabs (sc q cf * w) <= v * (((1 + v) * (K + ec) + theta) * (Zm + e))) by (apply Rmult_le_compat_l; assumption).
  replace (sc q (sc q cf * w) - c * y) with ((sc q (sc q cf * w) - sc q cf * w) + ((sc q cf - cf) * w + ((cf - c) * w + c * (w - y)))) by ring.
  eapply Rle_trans; [apply Rabs_triang|]. pose proof (Rabs_triang ((sc q cf - cf) * w) ((cf - c) * w + c * (w - y))). pose proof (Rabs_triang ((cf - c) * w) (c * (w - y))).
  assert (Rabs ((sc q cf - cf) * w) <= (v * (K + ec) + theta) * (Zm + e)) by (apply mult_le; lra).
  assert (Rabs ((cf - c) * w) <= ec * (Zm + e)) by (apply mult_le; lra). assert (Rabs (c * (w - y)) <= K * e) by (apply mult_le; lra).
  unfold term_error. cbn [pow]. nra.
Qed.
Lemma average_bound l f M : l <> [] -> (forall i j, In (i, j) l -> Rabs (f i j) <= M) -> Rabs (average l f) <= M.
Proof.
  intros NE H. pose proof (total_bound l f M H) as T. assert (N0 : 0 < INR (length l)) by (destruct l; [contradiction|cbn [length]; apply lt_0_INR; lia]).
  unfold average, Rdiv. rewrite Rabs_mult, (Rabs_pos_eq (/ _)) by (apply Rlt_le, Rinv_0_lt_compat, N0). apply (Rmult_le_reg_l (INR (length l))); [exact N0|].
  replace (INR (length l) * (Rabs (total l f) * / INR (length l))) with (Rabs (total l f)) by (field; lra). exact T.
Qed.
(** One term removed; dl bounds all the small numbers. *)
Lemma remove_one t l (G : nat -> nat -> Prop) f fq z zf F E e dl : Permutation (pixels t) l -> l <> [] -> (forall i j, In (i, j) l -> G i j) ->
  0 <= e -> 0 < F -> 0 <= dl <= 1 / 1000 -> e <= dl -> u <= dl -> v <= dl -> (1 + u) ^ (depth t + 2) - 1 <= dl -> eta <= dl * F -> theta <= dl * F -> 0 <= E <= F / 10 ->
  (forall i j, G i j -> Rabs (f i j) <= F /\ Rabs (fq i j - f i j) <= E /\ Rabs (z i j) <= 2 /\ Rabs (zf i j - z i j) <= e) ->
  forall i j, G i j -> let c := average l (fun i j => f i j * z i j) in
  Rabs (f i j - c * z i j) <= 5 * F /\ Rabs (fl_sub_mode q fq (fl_coefficient q t fq zf) zf i j - (f i j - c * z i j)) <= 5.1 * E + 34 * dl * F.
Proof.
  intros P NE LG H0 HF Hd Hed Hud Hvd Hg Het Htt HE H i j Gij c.
  assert (C := coefficient_close u eta B q A Hu He t l f fq z zf F E 2 e P H0). assert (HL : forall i j, In (i, j) l -> Rabs (f i j) <= F /\ Rabs (fq i j - f i j) <= E /\ Rabs (z i j) <= 2 /\ Rabs (zf i j - z i j) <= e) by (intros; apply H, LG; assumption).
  specialize (C HL). fold c in C. set (cf := fl_coefficient q t fq zf) in *.
  assert (Bc : Rabs c <= F * 2). { apply average_bound; [exact NE|]. intros i0 j0 I. destruct (HL i0 j0 I) as (a1 & _ & a3 & _). apply mult_le; assumption. }
  set (ec := E * 2 + coefficient_error u eta (depth t) (F + E) 2 e) in *.
  assert (dF : 0 <= dl * F) by (apply Rmult_le_pos; lra).
  assert (Ec : ec <= 2 * E + 6.5 * dl * F).
  { unfold ec, coefficient_error. set (k := (1 + u) ^ (depth t + 2) - 1) in *. assert (k0 : 0 <= k) by (pose proof (pow_1 u (depth t + 2) Hu); unfold k; lra).
    assert (g1 : (1 + u) ^ (depth t + 1) <= 1 + dl). { assert ((1 + u) ^ (depth t + 1) <= (1 + u) ^ (depth t + 2)) by (apply Rle_pow; [lra|lia]). unfold k in Hg. lra. } pose proof (pow_1 u (depth t + 1) Hu).
    assert (x1 : (F + E) * e <= 1.1 * F * dl). { apply Rmult_le_compat; lra. }
    assert (x2 : k * ((F + E) * (2 + e)) <= dl * (1.1 * F * 2.001)). { apply Rmult_le_compat; [exact k0| |exact Hg|apply Rmult_le_compat; lra]. apply Rmult_le_pos; lra. }
    assert (x3 : (1 + u) ^ (depth t + 1) * eta <= 1.001 * (dl * F)). { apply Rmult_le_compat; lra. } lra. }
  assert (ec0 : 0 <= ec) by (eapply Rle_trans; [apply Rabs_pos|exact C]).
  destruct (H i j Gij) as (h1 & h2 & h3 & h4).
  assert (T := term_close c cf z zf (F * 2) ec 2 e i j H0 Bc C h3 h4). set (w := fl_term q cf zf i j) in *.
  assert (dd : dl * F <= F / 1000) by (assert (dl * F <= 1 / 1000 * F) by (apply Rmult_le_compat_r; lra); lra).
  assert (Te : term_error v theta (F * 2) ec 2 e <= 27.5 * dl * F + 4.02 * E).
  { unfold term_error. assert (y1 : ((1 + v) ^ 2 - 1) <= 2.001 * dl) by (cbn [pow]; nra). assert (y0 : 0 <= (1 + v) ^ 2 - 1) by (cbn [pow]; nra).
    assert (y2 : (F * 2 + ec) * (2 + e) <= 2.3 * F * 2.001) by (apply Rmult_le_compat; lra).
    assert (y3 : ((1 + v) ^ 2 - 1) * ((F * 2 + ec) * (2 + e)) <= 2.001 * dl * (2.3 * F * 2.001)) by (apply Rmult_le_compat; [exact y0|apply Rmult_le_pos; lra|exact y1|exact y2]).
    assert (y4 : (1 + v) * (2 + e) <= 1.001 * 2.001) by (apply Rmult_le_compat; lra).
    assert (y5 : theta * ((1 + v) * (2 + e) + 1) <= dl * F * (1.001 * 2.001 + 1)). { apply Rmult_le_compat; [exact Ht| |exact Htt|lra]. assert (0 <= (1 + v) * (2 + e)) by (apply Rmult_le_pos; lra). lra. }
    assert (y6 : ec * (2 + e) <= (2 * E + 6.5 * dl * F) * 2.001) by (apply Rmult_le_compat; lra).
    assert (y7 : F * 2 * e <= F * 2 * dl) by (apply Rmult_le_compat_l; lra). lra. }
  assert (Bz : Rabs (c * z i j) <= F * 2 * 2) by (apply mult_le; assumption).
  assert (Bx : Rabs (f i j - c * z i j) <= 5 * F). { replace (f i j - c * z i j) with (f i j + - (c * z i j)) by ring. eapply Rle_trans; [apply Rabs_triang|]. rewrite Rabs_Ropp. lra. }
  split; [exact Bx|]. unfold fl_sub_mode. fold w.
  assert (D : Rabs (fq i j - w - (f i j - c * z i j)) <= E + (27.5 * dl * F + 4.02 * E)).
  { replace (fq i j - w - (f i j - c * z i j)) with ((fq i j - f i j) + - (w - c * z i j)) by ring. eapply Rle_trans; [apply Rabs_triang|]. rewrite Rabs_Ropp. lra. }
  eapply Rle_trans; [apply (rnd_err u eta B (np q) A Hu _ _ _ D)|].
  assert (u * (Rabs (f i j - c * z i j) + (E + (27.5 * dl * F + 4.02 * E))) <= dl * (5 * F + (E + (27.5 * dl * F + 4.02 * E)))).
  { apply Rmult_le_compat; try lra. pose proof (Rabs_pos (f i j - c * z i j)). lra. }
  assert (dl * E <= 1 / 1000 * E) by (apply Rmult_le_compat_r; lra). assert (dl * (dl * F) <= 1 / 1000 * (dl * F)) by (apply Rmult_le_compat_r; lra). lra.
Qed.
End Terms.
