(** Relative errors of the image-plane coordinates. *)
From Coq Require Import Reals Lra Lia ZArith Arith List.
From Verif Require Import Cx PyBase ProfileModel SlmModel LibModel DmdModel SimModel SimSpec GridFacts FloatModel FloatSpec FloatFacts FlGridModel FlGridSpec.
Open Scope R_scope.

Definition rel (e x y : R) : Prop := Rabs (x - y) <= e * Rabs y.
Lemma rel_size e x y : rel e x y -> Rabs x <= (1 + e) * Rabs y /\ (1 - e) * Rabs y <= Rabs x.
Proof.
  unfold rel. intros H. assert (A : Rabs x <= Rabs (x - y) + Rabs y) by (replace x with (x - y + y) at 1 by ring; apply Rabs_triang).
  assert (Bd : Rabs y <= Rabs (x - y) + Rabs x). { replace y with (- (x - y) + x) at 1 by ring. eapply Rle_trans; [apply Rabs_triang|]. rewrite Rabs_Ropp. lra. }
  lra.
Qed.
Lemma rel_trans e d x y z c : 0 <= e -> rel e x y -> rel d y z -> e + d + e * d <= c -> rel c x z.
Proof.
  intros He H H' L. destruct (rel_size _ _ _ H') as [S1 _]. unfold rel in *. assert (Z := Rabs_pos z).
  replace (x - z) with ((x - y) + (y - z)) by ring. eapply Rle_trans; [apply Rabs_triang|].
  assert (e * Rabs y <= e * ((1 + d) * Rabs z)) by (apply Rmult_le_compat_l; assumption).
  assert ((e + d + e * d) * Rabs z <= c * Rabs z) by (apply Rmult_le_compat_r; assumption). lra.
Qed.
Lemma rel_scale e x y k : rel e x y -> rel e (x * k) (y * k).
Proof. unfold rel. intros H. replace (x * k - y * k) with ((x - y) * k) by ring. rewrite !Rabs_mult. assert (K := Rabs_pos k). nra. Qed.
Lemma rel_mult e d x y z w c : 0 <= e -> 0 <= d -> rel e x y -> rel d z w -> e + d + e * d <= c -> rel c (x * z) (y * w).
Proof.
  intros He Hd H H' L. apply (rel_trans e d _ (y * z)); [exact He|apply rel_scale; exact H| |exact L].
  rewrite (Rmult_comm y z), (Rmult_comm y w). apply rel_scale, H'.
Qed.
Lemma rel_inv e x y c : 0 <= e <= / 2 -> y <> 0 -> rel e x y -> e * (1 + 2 * e) <= c -> rel c (1 / x) (1 / y).
Proof.
  intros He Hy H L. destruct (rel_size _ _ _ H) as [_ S2]. unfold rel in *. assert (Y := Rabs_pos_lt y Hy).
  assert (X : 0 < Rabs x) by nra. assert (Hx : x <> 0) by (intros ->; rewrite Rabs_R0 in X; lra).
  replace (1 / x - 1 / y) with (- ((x - y) * (/ x * / y))) by (field; split; assumption). rewrite Rabs_Ropp, !Rabs_mult.
  replace (Rabs (1 / y)) with (Rabs (/ y)) by (f_equal; unfold Rdiv; ring). rewrite !Rabs_inv.
  assert (I : / Rabs x * ((1 - e) * Rabs y) <= 1).
  { apply Rmult_le_reg_l with (Rabs x); [exact X|]. rewrite <- Rmult_assoc, Rinv_r, Rmult_1_l, Rmult_1_r by lra. exact S2. }
  assert (P : 0 < / Rabs x) by (apply Rinv_0_lt_compat; exact X).
  assert (Q : 0 < / Rabs y) by (apply Rinv_0_lt_compat; exact Y).
  rewrite <- Rmult_assoc. apply Rmult_le_compat_r; [lra|].
  apply Rle_trans with (e * Rabs y * / Rabs x); [apply Rmult_le_compat_r; lra|].
  apply Rle_trans with (e * (1 + 2 * e)); [|exact L]. rewrite Rmult_assoc. apply Rmult_le_compat_l; [lra|].
  assert (T : 0 < / Rabs x * Rabs y) by (apply Rmult_lt_0_compat; assumption). set (q := / Rabs x * Rabs y) in *.
  assert (I' : q * (1 - e) <= 1) by (unfold q; lra). rewrite (Rmult_comm (Rabs y)). fold q. clearbody q. clear - I' He T.
  assert (1 <= (1 + 2 * e) * (1 - e)) by nra. nra.
Qed.
Lemma rel_round f u eta B x m c : arithmetic u eta B f -> eta <= u ^ 2 * m -> m <= Rabs x -> u + u ^ 2 <= c -> rel c (f x) x.
Proof.
  intros H E M L. unfold rel. eapply Rle_trans; [apply (ar_error _ _ _ _ H)|]. assert (X := Rabs_pos x).
  assert (u ^ 2 * m <= u ^ 2 * Rabs x) by (apply Rmult_le_compat_l; [apply pow2_ge_0|exact M]). nra.
Qed.

Section Coordinate.
Variables (a : fpu) (u eta u' eta' : R) (B B' : Z).
Hypotheses (H : arithmetic u eta B (rnd a)) (H' : arithmetic u' eta' B' (dbl a)) (HB : (2 ^ 22 <= B)%Z) (HB' : (2 ^ 22 <= B')%Z) (Hu : 0 <= u <= / 2 ^ 24) (Hu' : 0 <= u' <= / 2 ^ 24).
(** The coordinate with frequency index k. *)
Definition coord (n : nat) (ps sf : R) (k : Z) : R :=
  rnd a (rnd a (dbl a (dbl a (IZR k) * dbl a (1 / dbl a (dbl a (INR n) * ps)))) * rnd a sf).
Lemma rnd0 : rnd a 0 = 0. Proof. apply (fl_0 _ _ _ _ H). lia. Qed.
Lemma dbl0 : dbl a 0 = 0. Proof. apply (fl_0 _ _ _ _ H'). lia. Qed.
Lemma coord_odd n ps sf k : coord n ps sf (- k) = - coord n ps sf k.
Proof.
  unfold coord. rewrite opp_IZR, (ar_odd _ _ _ _ H' (IZR k)), <- Ropp_mult_distr_l, (ar_odd _ _ _ _ H'), (ar_odd _ _ _ _ H), <- Ropp_mult_distr_l, (ar_odd _ _ _ _ H). reflexivity.
Qed.
Lemma coord_0 n ps sf : coord n ps sf 0 = 0.
Proof. unfold coord. rewrite dbl0, Rmult_0_l, dbl0, rnd0, Rmult_0_l, rnd0. reflexivity. Qed.
Lemma coord_rel n ps wl : (0 < n)%nat -> (Z.of_nat n <= 2 ^ 20)%Z -> 0 < ps -> 0 < wl -> no_underflow u eta u' eta' n ps wl ->
  forall k, (Z.abs k <= 2 ^ 20)%Z -> rel (301 / 100 * u + 401 / 100 * u') (coord n ps (dbl a wl) k) (IZR k * wl / (INR n * ps)).
Proof.
  intros Hn Hn' Hp Hw (U1 & U2 & U3 & U4 & U5 & U6) k Hk.
  destruct (Z.eq_dec k 0) as [-> |K0].
  { rewrite coord_0. unfold rel, Rdiv. rewrite !Rmult_0_l, Rminus_0_r, Rabs_R0. lra. }
  assert (N1 : 1 <= INR n) by (change 1 with (INR 1); apply le_INR; lia).
  assert (K1 : 1 <= Rabs (IZR k)) by (rewrite <- abs_IZR; apply IZR_le; lia).
  assert (F1 : dbl a (INR n) = INR n) by (rewrite INR_IZR_INZ; apply (fl_int _ _ _ _ H'); lia).
  assert (F2 : dbl a (IZR k) = IZR k) by (apply (fl_int _ _ _ _ H'); lia).
  unfold coord. rewrite F1, F2. set (d := INR n * ps) in *. assert (Hd : ps <= d) by (unfold d; nra). clearbody d.
  assert (Id : 0 < 1 / d) by (apply Rdiv_lt_0_compat; lra).
  assert (E24 : / 2 ^ 24 <= 1 / 1000000) by lra.
  assert (V : 0 <= u' <= 1 / 1000000) by lra. assert (W : 0 <= u <= 1 / 1000000) by lra.
  assert (V2 : u' ^ 2 <= u' / 1000000) by nra. assert (W2 : u ^ 2 <= u / 1000000) by nra.
  assert (UV : u * u' <= u' / 1000000) by nra. assert (V2p := pow2_ge_0 u'). assert (W2p := pow2_ge_0 u). assert (UVp : 0 <= u * u') by nra.
  clear Hu Hu' E24.
  (* n * d *)
  assert (R1 : rel (1001 / 1000 * u') (dbl a d) d) by (apply (rel_round _ _ _ _ _ ps _ H' U1); [rewrite Rabs_pos_eq; lra|lra]).
  (* 1.0 / (n * d) *)
  assert (R2 : rel (1002 / 1000 * u') (1 / dbl a d) (1 / d)) by (apply (rel_inv (1001 / 1000 * u')); [lra|lra|exact R1|nra]).
  destruct (rel_size _ _ _ R2) as [_ S2]. rewrite (Rabs_pos_eq (1 / d)) in S2 by lra.
  assert (R3 : rel (1001 / 1000 * u') (dbl a (1 / dbl a d)) (1 / dbl a d)) by (apply (rel_round _ _ _ _ _ _ _ H' U3); [nra|lra]).
  assert (R4 : rel (2004 / 1000 * u') (dbl a (1 / dbl a d)) (1 / d)) by (apply (rel_trans (1001 / 1000 * u') (1002 / 1000 * u') _ _ _ _ ltac:(lra) R3 R2); nra).
  set (v := dbl a (1 / dbl a d)) in *. clearbody v.
  (* k * val *)
  assert (R5 := rel_scale _ _ _ (IZR k) R4). rewrite !(Rmult_comm _ (IZR k)) in R5.
  assert (Kd : 1 / d <= Rabs (IZR k * (1 / d))) by (rewrite Rabs_mult, (Rabs_pos_eq (1 / d)) by lra; nra).
  destruct (rel_size _ _ _ R5) as [_ S5].
  assert (R6 : rel (1001 / 1000 * u') (dbl a (IZR k * v)) (IZR k * v)) by (apply (rel_round _ _ _ _ _ _ _ H' U3); [nra|lra]).
  assert (R7 : rel (3006 / 1000 * u') (dbl a (IZR k * v)) (IZR k * (1 / d))) by (apply (rel_trans (1001 / 1000 * u') (2004 / 1000 * u') _ _ _ _ ltac:(lra) R6 R5); nra).
  set (q := dbl a (IZR k * v)) in *. clearbody q. destruct (rel_size _ _ _ R7) as [_ S7].
  (* cast *)
  assert (R8 : rel (1001 / 1000 * u) (rnd a q) q) by (apply (rel_round _ _ _ _ _ _ _ H U5); [nra|lra]).
  assert (R9 : rel (1001 / 1000 * u + 3007 / 1000 * u') (rnd a q) (IZR k * (1 / d))) by (apply (rel_trans (1001 / 1000 * u) (3006 / 1000 * u') _ _ _ _ ltac:(lra) R8 R7); nra).
  set (p := rnd a q) in *. clearbody p. destruct (rel_size _ _ _ R9) as [_ S9].
  (* scaling factor *)
  assert (R10 : rel (1001 / 1000 * u') (dbl a wl) wl) by (apply (rel_round _ _ _ _ _ _ _ H' U2); [rewrite Rabs_pos_eq; lra|lra]).
  destruct (rel_size _ _ _ R10) as [_ S10]. rewrite (Rabs_pos_eq wl) in S10 by lra.
  assert (R11 : rel (1001 / 1000 * u) (rnd a (dbl a wl)) (dbl a wl)) by (apply (rel_round _ _ _ _ _ _ _ H U4); [nra|lra]).
  assert (R12 : rel (1001 / 1000 * u + 1002 / 1000 * u') (rnd a (dbl a wl)) wl) by (apply (rel_trans (1001 / 1000 * u) (1001 / 1000 * u') _ _ _ _ ltac:(lra) R11 R10); nra).
  set (s := rnd a (dbl a wl)) in *. clearbody s. destruct (rel_size _ _ _ R12) as [_ S12]. rewrite (Rabs_pos_eq wl) in S12 by lra.
  assert (R13 : rel (2003 / 1000 * u + 40095 / 10000 * u') (p * s) (IZR k * (1 / d) * wl)) by (apply (rel_mult (1001 / 1000 * u + 3007 / 1000 * u') (1001 / 1000 * u + 1002 / 1000 * u') _ _ _ _ _ ltac:(lra) ltac:(lra) R9 R12); nra).
  destruct (rel_size _ _ _ R13) as [_ S13].
  assert (L13 : wl / d <= Rabs (IZR k * (1 / d) * wl)).
  { rewrite Rabs_mult, (Rabs_pos_eq wl) by lra. replace (wl / d) with (1 / d * wl) by (field; lra). apply Rmult_le_compat_r; lra. }
  assert (P0 : 0 < wl / d) by (apply Rdiv_lt_0_compat; lra).
  assert (R14 : rel (1001 / 1000 * u) (rnd a (p * s)) (p * s)) by (apply (rel_round _ _ _ _ _ _ _ H U6); [nra|lra]).
  replace (IZR k * wl / d) with (IZR k * (1 / d) * wl) by (field; lra).
  apply (rel_trans (1001 / 1000 * u) (2003 / 1000 * u + 40095 / 10000 * u') _ _ _ _ ltac:(lra) R14 R13). nra.
Qed.
End Coordinate.
