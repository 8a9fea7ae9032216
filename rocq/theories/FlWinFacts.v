(** Windows after rounding. *)
From Coq Require Import Reals Lra Lia ZArith Arith List.
From Flocq Require Import Core.Raux.
From Verif Require Import Cx PyBase ProfileModel SlmModel LibModel DmdModel SimModel SimSpec GridFacts FloatModel FloatSpec FloatFacts FlGridModel FlGridSpec FlGridFacts FlGridFacts2.
Open Scope R_scope.

Section Win.
Variables (a : fpu) (u eta : R) (B : Z).
Hypotheses (H : arithmetic u eta B (rnd a)) (HB : (2 ^ 22 <= B)%Z) (Hu : 0 <= u <= / 2 ^ 24) (He : 0 <= eta <= 1).
Lemma diff_error x' x x0 : Rabs (x' - x) <= 8 * u * Rabs x ->
  Rabs (rnd a (x' - rnd a x0) - (x - x0)) <= u * (92 / 10 * Rabs x + 22 / 10 * Rabs x0) + 21 / 10 * eta.
Proof.
  intros E. assert (E0 := ar_error _ _ _ _ H x0). assert (E1 := ar_error _ _ _ _ H (x' - rnd a x0)).
  assert (X := Rabs_pos x). assert (X0 := Rabs_pos x0). set (c := rnd a x0) in *. clearbody c.
  assert (D : Rabs (x' - c - (x - x0)) <= 8 * u * Rabs x + u * Rabs x0 + eta).
  { replace (x' - c - (x - x0)) with ((x' - x) + - (c - x0)) by ring. eapply Rle_trans; [apply Rabs_triang|]. rewrite Rabs_Ropp. lra. }
  assert (M : Rabs (x' - c) <= 1.01 * Rabs x + 1.01 * Rabs x0 + eta).
  { replace (x' - c) with ((x' - c - (x - x0)) + (x - x0)) by ring. eapply Rle_trans; [apply Rabs_triang|].
    assert (Rabs (x - x0) <= Rabs x + Rabs x0) by (eapply Rle_trans; [apply Rabs_triang|]; rewrite Rabs_Ropp; lra).
    assert (u * Rabs x <= / 2 ^ 24 * Rabs x) by (apply Rmult_le_compat_r; lra). assert (u * Rabs x0 <= / 2 ^ 24 * Rabs x0) by (apply Rmult_le_compat_r; lra). lra. }
  replace (rnd a (x' - c) - (x - x0)) with ((rnd a (x' - c) - (x' - c)) + (x' - c - (x - x0))) by ring. eapply Rle_trans; [apply Rabs_triang|].
  assert (u * Rabs (x' - c) <= u * (1.01 * Rabs x + 1.01 * Rabs x0 + eta)) by (apply Rmult_le_compat_l; lra).
  assert (u * eta <= / 2 ^ 24 * eta) by (apply Rmult_le_compat_r; lra).
  assert (0 <= u * Rabs x) by (apply Rmult_le_pos; lra). assert (0 <= u * Rabs x0) by (apply Rmult_le_pos; lra). lra.
Qed.
Lemma half_width_error w : Rabs (rnd a (rnd a w / 2) - w / 2) <= 11 / 10 * u * Rabs w + 16 / 10 * eta.
Proof.
  assert (E0 := ar_error _ _ _ _ H w). assert (E1 := ar_error _ _ _ _ H (rnd a w / 2)). assert (X := Rabs_pos w). set (c := rnd a w) in *. clearbody c.
  assert (M : Rabs c <= 1.01 * Rabs w + eta).
  { replace c with ((c - w) + w) by ring. eapply Rle_trans; [apply Rabs_triang|]. assert (u * Rabs w <= / 2 ^ 24 * Rabs w) by (apply Rmult_le_compat_r; lra). lra. }
  replace (rnd a (c / 2) - w / 2) with ((rnd a (c / 2) - c / 2) + (c - w) * / 2) by (unfold Rdiv; ring). eapply Rle_trans; [apply Rabs_triang|].
  unfold Rdiv in E1 |- *. rewrite Rabs_mult, (Rabs_pos_eq (/ 2)) in E1 |- * by lra.
  assert (u * (Rabs c * / 2) <= u * ((1.01 * Rabs w + eta) * / 2)) by (apply Rmult_le_compat_l; lra).
  assert (u * eta <= / 2 ^ 24 * eta) by (apply Rmult_le_compat_r; lra). assert (0 <= u * Rabs w) by (apply Rmult_le_pos; lra). lra.
Qed.
Lemma axis_in x' x x0 w : Rabs (x' - x) <= 8 * u * Rabs x -> Rabs (x - x0) + edge u eta x x0 w < w / 2 -> Rltb (Rabs (rnd a (x' - rnd a x0))) (rnd a (rnd a w / 2)) = true.
Proof.
  intros E I. assert (D := diff_error x' x x0 E). assert (Wd := half_width_error w). unfold Rltb. destruct (Rlt_dec _ _) as [|N]; [reflexivity|exfalso; apply N; clear N].
  assert (T : Rabs (rnd a (x' - rnd a x0)) <= Rabs (rnd a (x' - rnd a x0) - (x - x0)) + Rabs (x - x0)).
  { replace (rnd a (x' - rnd a x0)) with ((rnd a (x' - rnd a x0) - (x - x0)) + (x - x0)) at 1 by ring. apply Rabs_triang. }
  apply Rabs_le_inv in Wd. unfold edge in I.
  assert (0 <= u * Rabs x) by (apply Rmult_le_pos; [lra|apply Rabs_pos]). assert (0 <= u * Rabs x0) by (apply Rmult_le_pos; [lra|apply Rabs_pos]).
  assert (0 <= u * Rabs w) by (apply Rmult_le_pos; [lra|apply Rabs_pos]). lra.
Qed.
Lemma axis_out x' x x0 w : Rabs (x' - x) <= 8 * u * Rabs x -> w / 2 + edge u eta x x0 w <= Rabs (x - x0) -> Rltb (Rabs (rnd a (x' - rnd a x0))) (rnd a (rnd a w / 2)) = false.
Proof.
  intros E I. assert (D := diff_error x' x x0 E). assert (Wd := half_width_error w). unfold Rltb. destruct (Rlt_dec _ _) as [N|]; [exfalso|reflexivity].
  assert (T : Rabs (x - x0) <= Rabs (rnd a (x' - rnd a x0) - (x - x0)) + Rabs (rnd a (x' - rnd a x0))).
  { replace (x - x0) with (- (rnd a (x' - rnd a x0) - (x - x0)) + rnd a (x' - rnd a x0)) at 1 by ring. eapply Rle_trans; [apply Rabs_triang|]. rewrite Rabs_Ropp. lra. }
  apply Rabs_le_inv in Wd. unfold edge in I.
  assert (0 <= u * Rabs x) by (apply Rmult_le_pos; [lra|apply Rabs_pos]). assert (0 <= u * Rabs x0) by (apply Rmult_le_pos; [lra|apply Rabs_pos]).
  assert (0 <= u * Rabs w) by (apply Rmult_le_pos; [lra|apply Rabs_pos]). lra.
Qed.
Lemma r0 : rnd a 0 = 0. Proof. apply (fl_0 _ _ _ _ H). lia. Qed.
Lemma r1 : rnd a 1 = 1. Proof. apply (fl_1 _ _ _ _ H). lia. Qed.
Lemma rect_bool x0 y0 wx wy x y : fl_rect_value a x0 y0 wx wy x y = if andb (Rltb (Rabs (rnd a (x - rnd a x0))) (rnd a (rnd a wx / 2))) (Rltb (Rabs (rnd a (y - rnd a y0))) (rnd a (rnd a wy / 2))) then 1 else 0.
Proof.
  unfold fl_rect_value. destruct (Rltb _ _), (Rltb _ _); cbn [ind andb]; rewrite ?Rmult_1_r, ?Rmult_0_r, ?Rmult_0_l; apply r0 || apply r1.
Qed.
Lemma rect_in x0 y0 wx wy x' y' x y : Rabs (x' - x) <= 8 * u * Rabs x -> Rabs (y' - y) <= 8 * u * Rabs y ->
  Rabs (x - x0) + edge u eta x x0 wx < wx / 2 -> Rabs (y - y0) + edge u eta y y0 wy < wy / 2 -> fl_rect_value a x0 y0 wx wy x' y' = 1.
Proof. intros Ex Ey Ix Iy. rewrite rect_bool, (axis_in x' x x0 wx Ex Ix), (axis_in y' y y0 wy Ey Iy). reflexivity. Qed.
Lemma rect_out x0 y0 wx wy x' y' x y : Rabs (x' - x) <= 8 * u * Rabs x -> Rabs (y' - y) <= 8 * u * Rabs y ->
  wx / 2 + edge u eta x x0 wx <= Rabs (x - x0) \/ wy / 2 + edge u eta y y0 wy <= Rabs (y - y0) -> fl_rect_value a x0 y0 wx wy x' y' = 0.
Proof.
  intros Ex Ey [O|O]; rewrite rect_bool; [rewrite (axis_out x' x x0 wx Ex O)|rewrite (axis_out y' y y0 wy Ey O), Bool.andb_false_r]; reflexivity.
Qed.
Lemma rect_nested x0 y0 wx wy wx' wy' x y : wx <= wx' -> wy <= wy' -> fl_rect_value a x0 y0 wx wy x y <= fl_rect_value a x0 y0 wx' wy' x y.
Proof.
  intros Lx Ly. rewrite !rect_bool.
  assert (M : forall w w', w <= w' -> rnd a (rnd a w / 2) <= rnd a (rnd a w' / 2)).
  { intros w w' L. apply (ar_monotone _ _ _ _ H). assert (rnd a w <= rnd a w') by (apply (ar_monotone _ _ _ _ H); exact L). lra. }
  assert (Mx := M _ _ Lx). assert (My := M _ _ Ly). unfold Rltb. repeat destruct (Rlt_dec _ _); cbn [andb]; lra.
Qed.
Lemma rect_empty x0 y0 wx wy x y : wx <= 0 \/ wy <= 0 -> fl_rect_value a x0 y0 wx wy x y = 0.
Proof.
  assert (M : forall w t, w <= 0 -> Rltb (Rabs t) (rnd a (rnd a w / 2)) = false).
  { intros w t L. unfold Rltb. destruct (Rlt_dec _ _) as [N|]; [exfalso|reflexivity]. assert (T := Rabs_pos t).
    assert (rnd a w <= rnd a 0) by (apply (ar_monotone _ _ _ _ H); exact L). rewrite r0 in H0.
    assert (rnd a (rnd a w / 2) <= rnd a 0) by (apply (ar_monotone _ _ _ _ H); lra). rewrite r0 in H1. lra. }
  intros [L|L]; rewrite rect_bool; [rewrite (M wx _ L)|rewrite (M wy _ L), Bool.andb_false_r]; reflexivity.
Qed.
(** Squares of rounded differences against the rounded square of the radius. *)
Definition sq (p q : R) : R := rnd a (rnd a (p ^ 2) + rnd a (q ^ 2)).
Lemma sq_error p q : Rabs (sq p q - (p ^ 2 + q ^ 2)) <= 21 / 10 * u * (p ^ 2 + q ^ 2) + 31 / 10 * eta.
Proof.
  unfold sq. assert (Ep := ar_error _ _ _ _ H (p ^ 2)). assert (Eq := ar_error _ _ _ _ H (q ^ 2)). assert (E := ar_error _ _ _ _ H (rnd a (p ^ 2) + rnd a (q ^ 2))).
  assert (P := pow2_ge_0 p). assert (Q := pow2_ge_0 q). rewrite (Rabs_pos_eq (p ^ 2)) in Ep by lra. rewrite (Rabs_pos_eq (q ^ 2)) in Eq by lra.
  set (s := rnd a (p ^ 2)) in *. set (t := rnd a (q ^ 2)) in *. clearbody s t. set (P2 := p ^ 2) in *. set (Q2 := q ^ 2) in *. clearbody P2 Q2.
  assert (D : Rabs (s + t - (P2 + Q2)) <= u * P2 + u * Q2 + 2 * eta).
  { replace (s + t - (P2 + Q2)) with ((s - P2) + (t - Q2)) by ring. eapply Rle_trans; [apply Rabs_triang|]. lra. }
  assert (U1 : u * P2 <= / 2 ^ 24 * P2) by (apply Rmult_le_compat_r; lra). assert (U2 : u * Q2 <= / 2 ^ 24 * Q2) by (apply Rmult_le_compat_r; lra).
  assert (M : Rabs (s + t) <= 1.01 * (P2 + Q2) + 2 * eta).
  { replace (s + t) with ((s + t - (P2 + Q2)) + (P2 + Q2)) by ring. eapply Rle_trans; [apply Rabs_triang|]. rewrite (Rabs_pos_eq (P2 + Q2)) by lra. lra. }
  replace (rnd a (s + t) - (P2 + Q2)) with ((rnd a (s + t) - (s + t)) + (s + t - (P2 + Q2))) by ring. eapply Rle_trans; [apply Rabs_triang|].
  assert (u * Rabs (s + t) <= u * (1.01 * (P2 + Q2) + 2 * eta)) by (apply Rmult_le_compat_l; lra).
  assert (u * eta <= / 2 ^ 24 * eta) by (apply Rmult_le_compat_r; lra).
  assert (0 <= u * P2) by (apply Rmult_le_pos; lra). assert (0 <= u * Q2) by (apply Rmult_le_pos; lra). lra.
Qed.
Lemma hyp_diff p q p' q' : Rabs (sqrt (p' ^ 2 + q' ^ 2) - sqrt (p ^ 2 + q ^ 2)) <= Rabs (p' - p) + Rabs (q' - q).
Proof.
  assert (T : forall p q p' q', sqrt (p' ^ 2 + q' ^ 2) <= sqrt (p ^ 2 + q ^ 2) + (Rabs (p' - p) + Rabs (q' - q))).
  { clear. intros p q p' q'. set (d := sqrt (p ^ 2 + q ^ 2)). assert (D0 : 0 <= d) by apply sqrt_pos.
    assert (D2 : d ^ 2 = p ^ 2 + q ^ 2) by (unfold d; rewrite pow2_sqrt; [reflexivity|assert (A := pow2_ge_0 p); assert (B' := pow2_ge_0 q); lra]).
    assert (Dp : Rabs p <= d) by (apply Rabs_le; split; nra). assert (Dq : Rabs q <= d) by (apply Rabs_le; split; nra).
    assert (A1 := Rabs_pos (p' - p)). assert (A2 := Rabs_pos (q' - q)).
    rewrite <- (sqrt_pow2 (d + (Rabs (p' - p) + Rabs (q' - q)))) by lra. apply sqrt_le_1_alt.
    replace (p' ^ 2 + q' ^ 2) with ((p ^ 2 + q ^ 2) + 2 * (p * (p' - p)) + 2 * (q * (q' - q)) + (p' - p) ^ 2 + (q' - q) ^ 2) by ring.
    assert (P1 : p * (p' - p) <= d * Rabs (p' - p)). { eapply Rle_trans; [apply Rle_abs|]. rewrite Rabs_mult. apply Rmult_le_compat_r; assumption. }
    assert (P2 : q * (q' - q) <= d * Rabs (q' - q)). { eapply Rle_trans; [apply Rle_abs|]. rewrite Rabs_mult. apply Rmult_le_compat_r; assumption. }
    assert (P3 : (p' - p) ^ 2 = Rabs (p' - p) ^ 2) by (symmetry; apply pow2_abs). assert (P4 : (q' - q) ^ 2 = Rabs (q' - q) ^ 2) by (symmetry; apply pow2_abs).
    rewrite P3, P4, <- D2. nra. }
  apply Rabs_le. assert (T1 := T p q p' q'). assert (T2 := T p' q' p q). rewrite (Rabs_minus_sym p p'), (Rabs_minus_sym q q') in T2. lra.
Qed.
Lemma circ_core p q r : 4 * eta <= u * r ^ 2 -> let r' := Rabs (rnd a r) in let d := sqrt (p ^ 2 + q ^ 2) in
  (d + 6 * u * r' <= r' -> sq p q <= rnd a (rnd a r ^ 2)) /\ (r' + 6 * u * r' < d -> rnd a (rnd a r ^ 2) < sq p q).
Proof.
  intros Hr r' d. assert (Es := sq_error p q). assert (Er := ar_error _ _ _ _ H (rnd a r ^ 2)). assert (E0 := ar_error _ _ _ _ H r).
  rewrite (Rabs_pos_eq (rnd a r ^ 2)) in Er by apply pow2_ge_0.
  replace (rnd a r ^ 2) with (r' ^ 2) in * by (unfold r'; apply pow2_abs).
  assert (D2 : p ^ 2 + q ^ 2 = d ^ 2) by (unfold d; rewrite pow2_sqrt; [reflexivity|assert (A := pow2_ge_0 p); assert (B2 := pow2_ge_0 q); lra]).
  rewrite D2 in Es. assert (D0 : 0 <= d) by apply sqrt_pos. assert (R0' : 0 <= r') by apply Rabs_pos.
  assert (R2 : 2 * eta <= u * r' ^ 2).
  { assert (T : (1 - / 2 ^ 24) * Rabs r - eta <= r').
    { assert (Rabs r <= Rabs (rnd a r - r) + r'). { replace r with (- (rnd a r - r) + rnd a r) at 1 by ring. eapply Rle_trans; [apply Rabs_triang|]. rewrite Rabs_Ropp. unfold r'. lra. }
      assert (u * Rabs r <= / 2 ^ 24 * Rabs r) by (apply Rmult_le_compat_r; [apply Rabs_pos|lra]). lra. }
    assert (Ra := Rabs_pos r). rewrite <- (pow2_abs r) in Hr. set (z := Rabs r) in *. clearbody z.
    destruct (Req_dec u 0) as [-> |U0].
    { rewrite Rmult_0_l in *. lra. }
    destruct (Rle_dec (3 / 4 * z) r') as [L|L].
    - assert (9 / 16 * z ^ 2 <= r' ^ 2) by nra. assert (u * (9 / 16 * z ^ 2) <= u * r' ^ 2) by (apply Rmult_le_compat_l; lra). lra.
    - exfalso. apply L. assert (Z1 : eta <= 1) by lra. destruct (Rle_dec (eta * 8) z) as [Q|Q]; [lra|]. exfalso.
      assert (z ^ 2 <= 64 * eta) by nra. assert (u * z ^ 2 <= / 2 ^ 24 * (64 * eta)) by (apply Rmult_le_compat; [lra|apply pow2_ge_0|lra|lra]). lra. }
  assert (Rq : 0 <= u * r' ^ 2) by (apply Rmult_le_pos; [lra|apply pow2_ge_0]).
  apply Rabs_le_inv in Es. apply Rabs_le_inv in Er.
  set (S := sq p q) in *. set (T := rnd a (r' ^ 2)) in *. clearbody S T. split; intros L.
  - assert (d ^ 2 <= r' ^ 2 - 6 * u * r' ^ 2).
    { assert (d <= (1 - 6 * u) * r') by lra. assert (d ^ 2 <= ((1 - 6 * u) * r') ^ 2) by (apply pow_incr; lra).
      assert ((1 - 6 * u) ^ 2 <= 1 - 6 * u) by nra. assert ((1 - 6 * u) ^ 2 * r' ^ 2 <= (1 - 6 * u) * r' ^ 2) by (apply Rmult_le_compat_r; [apply pow2_ge_0|assumption]).
      rewrite Rpow_mult_distr in *. lra. }
    assert (u * d ^ 2 <= u * r' ^ 2) by (apply Rmult_le_compat_l; lra). lra.
  - assert (d ^ 2 > (1 + 12 * u) * r' ^ 2).
    { assert (d > (1 + 6 * u) * r') by lra. assert ((1 + 6 * u) * r' >= 0) by (apply Rle_ge, Rmult_le_pos; lra). assert (d ^ 2 > ((1 + 6 * u) * r') ^ 2) by nra.
      assert ((1 + 6 * u) ^ 2 >= 1 + 12 * u) by nra. assert ((1 + 12 * u) * r' ^ 2 <= (1 + 6 * u) ^ 2 * r' ^ 2) by (apply Rmult_le_compat_r; [apply pow2_ge_0|lra]).
      rewrite Rpow_mult_distr in *. lra. }
    assert ((1 - 21 / 10 * u) * d ^ 2 > (1 - 21 / 10 * u) * ((1 + 12 * u) * r' ^ 2)) by (apply Rmult_gt_compat_l; lra).
    assert ((1 - 21 / 10 * u) * (1 + 12 * u) >= 1 + 9 * u) by nra.
    assert ((1 - 21 / 10 * u) * (1 + 12 * u) * r' ^ 2 >= (1 + 9 * u) * r' ^ 2) by (apply Rle_ge, Rmult_le_compat_r; [apply pow2_ge_0|lra]). lra.
Qed.
Section Circle.
Variables (x0 y0 r x' y' x y : R).
Hypotheses (Hr : 4 * eta <= u * r ^ 2) (Ex : Rabs (x' - x) <= 8 * u * Rabs x) (Ey : Rabs (y' - y) <= 8 * u * Rabs y).
Let d := sqrt ((x - x0) ^ 2 + (y - y0) ^ 2).
Lemma radii : let p := rnd a (x' - rnd a x0) in let q := rnd a (y' - rnd a y0) in let d' := sqrt (p ^ 2 + q ^ 2) in let r' := Rabs (rnd a r) in
  Rabs (d' - d) <= u * (92 / 10 * Rabs x + 22 / 10 * Rabs x0) + u * (92 / 10 * Rabs y + 22 / 10 * Rabs y0) + 42 / 10 * eta /\
  Rabs (r' - Rabs r) <= u * Rabs r + eta /\ 6 * u * r' <= 61 / 10 * u * Rabs r + eta / 10.
Proof.
  intros p q d' r'. assert (Dx := diff_error x' x x0 Ex). assert (Dy := diff_error y' y y0 Ey). assert (E0 := ar_error _ _ _ _ H r).
  assert (F : Rabs (r' - Rabs r) <= u * Rabs r + eta) by (eapply Rle_trans; [apply Rabs_triang_inv2|exact E0]).
  split; [|split; [exact F|]].
  - eapply Rle_trans; [apply hyp_diff|]. unfold p, q. lra.
  - apply Rabs_le_inv in F. assert (Z := Rabs_pos r). assert (u * r' <= u * (Rabs r + u * Rabs r + eta)) by (apply Rmult_le_compat_l; lra).
    assert (u * Rabs r <= / 2 ^ 24 * Rabs r) by (apply Rmult_le_compat_r; lra). assert (u * (u * Rabs r) <= u * (/ 2 ^ 24 * Rabs r)) by (apply Rmult_le_compat_l; lra).
    assert (u * eta <= / 2 ^ 24 * eta) by (apply Rmult_le_compat_r; lra). assert (0 <= u * Rabs r) by (apply Rmult_le_pos; lra). lra.
Qed.
Lemma parts : 0 <= u * Rabs x /\ 0 <= u * Rabs x0 /\ 0 <= u * Rabs y /\ 0 <= u * Rabs y0 /\ 0 <= u * Rabs r.
Proof. repeat split; (apply Rmult_le_pos; [lra|apply Rabs_pos]). Qed.
Lemma circ_in : d + rim u eta x y x0 y0 r <= Rabs r -> fl_circ_value a x0 y0 r x' y' = 1.
Proof.
  intros I. destruct radii as (A & Br & Cr). destruct (circ_core (rnd a (x' - rnd a x0)) (rnd a (y' - rnd a y0)) r Hr) as [G _].
  apply Rabs_le_inv in A. apply Rabs_le_inv in Br. unfold rim in I. destruct parts as (p1 & p2 & p3 & p4 & p5).
  unfold fl_circ_value, Rleb. destruct (Rle_dec _ _) as [|N]; [reflexivity|exfalso; apply N, G]. lra.
Qed.
Lemma circ_out : Rabs r + rim u eta x y x0 y0 r < d -> fl_circ_value a x0 y0 r x' y' = 0.
Proof.
  intros I. destruct radii as (A & Br & Cr). destruct (circ_core (rnd a (x' - rnd a x0)) (rnd a (y' - rnd a y0)) r Hr) as [_ G].
  apply Rabs_le_inv in A. apply Rabs_le_inv in Br. unfold rim in I. destruct parts as (p1 & p2 & p3 & p4 & p5).
  unfold fl_circ_value, Rleb. destruct (Rle_dec _ _) as [N|]; [exfalso|reflexivity]. apply (Rle_not_lt _ _ N), G. lra.
Qed.
End Circle.
Lemma circ_nested x0 y0 r r' x y : Rabs r <= Rabs r' -> fl_circ_value a x0 y0 r x y <= fl_circ_value a x0 y0 r' x y.
Proof.
  intros L. assert (Ab : forall t, Rabs (rnd a t) = rnd a (Rabs t)).
  { intros t. destruct (Rle_dec 0 t) as [P|P].
    - rewrite (Rabs_pos_eq t P). apply Rabs_pos_eq. rewrite <- r0. apply (ar_monotone _ _ _ _ H), P.
    - rewrite (Rabs_left t), (ar_odd _ _ _ _ H) by lra. apply Rabs_left1. rewrite <- r0. apply (ar_monotone _ _ _ _ H). lra. }
  assert (M : rnd a (rnd a r ^ 2) <= rnd a (rnd a r' ^ 2)).
  { apply (ar_monotone _ _ _ _ H). rewrite <- (pow2_abs (rnd a r)), <- (pow2_abs (rnd a r')), !Ab. apply pow_incr. rewrite <- (Ab r). split; [apply Rabs_pos|]. rewrite Ab. apply (ar_monotone _ _ _ _ H), L. }
  unfold fl_circ_value, Rleb. destruct (Rle_dec _ _), (Rle_dec _ _); cbn [ind]; lra.
Qed.
Lemma circ_symmetric r x y : fl_circ_value a 0 0 r (- x) y = fl_circ_value a 0 0 r x y /\ fl_circ_value a 0 0 r x (- y) = fl_circ_value a 0 0 r x y.
Proof.
  unfold fl_circ_value. rewrite r0, !Rminus_0_r, !(ar_odd _ _ _ _ H). replace ((- rnd a x) ^ 2) with (rnd a x ^ 2) by ring. replace ((- rnd a y) ^ 2) with (rnd a y ^ 2) by ring. split; reflexivity.
Qed.
Lemma rect_symmetric wx wy x y : fl_rect_value a 0 0 wx wy (- x) y = fl_rect_value a 0 0 wx wy x y /\ fl_rect_value a 0 0 wx wy x (- y) = fl_rect_value a 0 0 wx wy x y.
Proof. unfold fl_rect_value. rewrite r0, !Rminus_0_r, !(ar_odd _ _ _ _ H), !Rabs_Ropp. split; reflexivity. Qed.
End Win.
Lemma link_rect x0 y0 wx wy x y : fl_rect_value exact x0 y0 wx wy x y = rect_value x0 y0 wx wy x y. Proof. reflexivity. Qed.
Lemma link_circ x0 y0 r x y : fl_circ_value exact x0 y0 r x y = circ_value x0 y0 r x y. Proof. reflexivity. Qed.
