(** Sums of a sampled Gaussian against its integral, to second order in the pitch (C92). *)
From Coq Require Import Reals Lra Psatz ZArith Arith List Bool Lia.
From Coquelicot Require Import Coquelicot.
From Verif Require Import Cx Sums GaussInt ErfInt GaussSum.
Open Scope R_scope.

Lemma grows (f f' : R -> R) a b : a <= b -> (forall x, is_derive f x (f' x)) -> (forall x, a <= x <= b -> 0 <= f' x) -> f a <= f b.
Proof.
  intros Hab D P. destruct (MVT_gen f a b f') as [c [Hc E]].
  - intros x _. apply D.
  - intros x _. apply continuity_pt_filterlim. apply (ex_derive_continuous f). eexists. apply D.
  - rewrite Rmin_left, Rmax_right in Hc by lra. assert (Q := P c Hc). assert (0 <= f' c * (b - a)) by (apply Rmult_le_pos; lra). lra.
Qed.
Lemma g_derive x : is_derive g x (- 2 * x * g x).
Proof. unfold g. auto_derive; [trivial|]. change (x * (x * 1)) with (x ^ 2). ring. Qed.
Lemma g_second x e : (e = 1 \/ e = -1) -> e * ((4 * x ^ 2 - 2) * g x) <= 2.
Proof.
  intros He. assert (G := exp_sq_le x). fold (g x) in G. assert (0 <= x ^ 2) by apply pow2_ge_0.
  assert (K : x ^ 2 * g x <= 1 / 2).
  { assert (L : x ^ 2 <= exp (x ^ 2 - 1)) by (destruct (Req_dec (x ^ 2 - 1) 0) as [Z|N]; [rewrite Z, exp_0; lra|left; apply Rle_lt_trans with (1 + (x ^ 2 - 1)); [lra|apply exp_ineq1; lra]]).
    assert (E : 2 <= exp 1) by (left; apply Rle_lt_trans with (1 + 1); [lra|apply exp_ineq1; lra]).
    assert (M : exp (x ^ 2) * g x = 1) by (unfold g; rewrite <- exp_plus, Rplus_opp_r; apply exp_0).
    assert (W : 2 * x ^ 2 <= exp (x ^ 2)) by (replace (x ^ 2) with (1 + (x ^ 2 - 1)) at 2 by ring; rewrite exp_plus; apply Rmult_le_compat; lra).
    assert (2 * x ^ 2 * g x <= 1) by (rewrite <- M; apply Rmult_le_compat_r; lra). lra. }
  destruct He as [-> | ->]; nra.
Qed.
Lemma trap_cell s n : 0 <= n -> Rabs (n * (g s + g (s + n)) / 2 - (I (s + n) - I s)) <= n ^ 3 / 6.
Proof.
  intros Hn. set (E := fun x => x * (g s + g (s + x)) / 2 - (I (s + x) - I s)). set (E1 := fun x => (g s - g (s + x)) / 2 - x * (s + x) * g (s + x)).
  assert (Dg : forall x, is_derive (fun x => g (s + x)) x (- 2 * (s + x) * g (s + x))).
  { intros x. evar_last; [apply (is_derive_comp g (fun x => s + x) x (- 2 * (s + x) * g (s + x)) 1); [apply g_derive|auto_derive; [trivial|ring]]|]. unfold scal; cbn; unfold mult; cbn. match goal with |- ?x = ?y => change (@eq R x y) end. ring. }
  assert (DI : forall x, is_derive (fun x => I (s + x)) x (g (s + x))).
  { intros x. evar_last; [apply (is_derive_comp I (fun x => s + x) x (g (s + x)) 1); [apply I_derive|auto_derive; [trivial|ring]]|]. unfold scal; cbn; unfold mult; cbn. match goal with |- ?x = ?y => change (@eq R x y) end. ring. }
  assert (D0 : forall x, is_derive E x (E1 x)).
  { intros x. unfold E, E1. assert (A := Dg x). assert (B := DI x). evar_last.
    - apply (is_derive_minus (fun x => x * (g s + g (s + x)) / 2) (fun x => I (s + x) - I s)).
      + apply (is_derive_ext (fun x => (x / 2) * (g s + g (s + x)))); [intros; match goal with |- ?x = ?y => change (@eq R x y) end; field|]. apply (is_derive_mult (fun x => x / 2) (fun x => g s + g (s + x)) x (/ 2) (- 2 * (s + x) * g (s + x))); [auto_derive; [trivial|field]| |intros; apply Rmult_comm].
        evar_last; [apply (is_derive_plus (fun _ => g s) (fun x => g (s + x)) x 0); [auto_derive; [trivial|reflexivity]|exact A]|]. unfold plus; cbn. match goal with |- ?x = ?y => change (@eq R x y) end. ring.
      + apply (is_derive_minus (fun x => I (s + x)) (fun _ => I s) x (g (s + x)) 0); [exact B|auto_derive; [trivial|reflexivity]].
    - unfold minus, plus, opp, mult; cbn. match goal with |- ?x = ?y => change (@eq R x y) end. field. }
  assert (D1 : forall x, is_derive E1 x (x / 2 * ((4 * (s + x) ^ 2 - 2) * g (s + x)))).
  { intros x. unfold E1. assert (A := Dg x). evar_last.
    - apply (is_derive_minus (fun x => (g s - g (s + x)) / 2) (fun x => x * (s + x) * g (s + x))).
      + apply (is_derive_ext (fun x => g s / 2 - / 2 * g (s + x))); [intros; match goal with |- ?x = ?y => change (@eq R x y) end; field|]. apply (is_derive_minus (fun _ => g s / 2) (fun x => / 2 * g (s + x)) x 0); [auto_derive; [trivial|reflexivity]|]. apply (is_derive_scal (fun x => g (s + x)) x (/ 2)). exact A.
      + apply (is_derive_mult (fun x => x * (s + x)) (fun x => g (s + x)) x (s + 2 * x)); [auto_derive; [trivial|ring]|exact A|intros; apply Rmult_comm].
    - unfold minus, plus, opp, mult, scal; cbn -[pow]; unfold mult; cbn -[pow]. match goal with |- ?x = ?y => change (@eq R x y) end. field. }
  assert (B1 : forall e x, (e = 1 \/ e = -1) -> 0 <= x -> e * E1 x <= x ^ 2 / 2).
  { intros e x He Hx. assert (P := grows (fun x => x ^ 2 / 2 - e * E1 x) (fun x => x - e * (x / 2 * ((4 * (s + x) ^ 2 - 2) * g (s + x)))) 0 x Hx). cbv beta in P.
    replace (E1 0) with 0 in P by (unfold E1; rewrite Rplus_0_r; field). assert (0 ^ 2 / 2 - e * 0 <= x ^ 2 / 2 - e * E1 x); [|lra]. apply P.
    - intros y. evar_last; [apply (is_derive_minus (fun x => x ^ 2 / 2) (fun x => e * E1 x) y y); [auto_derive; [trivial|field]|apply (is_derive_scal E1 y e); apply D1]|]. unfold minus, plus, opp, mult; cbn -[pow]. match goal with |- ?x = ?y => change (@eq R x y) end. ring.
    - intros y [Hy _]. assert (Q := g_second (s + y) e He). assert (y / 2 * (e * ((4 * (s + y) ^ 2 - 2) * g (s + y))) <= y / 2 * 2) by (apply Rmult_le_compat_l; lra). lra. }
  assert (B0 : forall e, (e = 1 \/ e = -1) -> e * E n <= n ^ 3 / 6).
  { intros e He. assert (P := grows (fun x => x ^ 3 / 6 - e * E x) (fun x => x ^ 2 / 2 - e * E1 x) 0 n Hn). cbv beta in P.
    replace (E 0) with 0 in P by (unfold E; rewrite Rplus_0_r; field). assert (0 ^ 3 / 6 - e * 0 <= n ^ 3 / 6 - e * E n); [|lra]. apply P.
    - intros y. evar_last; [apply (is_derive_minus (fun x => x ^ 3 / 6) (fun x => e * E x) y (y ^ 2 / 2)); [auto_derive; [trivial|field]|apply (is_derive_scal E y e); apply D0]|]. unfold minus, plus, opp, mult; cbn -[pow]. match goal with |- ?x = ?y => change (@eq R x y) end. ring.
    - intros y [Hy _]. assert (Q := B1 e y He Hy). lra. }
  assert (X := B0 1 (or_introl eq_refl)). assert (Y := B0 (-1) (or_intror eq_refl)). unfold E in X, Y. apply Rabs_le. lra.
Qed.
Lemma trap A n N : 0 <= n -> Rabs (n * rsum N (fun j => g (A + INR j * n)) + n * (g (A + INR N * n) - g A) / 2 - (I (A + INR N * n) - I A)) <= INR N * (n ^ 3 / 6).
Proof.
  intros Hn. induction N as [|N IH].
  - cbn [rsum INR]. rewrite Rmult_0_l, Rplus_0_r. match goal with |- Rabs ?z <= _ => replace z with 0 by field end. rewrite Rabs_R0. lra.
  - rewrite S_INR. cbn [rsum]. set (B := A + INR N * n) in *. replace (A + (INR N + 1) * n) with (B + n) by (unfold B; ring). assert (C := trap_cell B n Hn). set (s := rsum N _) in *.
    match type of IH with Rabs ?u <= _ => match type of C with Rabs ?v <= _ => match goal with |- Rabs ?z <= _ => replace z with (u + v) by field end end end.
    eapply Rle_trans; [apply Rabs_triang|]. lra.
Qed.
Lemma I_tail2 x : 0 < x -> sqrt PI / 2 - I x <= g x / (2 * x).
Proof.
  intros Hx. assert (HI := I_pos x ltac:(lra)).
  (* J x <= g x * (sqrt PI / 2 + I x) / (2 x) would be needed; use instead that the gap decreases faster than the bound *)
  assert (K : forall y, x <= y -> I y - I x <= (g x - g y) / (2 * x)).
  { intros y Hy. assert (P := grows (fun t => - g t / (2 * x) - I t) (fun t => t / x * g t - g t) x y Hy). cbv beta in P. assert (- g x / (2 * x) - I x <= - g y / (2 * x) - I y); [|unfold Rdiv in *; lra]. apply P.
    - intros t. evar_last; [apply (is_derive_minus (fun t => - g t / (2 * x)) I t (t / x * g t) (g t)); [|apply I_derive]|]. 
      + apply (is_derive_ext (fun t => (- / (2 * x)) * g t)); [intros; match goal with |- ?x = ?y => change (@eq R x y) end; field; lra|]. evar_last; [apply (is_derive_scal g t (- / (2 * x))); apply g_derive|]. cbn. match goal with |- ?x = ?y => change (@eq R x y) end. field. lra.
      + reflexivity.
    - intros t [Ht _]. assert (G := exp_sq_le t). fold (g t) in G. assert (1 <= t / x) by (apply (Rmult_le_reg_r x); [exact Hx|]; replace (t / x * x) with t by (field; lra); lra). nra. }
  apply Rnot_lt_le. intros H. assert (S0 := sqrtPI_pos). set (e := sqrt PI / 2 - I x - g x / (2 * x)) in *. assert (He : 0 < e) by (unfold e; lra).
  assert (X0 : 0 < / x) by (apply Rinv_0_lt_compat, Hx).
  (* choose y with the tail below e *)
  set (y := Rmax x (4 / (sqrt PI * e))). assert (Y1 : x <= y) by apply Rmax_l. assert (Y2 : 4 / (sqrt PI * e) <= y) by apply Rmax_r.
  assert (T := I_tail y ltac:(lra)). assert (L := K y Y1). fold (g y) in T. assert (G := exp_sq_le y). fold (g y) in G.
  assert (SE : 0 < sqrt PI * e) by (apply Rmult_lt_0_compat; assumption).
  assert (Gy : g y * y <= 1).
  { assert (Q : 1 + y ^ 2 <= exp (y ^ 2)) by (left; apply exp_ineq1; nra). assert (M : exp (y ^ 2) * g y = 1) by (unfold g; rewrite <- exp_plus, Rplus_opp_r; apply exp_0). assert ((1 + y ^ 2) * g y <= 1) by (rewrite <- M; apply Rmult_le_compat_r; lra). nra. }
  assert (B : 2 / sqrt PI * g y <= e / 2).
  { apply (Rmult_le_reg_r (sqrt PI * y)); [apply Rmult_lt_0_compat; lra|]. replace (2 / sqrt PI * g y * (sqrt PI * y)) with (2 * (g y * y)) by (field; lra).
    assert (4 <= sqrt PI * e * y). { apply Rle_trans with (sqrt PI * e * (4 / (sqrt PI * e))); [right; field; split; lra|apply Rmult_le_compat_l; lra]. } nra. }
  assert (D : (g x - g y) / (2 * x) <= g x / (2 * x)) by (apply Rmult_le_compat_r; [left; apply Rinv_0_lt_compat; lra|lra]). unfold e in *. lra.
Qed.
Lemma sum_second A n N : 0 < n -> A < 0 -> 0 < A + INR N * n -> let B := A + INR N * n in
  Rabs (n * rsum N (fun j => g (A + INR j * n)) - sqrt PI) <= (B - A) * n ^ 2 / 6 + n * Rabs (g B - g A) / 2 + g A / (2 * - A) + g B / (2 * B).
Proof.
  intros Hn HA HB B. assert (T := trap A n N ltac:(lra)). fold B in T, HB. assert (TB := I_tail2 B HB). assert (TA := I_tail2 (- A) ltac:(lra)). rewrite I_odd in TA.
  assert (L1 := I_le B). assert (L2 := I_le A). apply Rabs_le_between in L1. apply Rabs_le_between in L2.
  replace (g (- A)) with (g A) in TA by (unfold g; f_equal; ring). assert (EN : INR N * (n ^ 3 / 6) = (B - A) * n ^ 2 / 6) by (unfold B; field). rewrite EN in T.
  assert (A0 : 0 <= g A / (2 * - A)) by (apply Rmult_le_pos; [left; apply exp_pos|left; apply Rinv_0_lt_compat; lra]). assert (B0 : 0 <= g B / (2 * B)) by (apply Rmult_le_pos; [left; apply exp_pos|left; apply Rinv_0_lt_compat; lra]).
  assert (M1 := Rle_abs (g B - g A)). assert (M2 := Rle_abs (- (g B - g A))). rewrite Rabs_Ropp in M2. apply Rabs_le_between in T. set (s := n * rsum N _) in *. clearbody s.
  assert (n * (g B - g A) <= n * Rabs (g B - g A)) by (apply Rmult_le_compat_l; lra). assert (n * - (g B - g A) <= n * Rabs (g B - g A)) by (apply Rmult_le_compat_l; lra).
  apply Rabs_le. split; lra.
Qed.
