(** Rounding errors of Hermite-Gauss modes. *)
From Coq Require Import Reals ZArith List Bool Lia Lra Psatz.
From Verif Require Import Cx Sums PyBase ProfileModel ModeSpec ModeFacts ModeThms FloatModel FloatSpec FloatFacts FlSimSpec FlSimFacts WideSpec FlAnaModel FlAnaFacts FlZernModel FlHermModel FlHermSpec.
Import ListNotations.
Open Scope R_scope.

(** ** Hermite coefficients *)
Lemma zadd_nth a : forall b k, nth k (zadd a b) 0%Z = (nth k a 0 + nth k b 0)%Z.
Proof. induction a as [|x a IH]; intros [|y b] [|k]; cbn [zadd nth]; try lia. apply IH. Qed.
Lemma zadd_length a : forall b, length (zadd a b) = Nat.max (length a) (length b).
Proof. induction a as [|x a IH]; intros [|y b]; cbn [zadd length]; try lia. rewrite IH. lia. Qed.
Lemma nth_map0 (f : Z -> Z) l k : f 0%Z = 0%Z -> nth k (map f l) 0%Z = f (nth k l 0%Z).
Proof. intros H. rewrite <- H at 1. apply map_nth. Qed.
Lemma hermite_lead n : length (fst (hermite_pair n)) = S n /\ length (snd (hermite_pair n)) = S (S n) /\ nth n (fst (hermite_pair n)) 0%Z = (2 ^ Z.of_nat n)%Z /\ nth (S n) (snd (hermite_pair n)) 0%Z = (2 ^ Z.of_nat (S n))%Z.
Proof.
  induction n as [|n (L1 & L2 & N1 & N2)]; [repeat split; reflexivity|]. cbn [hermite_pair]. destruct (hermite_pair n) as [a b]. cbn [fst snd] in *.
  split; [exact L2|]. split; [rewrite zadd_length; cbn [length]; rewrite !map_length; lia|]. split; [exact N2|]. rewrite zadd_nth. cbn [nth]. rewrite !nth_map0 by lia. rewrite (nth_overflow a) by lia.
  change (nth (S n) b 0%Z) with (nth (S n) b 0%Z) in *. rewrite N2, (Nat2Z.inj_succ (S n)), Z.pow_succ_r by lia. lia.
Qed.
Lemma hermite_head n : exists c cs, hermite_coef n = c :: cs /\ 1 <= Rabs c /\ length cs = n.
Proof.
  destruct (hermite_lead n) as (L & _ & N & _). unfold hermite_coef, hermite_low. destruct (rev (fst (hermite_pair n))) as [|c cs] eqn:E.
  - apply (f_equal (@length Z)) in E. rewrite rev_length, L in E. discriminate E.
  - exists (IZR c), (map IZR cs). split; [reflexivity|]. pose proof (f_equal (@length Z) E) as Le. rewrite rev_length, L in Le. cbn [length] in Le. rewrite map_length. split; [|lia].
    apply (f_equal (@rev Z)) in E. rewrite rev_involutive in E. rewrite E in N. cbn [rev] in N. rewrite app_nth2 in N by (rewrite rev_length; lia). rewrite rev_length in N. replace (n - length cs)%nat with 0%nat in N by lia. cbn [nth] in N.
    rewrite <- abs_IZR. apply IZR_le. rewrite N. pose proof (Z.pow_pos_nonneg 2 (Z.of_nat n)). lia.
Qed.
Definition eva (l : list Z) (x : R) : R := evz (map Z.abs l) x.
Lemma eva_cons c l x : eva (c :: l) x = IZR (Z.abs c) + eva l x * x. Proof. reflexivity. Qed.
Lemma eva_pos l x : 0 <= x -> 0 <= eva l x.
Proof. intros H. induction l as [|c l IH]; [unfold eva, evz; cbn; lra|]. rewrite eva_cons. assert (0 <= IZR (Z.abs c)) by (apply IZR_le; lia). assert (0 <= eva l x * x) by (apply Rmult_le_pos; assumption). lra. Qed.
Lemma eva_zadd a x : 0 <= x -> forall b, eva (zadd a b) x <= eva a x + eva b x.
Proof.
  intros H. induction a as [|c a IH]; intros b; [cbn [zadd]; unfold eva at 2, evz; cbn; lra|]. destruct b as [|d b]; [cbn [zadd]; unfold eva at 3, evz; cbn; lra|]. cbn [zadd]. rewrite !eva_cons. specialize (IH b).
  assert (IZR (Z.abs (c + d)) <= IZR (Z.abs c) + IZR (Z.abs d)) by (rewrite <- plus_IZR; apply IZR_le; lia). assert (eva (zadd a b) x * x <= (eva a x + eva b x) * x) by (apply Rmult_le_compat_r; assumption). lra.
Qed.
Lemma eva_scale k l x : eva (map (fun c => k * c)%Z l) x = IZR (Z.abs k) * eva l x.
Proof. unfold eva. rewrite map_map. rewrite (map_ext (fun c => Z.abs (k * c)) (fun c => Z.abs k * Z.abs c)%Z) by (intros; apply Z.abs_mul). rewrite <- (map_map Z.abs (fun c => Z.abs k * c)%Z). apply evz_scale. Qed.
Lemma size_pair n x : 0 <= x -> eva (fst (hermite_pair n)) x <= hermite_size n x /\ eva (snd (hermite_pair n)) x <= hermite_size (S n) x.
Proof.
  intros H. induction n as [|n [I1 I2]]; [unfold eva, evz; cbn; split; lra|]. cbn [hermite_pair]. destruct (hermite_pair n) as [a b]. cbn [fst snd] in *. split; [exact I2|].
  eapply Rle_trans; [apply eva_zadd, H|]. rewrite eva_cons, !eva_scale. change (hermite_size (S (S n)) x) with (2 * x * hermite_size (S n) x + 2 * INR (S n) * hermite_size n x).
  replace (IZR (Z.abs (-2 * Z.of_nat (S n)))) with (2 * INR (S n)) by (rewrite INR_IZR_INZ, <- mult_IZR; f_equal; lia). change (IZR (Z.abs 0)) with 0. change (IZR (Z.abs 2)) with 2.
  assert (2 * eva b x * x <= 2 * hermite_size (S n) x * x) by (apply Rmult_le_compat_r; lra). pose proof (pos_INR (S n)). assert (2 * INR (S n) * eva a x <= 2 * INR (S n) * hermite_size n x) by (apply Rmult_le_compat_l; lra). lra.
Qed.
Lemma polyval_abs n x : polyval (map Rabs (hermite_coef n)) x = eva (hermite_low n) x.
Proof. unfold hermite_coef. rewrite !map_map. rewrite (map_ext (fun c => Rabs (IZR c)) (fun c => IZR (Z.abs c))) by (intros; symmetry; apply abs_IZR). rewrite map_rev, polyval_rev. unfold eva, evz. rewrite map_map. reflexivity. Qed.
Lemma size_ge n x : 0 <= x -> polyval (map Rabs (hermite_coef n)) x <= hermite_size n x.
Proof. intros H. rewrite polyval_abs. apply size_pair, H. Qed.

(** ** Numbers known up to a multiple of a majorant *)
Section Close.
Variables (u eta : R) (B : Z) (l : zlib).
Hypothesis A : arithmetic u eta B (z_rnd l).
Hypothesis Hu : 0 <= u <= 1 / 8.
Hypothesis He : 0 <= eta <= u.
Definition clo (k : nat) (M a a' : R) : Prop := Rabs a <= M /\ Rabs (a' - a) <= ((1 + 4 * u) ^ k - 1) * M.
Lemma clo_pos k M a a' : clo k M a a' -> 0 <= M. Proof. intros [H _]. pose proof (Rabs_pos a). lra. Qed.
Lemma gp k : 1 <= (1 + 4 * u) ^ k. Proof. apply pow_1. lra. Qed.
Lemma clo_abs k M a a' : clo k M a a' -> Rabs a' <= (1 + 4 * u) ^ k * M.
Proof. intros [H H']. pose proof (abs_le_add _ _ _ H'). lra. Qed.
Lemma clo_rnd k M a a' : clo k M a a' -> 1 <= M \/ eta <= u * M -> clo (S k) M a (z_rnd l a').
Proof.
  intros C HM. pose proof (clo_pos _ _ _ _ C) as M0. destruct C as [H H']. split; [exact H|]. pose proof (rnd_err u eta B (z_rnd l) A ltac:(lra) a' a _ H') as K. eapply Rle_trans; [exact K|]. pose proof (gp k) as G. cbn [pow]. set (g := (1 + 4 * u) ^ k) in *.
  assert (eta <= u * M) by (destruct HM as [HM|HM]; [|exact HM]; assert (u * 1 <= u * M) by (apply Rmult_le_compat_l; lra); lra). assert (u * (Rabs a + (g - 1) * M) <= u * (g * M)) by (apply Rmult_le_compat_l; lra).
  assert (0 <= u * M) by (apply Rmult_le_pos; lra). assert (u * M * 1 <= u * M * g) by (apply Rmult_le_compat_l; lra). lra.
Qed.
Lemma clo_mul j k M N a a' b b' : clo j M a a' -> clo k N b b' -> clo (j + k) (M * N) (a * b) (a' * b').
Proof.
  intros C D. pose proof (clo_abs _ _ _ _ D) as Db. pose proof (clo_pos _ _ _ _ C) as M0. pose proof (clo_pos _ _ _ _ D) as N0. destruct C as [Ca Ce], D as [Da De]. split; [apply mult_le; assumption|]. rewrite pow_add. pose proof (gp j). pose proof (gp k). set (g := (1 + 4 * u) ^ j) in *. set (h := (1 + 4 * u) ^ k) in *.
  replace (a' * b' - a * b) with ((a' - a) * b' + a * (b' - b)) by ring. eapply Rle_trans; [apply Rabs_triang|]. assert (Rabs ((a' - a) * b') <= (g - 1) * M * (h * N)) by (apply mult_le; assumption). assert (Rabs (a * (b' - b)) <= M * ((h - 1) * N)) by (apply mult_le; assumption). lra.
Qed.
Lemma clo_add k M N a a' b b' : clo k M a a' -> clo k N b b' -> clo k (M + N) (a + b) (a' + b').
Proof.
  intros [Ca Ce] [Da De]. split; [eapply Rle_trans; [apply Rabs_triang|]; lra|]. replace (a' + b' - (a + b)) with ((a' - a) + (b' - b)) by ring. eapply Rle_trans; [apply Rabs_triang|]. lra.
Qed.
Lemma clo_weak j k M N a a' : (j <= k)%nat -> M <= N -> clo j M a a' -> clo k N a a'.
Proof.
  intros Hjk HM C. pose proof (clo_pos _ _ _ _ C) as M0. destruct C as [Ca Ce]. split; [lra|]. eapply Rle_trans; [exact Ce|]. pose proof (gp j). assert ((1 + 4 * u) ^ j <= (1 + 4 * u) ^ k) by (apply Rle_pow; [lra|exact Hjk]). apply Rmult_le_compat; lra.
Qed.
Lemma clo_near a a' : near (4 * u) 0 a a' -> clo 1 (Rabs a) a a'.
Proof. unfold near. intros H. split; [lra|]. cbn [pow]. lra. Qed.
Lemma clo_exact a : clo 0 (Rabs a) a a.
Proof. split; [lra|]. replace (a - a) with 0 by ring. rewrite Rabs_R0. cbn [pow]. lra. Qed.
Lemma horner_clo j X x x' : 1 <= X -> clo j X x x' -> forall cs cs', Forall2 (near (4 * u) 0) cs cs' -> forall p p' P k, 1 <= P -> clo k P p p' ->
  clo (k + (j + 2) * length cs) (fold_left (fun P c => c + P * X) (map Rabs cs) P) (fold_left (fun p c => c + p * x) cs p) (fold_left (fun p c => z_rnd l (c + z_rnd l (p * x'))) cs' p') /\ 1 <= fold_left (fun P c => c + P * X) (map Rabs cs) P.
Proof.
  intros HX Cx cs cs' F. induction F as [|c c' cs cs' Hc F IH]; intros p p' P k HP Cp.
  - cbn [length map fold_left]. rewrite Nat.mul_0_r, Nat.add_0_r. split; assumption.
  - cbn [length map fold_left]. assert (PX : 1 <= P * X) by nra. pose proof (Rabs_pos c) as c0.
    assert (Q : clo (S (S (k + j))) (Rabs c + P * X) (c + p * x) (z_rnd l (c' + z_rnd l (p' * x')))).
    { apply clo_rnd; [|left; lra]. apply clo_add; [apply (clo_weak 1 _ (Rabs c)); [lia|lra|apply clo_near, Hc]|]. apply clo_rnd; [|left; lra]. apply clo_mul; assumption. }
    assert (P1 : 1 <= Rabs c + P * X) by lra. specialize (IH _ _ _ _ P1 Q). replace (k + (j + 2) * S (length cs))%nat with (S (S (k + j)) + (j + 2) * length cs)%nat by lia. exact IH.
Qed.
Lemma hermite_clo j X x x' n h : 1 <= X -> clo j X x x' -> stored_hermite u n h -> clo (1 + (j + 2) * n) (hermite_size n X) (hermite n x) (fl_polyval l h x') /\ 1 <= hermite_size n X.
Proof.
  intros HX Cx F. unfold stored_hermite in F. pose proof (size_ge n X ltac:(lra)) as Sz. assert (Hh : hermite n x = polyval (hermite_coef n) x) by (rewrite hermite_coef_eval; apply hermite_hpair). rewrite Hh.
  destruct (hermite_head n) as (c & cs & E & Hc & Le). rewrite E in *. destruct h as [|c' cs']; [inversion F|]. inversion F; subst. unfold polyval in *. cbn [map] in Sz. unfold fl_polyval.
  match goal with K : near _ _ c c' |- _ => apply clo_near in K; destruct (horner_clo j X x x' HX Cx cs cs' ltac:(assumption) c c' (Rabs c) 1 Hc K) as [C1 C2] end.
  split; [|lra]. apply (clo_weak (1 + (j + 2) * length cs) _ _ _ _ _ (le_n _) Sz C1).
Qed.

Section Value.
Variables (f_exp : R -> R) (ee : R) (s2 : R) (hn hm : list R) (n m : nat) (x0 y0 Am w x y X Y : R).
Hypothesis Fe : accurate_exp f_exp ee eta.
Hypothesis Hee : 0 <= ee.
Hypothesis Hs : near (4 * u) 0 (sqrt 2) s2.
Hypothesis Sn : stored_hermite u n hn.
Hypothesis Sm : stored_hermite u m hm.
Hypothesis Hw : 0 < z_rnd l w.
Hypothesis Ew : eta <= u * z_rnd l w.
Hypothesis Ea : eta <= u * Rabs (z_rnd l Am).
Hypothesis X1 : 1 <= X.
Hypothesis Y1 : 1 <= Y.
Let w' := z_rnd l w.
Let A' := z_rnd l Am.

Lemma scaled c0 c Z : 1 <= Z -> Rabs ((c - c0) / w') <= Z -> clo 2 Z ((c - c0) / w') (z_rnd l (z_rnd l (c - c0) / w')).
Proof.
  intros HZ Hc. assert (W : 0 < w') by exact Hw. assert (I : 0 < / w') by (apply Rinv_0_lt_compat, W). apply clo_rnd; [|left; exact HZ]. 
  assert (D : clo 1 (Z * w') (c - c0) (z_rnd l (c - c0))).
  { apply (clo_rnd 0). - assert (Q : Rabs (c - c0) <= Z * w'). { replace (c - c0) with ((c - c0) / w' * w') by (field; lra). apply mult_le; [exact Hc|rewrite Rabs_pos_eq; lra]. } apply (clo_weak 0 0 (Rabs (c - c0))); [lia|exact Q|apply clo_exact].
    - right. unfold w' in *. assert (u * z_rnd l w * 1 <= u * z_rnd l w * Z) by (apply Rmult_le_compat_l; [apply Rmult_le_pos; lra|lra]). lra. }
  assert (J : clo 0 (/ w') (/ w') (/ w')). { apply (clo_weak 0 0 (Rabs (/ w'))); [lia|rewrite Rabs_pos_eq; lra|apply clo_exact]. }
  pose proof (clo_mul _ _ _ _ _ _ _ _ D J) as K. replace (Z * w' * / w') with Z in K by (field; lra). exact K.
Qed.
Lemma root_scaled t t' Z : 1 <= Z -> clo 2 Z t t' -> clo 4 (sqrt 2 * Z) (sqrt 2 * t) (z_rnd l (s2 * t')) /\ 1 <= sqrt 2 * Z.
Proof.
  intros HZ C. assert (S1 : 1 <= sqrt 2) by (rewrite <- sqrt_1 at 1; apply sqrt_le_1; lra). assert (1 <= sqrt 2 * Z) by nra. split; [|assumption]. apply clo_rnd; [|left; assumption]. apply (clo_mul 1 2); [|exact C].
  apply clo_near in Hs. rewrite Rabs_pos_eq in Hs by lra. exact Hs.
Qed.
Lemma square_clo t t' Z : 1 <= Z -> clo 2 Z t t' -> clo 5 (Z ^ 2) (t ^ 2) (z_rnd l (t' ^ 2)).
Proof. intros HZ C. replace (Z ^ 2) with (Z * Z) by ring. replace (t ^ 2) with (t * t) by ring. replace (t' ^ 2) with (t' * t') by ring. apply (clo_rnd 4); [apply (clo_mul 2 2); exact C|left; nra]. Qed.
Let xn := (x - z_rnd l x0) / w'.
Let yn := (y - z_rnd l y0) / w'.
Hypothesis HX : Rabs xn <= X.
Hypothesis HY : Rabs yn <= Y.
(** Amplitude and polynomials. *)
Lemma poly_part : clo (4 + 6 * (n + m)) (Rabs A' * hermite_size n (sqrt 2 * X) * hermite_size m (sqrt 2 * Y)) (A' * hermite n (sqrt 2 * xn) * hermite m (sqrt 2 * yn))
  (z_rnd l (z_rnd l (A' * fl_polyval l hn (z_rnd l (s2 * z_rnd l (z_rnd l (x - z_rnd l x0) / w')))) * fl_polyval l hm (z_rnd l (s2 * z_rnd l (z_rnd l (y - z_rnd l y0) / w'))))).
Proof.
  destruct (root_scaled _ _ X X1 (scaled _ _ X X1 HX)) as [C1 T1]. destruct (root_scaled _ _ Y Y1 (scaled _ _ Y Y1 HY)) as [C2 T2]. fold xn in C1. fold yn in C2.
  destruct (hermite_clo _ _ _ _ n hn T1 C1 Sn) as [D1 W1]. destruct (hermite_clo _ _ _ _ m hm T2 C2 Sm) as [D2 W2]. set (Wn := hermite_size n (sqrt 2 * X)) in *. set (Wm := hermite_size m (sqrt 2 * Y)) in *. pose proof (Rabs_pos A') as A0.
  assert (q0 : 0 <= u * Rabs A') by (apply Rmult_le_pos; lra). assert (q1 : u * Rabs A' <= u * (Rabs A' * Wn)) by (assert (u * Rabs A' * 1 <= u * Rabs A' * Wn) by (apply Rmult_le_compat_l; lra); lra).
  assert (q2 : u * (Rabs A' * Wn) <= u * (Rabs A' * Wn * Wm)) by (assert (u * (Rabs A' * Wn) * 1 <= u * (Rabs A' * Wn) * Wm) by (apply Rmult_le_compat_l; lra); lra).
  replace (4 + 6 * (n + m))%nat with (S (S (1 + (4 + 2) * n) + (1 + (4 + 2) * m)))%nat by lia. fold A' in Ea.
  apply clo_rnd; [|right; lra]. apply clo_mul; [|exact D2]. apply clo_rnd; [|right; lra]. apply (clo_mul 0 _ _ _ _ _ _ _ (clo_exact A') D1).
Qed.
Lemma exponent_part : let s := xn ^ 2 + yn ^ 2 in let s' := z_rnd l (z_rnd l (z_rnd l (z_rnd l (x - z_rnd l x0) / w') ^ 2) + z_rnd l (z_rnd l (z_rnd l (y - z_rnd l y0) / w') ^ 2)) in
  Rabs (s' - s) <= ((1 + 4 * u) ^ 6 - 1) * (X ^ 2 + Y ^ 2) /\ 0 <= s'.
Proof.
  intros s s'. pose proof (square_clo _ _ X X1 (scaled _ _ X X1 HX)) as C1. pose proof (square_clo _ _ Y Y1 (scaled _ _ Y Y1 HY)) as C2. split.
  - apply (clo_rnd 5 (X ^ 2 + Y ^ 2) s); [apply clo_add; assumption|left; nra].
  - assert (Z0 : z_rnd l 0 = 0). { pose proof (ar_odd _ _ _ _ A 0) as O. rewrite Ropp_0 in O. lra. }
    assert (N : forall t, 0 <= t -> 0 <= z_rnd l t) by (intros t Ht; rewrite <- Z0; apply (ar_monotone _ _ _ _ A), Ht). apply N. assert (0 <= z_rnd l (z_rnd l (z_rnd l (x - z_rnd l x0) / w') ^ 2)) by (apply N; nra). assert (0 <= z_rnd l (z_rnd l (z_rnd l (y - z_rnd l y0) / w') ^ 2)) by (apply N; nra). lra.
Qed.
Lemma value_close : let M := Rabs A' * hermite_size n (sqrt 2 * X) * hermite_size m (sqrt 2 * Y) in let E := exp (- (xn ^ 2 + yn ^ 2)) in let d := ((1 + 4 * u) ^ 6 - 1) * (X ^ 2 + Y ^ 2) in
  Rabs (fl_hermite l f_exp s2 hn hm x0 y0 Am w x y - A' * hermite n (sqrt 2 * xn) * hermite m (sqrt 2 * yn) * E) <=
    ((1 + 4 * u) ^ (5 + 6 * (n + m)) * (exp d * (1 + ee)) - 1) * (M * E) + ((1 + 4 * u) ^ (5 + 6 * (n + m)) * M + 1) * eta.
Proof.
  intros M E d. unfold fl_hermite. fold w' A'. pose proof poly_part as PP. pose proof (clo_abs _ _ _ _ PP) as Pb. destruct exponent_part as [Se S0]. fold M in PP, Pb. pose proof (clo_pos _ _ _ _ PP) as M0. destruct PP as [Pa Pe].
  set (Q := A' * hermite n (sqrt 2 * xn) * hermite m (sqrt 2 * yn)) in *. set (q := z_rnd l (z_rnd l (A' * _) * _)) in *. fold q in Pe, Pb.
  set (s' := z_rnd l (z_rnd l (_ ^ 2) + z_rnd l (_ ^ 2))) in *. fold d in Se. set (s := xn ^ 2 + yn ^ 2) in *. pose proof (Fe (- s') ltac:(lra)) as Fs.
  pose proof (exp_pos (- s)) as E0. fold E in E0. assert (d0 : 0 <= d) by (pose proof (Rabs_pos (s' - s)); lra). apply Rcomplements.Rabs_le_between in Se.
  assert (U1 : exp (- s') <= E * exp d). { unfold E. rewrite <- exp_plus. destruct (Rle_lt_or_eq_dec (- s') (- s + d) ltac:(lra)) as [L|L]; [left; apply exp_increasing, L|right; f_equal; exact L]. }
  assert (U2 : E <= exp (- s') * exp d). { unfold E. rewrite <- exp_plus. destruct (Rle_lt_or_eq_dec (- s) (- s' + d) ltac:(lra)) as [L|L]; [left; apply exp_increasing, L|right; f_equal; exact L]. }
  assert (ed : 1 <= exp d) by (pose proof (exp_ineq1_le d); lra). set (H := exp d) in *. pose proof (exp_pos (- s')) as E0'. set (E1 := exp (- s')) in *.
  assert (U3 : E - E1 <= (H - 1) * E). { destruct (Rle_dec E E1) as [K|K]; [assert (0 <= (H - 1) * E) by (apply Rmult_le_pos; lra); lra|]. assert ((H - 1) * E1 <= (H - 1) * E) by (apply Rmult_le_compat_l; lra). lra. }
  set (E2 := f_exp (- s')) in *. apply Rcomplements.Rabs_le_between in Fs. assert (eE : ee * E1 <= ee * (E * H)) by (apply Rmult_le_compat_l; lra). assert (HE : 0 <= H * ee * E) by (apply Rmult_le_pos; [apply Rmult_le_pos|]; lra).
  assert (D2 : Rabs (E2 - E) <= (H * (1 + ee) - 1) * E + eta) by (apply Rabs_le; lra). pose proof (abs_le_add _ _ _ D2) as B2. rewrite (Rabs_pos_eq E) in B2 by lra.
  pose proof (gp (4 + 6 * (n + m))) as G. change (5 + 6 * (n + m))%nat with (S (4 + 6 * (n + m))). cbn [pow]. set (g := (1 + 4 * u) ^ (4 + 6 * (n + m))) in *. set (h := H * (1 + ee)) in *.
  assert (h1 : 1 <= h) by (unfold h; nra).
  assert (ME : 0 <= M * E) by (apply Rmult_le_pos; lra). assert (Me : 0 <= M * eta) by (apply Rmult_le_pos; lra).
  assert (P1 : Rabs (q * E2 - Q * E) <= (g * h - 1) * (M * E) + g * (M * eta)).
  { replace (q * E2 - Q * E) with ((q - Q) * E2 + Q * (E2 - E)) by ring. eapply Rle_trans; [apply Rabs_triang|]. assert (Rabs ((q - Q) * E2) <= (g - 1) * M * (h * E + eta)) by (apply mult_le; [exact Pe|lra]). assert (Rabs (Q * (E2 - E)) <= M * ((h - 1) * E + eta)) by (apply mult_le; assumption). lra. }
  pose proof (rnd_err u eta B (z_rnd l) A ltac:(lra) _ _ _ P1) as K. eapply Rle_trans; [exact K|]. assert (QE : Rabs (Q * E) <= M * E) by (apply mult_le; [exact Pa|rewrite Rabs_pos_eq; lra]).
  assert (gh : 1 <= g * h) by nra. set (t := M * E) in *. set (e := M * eta) in *. assert (0 <= (g * h - 1) * t) by (apply Rmult_le_pos; lra). assert (0 <= g * e) by (apply Rmult_le_pos; lra).
  assert (u * (Rabs (Q * E) + ((g * h - 1) * t + g * e)) <= u * (g * h * t + g * e)) by (apply Rmult_le_compat_l; lra). assert (0 <= u * (g * h * t)) by (apply Rmult_le_pos; [lra|apply Rmult_le_pos; lra]). assert (0 <= u * (g * e)) by (apply Rmult_le_pos; lra).
  replace (((1 + 4 * u) * g * M + 1) * eta) with ((1 + 4 * u) * (g * e) + eta) by (unfold e; ring). lra.
Qed.
End Value.
End Close.
