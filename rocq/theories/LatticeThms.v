(** Averages over the pixels of an aperture approach integrals over the disc. *)
From Coq Require Import Reals Lra Psatz ZArith Arith List Bool Lia.
From Coquelicot Require Import Complex Coquelicot.
From Verif Require Import Cx Sums PyBase ProfileModel SlmModel ProfSpec ProfFacts ProfFacts2 ModeThms TensorThms ZernSpec ZernFacts ZernThms AnaSpec AnalysisModel AnsiFacts AnaFacts AnaThms LatticeSpec LatticeFacts DiscMoments.
Import ListNotations.
Open Scope R_scope.

Lemma px_centre nx radius j : 0 < radius -> px nx j / radius = centre nx (/ radius) j.
Proof. intros H. unfold px, centre. field. lra. Qed.
Lemma py_centre ny radius i : (i < ny)%nat -> 0 < radius -> py ny i / radius = centre ny (/ radius) (ny - 1 - i).
Proof. intros L H. unfold py, centre. rewrite !minus_INR by lia. cbn [INR]. field. lra. Qed.
Lemma asum_centre ny nx radius f : 0 < radius ->
  asum ny nx radius (sampled ny nx radius f) = rsum2 ny nx (fun i j => in_disc (centre nx (/ radius) j) (centre ny (/ radius) i) (f (centre nx (/ radius) j) (centre ny (/ radius) i))).
Proof.
  intros H. unfold asum, rsum2. rewrite <- (rsum_rev ny (fun i => rsum nx (fun j => in_disc (centre nx (/ radius) j) (centre ny (/ radius) i) (f (centre nx (/ radius) j) (centre ny (/ radius) i))))).
  apply rsum_ext. intros i Hi. apply rsum_ext. intros j Hj. rewrite ap_spec. unfold in_disc, sampled, dist_sq. rewrite <- px_centre, <- py_centre by assumption.
  replace ((px nx j / radius) ^ 2 + (py ny i / radius) ^ 2) with ((px nx j ^ 2 + py ny i ^ 2) / radius ^ 2) by (field; lra). assert (0 < radius ^ 2) by nra.
  destruct (Rlt_dec (px nx j ^ 2 + py ny i ^ 2) (radius ^ 2)) as [L|L], (Rlt_dec ((px nx j ^ 2 + py ny i ^ 2) / radius ^ 2) 1) as [G|G]; try reflexivity; exfalso.
  - apply G. apply (Rmult_lt_reg_r (radius ^ 2)); [assumption|]. unfold Rdiv. rewrite Rmult_assoc, Rinv_l by lra. lra.
  - apply L. apply (Rmult_lt_compat_r (radius ^ 2)) in G; [|assumption]. unfold Rdiv in G. rewrite Rmult_assoc, Rinv_l in G by lra. lra.
Qed.
Lemma fits_inside ny nx radius : aperture_fits ny nx radius -> inside ny nx radius <> [].
Proof.
  intros (H1 & H2 & H3). assert (N : forall n, 2 <= INR n -> exists k, (k < n)%nat /\ px n k ^ 2 <= / 4 /\ py n k ^ 2 <= / 4).
  { intros n Hn. exists (n / 2)%nat. assert (L : (2 <= n)%nat) by (apply INR_le; cbn [INR]; lra). pose proof (Nat.div_mod n 2 ltac:(lia)) as D. pose proof (Nat.mod_upper_bound n 2 ltac:(lia)) as U. split; [apply Nat.div_lt; lia|].
    assert (E : INR n = 2 * INR (n / 2) + INR (n mod 2)) by (rewrite D at 1; rewrite plus_INR, mult_INR; reflexivity). unfold px, py. rewrite E. assert (V : (n mod 2 = 0 \/ n mod 2 = 1)%nat) by lia. destruct V as [-> | ->]; cbn [INR]; split; nra. }
  destruct (N ny) as (i & Hi & _ & Yi); [lra|]. destruct (N nx) as (j & Hj & Xj & _); [lra|]. intros E. assert (I : In (i, j) (inside ny nx radius)) by (apply in_inside; unfold dist_sq; repeat split; try assumption; nra). rewrite E in I. exact I.
Qed.
Lemma average_le l f g : (forall i j, In (i, j) l -> f i j <= g i j) -> average l f <= average l g.
Proof.
  intros H. unfold average. destruct l as [|p l]; [cbn; lra|]. apply Rmult_le_compat_r; [left; apply Rinv_0_lt_compat, lt_0_INR; cbn; lia|].
  assert (T : forall l', (forall i j, In (i, j) l' -> f i j <= g i j) -> total l' f <= total l' g). { induction l' as [|[i j] l' IH]; intros X; [cbn; lra|]. rewrite !total_cons. cbn [fst snd]. pose proof (X i j (or_introl eq_refl)). pose proof (IH (fun i j Y => X i j (or_intror Y))). lra. }
  apply T, H.
Qed.
Lemma average_abs l f B : l <> [] -> (forall i j, In (i, j) l -> Rabs (f i j) <= B) -> Rabs (average l f) <= B.
Proof.
  intros NE H. apply Rabs_le. split.
  - rewrite <- (average_const l (- B) NE). apply average_le. intros i j I. pose proof (H i j I) as X. apply Rabs_le_between in X. lra.
  - rewrite <- (average_const l B NE). apply average_le. intros i j I. pose proof (H i j I) as X. apply Rabs_le_between in X. lra.
Qed.
Lemma inside_unit ny nx radius i j : 0 < radius -> In (i, j) (inside ny nx radius) -> Rabs (px nx j / radius) <= 1 /\ Rabs (py ny i / radius) <= 1.
Proof.
  intros HR I. apply in_inside in I. destruct I as (_ & _ & L). unfold dist_sq in L.
  assert (A : forall x, x ^ 2 < radius ^ 2 -> Rabs (x / radius) <= 1).
  { intros x Hx. unfold Rdiv. rewrite Rabs_mult, (Rabs_pos_eq (/ radius)) by (left; apply Rinv_0_lt_compat; lra). apply (Rmult_le_reg_r radius); [lra|]. rewrite Rmult_assoc, Rinv_l by lra. pose proof (Rabs_pos x). pose proof (Rsqr_abs x) as E. unfold Rsqr in E. nra. }
  split; apply A; nra.
Qed.
(** The average of a polynomial over the pixels of the aperture. *)
Lemma average_poly p : exists K, 0 <= K /\ forall ny nx radius, aperture_fits ny nx radius -> Rabs (average (inside ny nx radius) (sampled ny nx radius (beval p)) - bint p / PI) <= K / radius.
Proof.
  pose proof PI_ineq 0 as PI3. pose proof PI2_3_2 as PP. assert (P3 : 3 < PI) by lra. exists (bcost p + 28 * (bbound p + Rabs (bint p))). pose proof (bcost_pos p). pose proof (bbound_pos p). pose proof (Rabs_pos (bint p)). split; [lra|].
  intros ny nx radius Fi. pose proof (fits_inside _ _ _ Fi) as NE. destruct Fi as (Fi1 & Fi2 & Fi3). set (h := / radius). assert (Hh : 0 < h <= 1). { unfold h. split; [apply Rinv_0_lt_compat; lra|]. rewrite <- Rinv_1. apply Rinv_le_contravar; lra. }
  assert (Hx : 2 <= INR nx * h). { unfold h. apply (Rmult_le_reg_r radius); [lra|]. rewrite Rmult_assoc, Rinv_l by lra. lra. }
  assert (Hy : 2 <= INR ny * h). { unfold h. apply (Rmult_le_reg_r radius); [lra|]. rewrite Rmult_assoc, Rinv_l by lra. lra. }
  pose proof (bpoly_sum p ny nx h Hh Hx Hy) as A. pose proof (disc_sum 0 0 ny nx h Hh Hx Hy) as N. rewrite moment_00 in N. cbn [INR] in N.
  rewrite average_asum, asum_centre by lra. fold h.
  assert (C : INR (length (inside ny nx radius)) = rsum2 ny nx (fun i j => in_disc (centre nx h j) (centre ny h i) (centre nx h j ^ 0 * centre ny h i ^ 0))).
  { rewrite <- total_one, total_inside. change (fun _ _ : nat => 1) with (sampled ny nx radius (fun _ _ => 1)). rewrite asum_centre by lra. fold h. apply rsum2_ext. intros. cbn [pow]. rewrite Rmult_1_r. reflexivity. }
  rewrite C. set (S := rsum2 ny nx (fun i j => in_disc (centre nx h j) (centre ny h i) (beval p (centre nx h j) (centre ny h i)))) in *. set (M := rsum2 ny nx (fun i j => in_disc (centre nx h j) (centre ny h i) (centre nx h j ^ 0 * centre ny h i ^ 0))) in *.
  assert (MP : 0 < M) by (rewrite <- C; apply len_pos, NE).
  replace (S / M) with (h * h * S / (h * h * M)) by (field; split; [lra|]; nra). set (s := h * h * S) in *. set (q := h * h * M) in *.
  unfold Rdiv at 3. fold h. destruct (Rle_dec h (/ 28)) as [Sm|La].
  - assert (Q2 : 2 <= q). { apply Rabs_le_between in N. lra. }
    replace (s / q - bint p / PI) with ((s - bint p) * / q + bint p * ((PI - q) * / (q * PI))) by (field; lra). eapply Rle_trans; [apply Rabs_triang|]. rewrite !Rabs_mult.
    assert (I1 : Rabs (/ q) <= 1). { rewrite Rabs_pos_eq by (left; apply Rinv_0_lt_compat; lra). rewrite <- Rinv_1. apply Rinv_le_contravar; lra. }
    assert (I2 : Rabs (/ (q * PI)) <= 1). { assert (1 <= q * PI) by nra. rewrite Rabs_pos_eq by (left; apply Rinv_0_lt_compat; lra). rewrite <- Rinv_1. apply Rinv_le_contravar; lra. }
    assert (I3 : Rabs (PI - q) <= h * 28) by (rewrite Rabs_minus_sym; lra).
    assert (Rabs (s - bint p) * Rabs (/ q) <= h * bcost p * 1) by (apply Rmult_le_compat; try apply Rabs_pos; assumption).
    assert (Rabs (PI - q) * Rabs (/ (q * PI)) <= h * 28 * 1) by (apply Rmult_le_compat; try apply Rabs_pos; assumption).
    assert (Rabs (bint p) * (Rabs (PI - q) * Rabs (/ (q * PI))) <= Rabs (bint p) * (h * 28)) by (apply Rmult_le_compat_l; lra). nra.
  - assert (B1 : Rabs (s / q) <= bbound p).
    { unfold s, q. replace (h * h * S / (h * h * M)) with (S / M) by (field; split; [lra|]; nra). rewrite <- C. unfold S, h. rewrite <- asum_centre by lra. rewrite <- average_asum. apply average_abs; [exact NE|]. intros i j I. unfold sampled. destruct (inside_unit ny nx radius i j ltac:(lra) I). apply beval_bound; assumption. }
    assert (B2 : Rabs (bint p / PI) <= Rabs (bint p)). { unfold Rdiv. rewrite Rabs_mult, (Rabs_pos_eq (/ PI)) by (left; apply Rinv_0_lt_compat; lra). assert (/ PI <= 1) by (rewrite <- Rinv_1; apply Rinv_le_contravar; lra). nra. }
    eapply Rle_trans; [apply Rabs_triang|]. rewrite Rabs_Ropp. assert (28 * h >= 1) by lra. nra.
Qed.
Lemma average_converges p v : disc_integral (beval p) 1 v -> exists K, forall ny nx radius, aperture_fits ny nx radius -> Rabs (average (inside ny nx radius) (sampled ny nx radius (beval p)) - v / PI) <= K / radius.
Proof. intros H. rewrite (disc_integral_unique _ _ _ H (polar_bint p)). destruct (average_poly p) as (K & _ & X). exists K. exact X. Qed.

(** ** Zernike modes *)
Lemma polar_any x y : exists r phi, 0 <= r /\ x = r * cos phi /\ y = r * sin phi.
Proof. destruct (to_polar 0 0 x y) as (r & phi & Hr & X & Y). rewrite Rplus_0_l in X, Y. exists r, phi. auto. Qed.
Lemma ortho_poly n m n' m' f f' : zvalid n m -> zvalid n' m' -> (forall r phi, zmode 1 1 n m true r phi = f (r * cos phi) (r * sin phi)) -> (forall r phi, zmode 1 1 n' m' true r phi = f' (r * cos phi) (r * sin phi)) ->
  disc_integral (fun x y => f x y * f' x y) 1 (if ((n =? n') && (m =? m'))%Z then PI else 0).
Proof.
  intros V V' F F'. destruct (zern_evaluates heap0 1 1 n m true true V Rlt_0_1) as (h1 & p & E1 & _ & _ & G1). destruct (zern_evaluates heap0 1 1 n' m' true true V' Rlt_0_1) as (h2 & q & E2 & _ & _ & G2).
  replace (if ((n =? n') && (m =? m'))%Z then PI else 0) with (if ((n =? n') && (m =? m'))%Z then 1 * 1 * (PI * 1 ^ 2) else 0) by (destruct (((n =? n') && (m =? m'))%Z); ring).
  apply (zern_orthonormal heap0 heap0 1 1 1 n m n' m' true true h1 p h2 q f f' V V' Rlt_0_1 E1 E2).
  - intros x y. destruct (polar_any x y) as (r & phi & Hr & -> & ->). rewrite <- F. exact (G1 r phi Hr).
  - intros x y. destruct (polar_any x y) as (r & phi & Hr & -> & ->). rewrite <- F'. exact (G2 r phi Hr).
Qed.
Lemma sampled_mode ny nx radius n m e z f i j : 0 < radius -> samples_mode ny nx radius n m e z -> (forall r phi, zmode 1 1 n m true r phi = f (r * cos phi) (r * sin phi)) -> In (i, j) (inside ny nx radius) -> z i j = sampled ny nx radius f i j.
Proof.
  intros HR S F I. apply in_inside in I. destruct I as (Hi & Hj & L). destruct (polar_pixel ny nx i j) as (r & phi & Hr & Ex & Ey & E2). rewrite (S i j r phi Hi Hj Hr Ex Ey).
  destruct (Rle_dec r radius) as [Le|Le]; [|exfalso; apply Le; rewrite <- E2 in L; nra]. rewrite orb_true_r. unfold sampled. rewrite Ex, Ey. replace (r * cos phi / radius) with (r / radius * cos phi) by (field; lra). replace (r * sin phi / radius) with (r / radius * sin phi) by (field; lra).
  rewrite <- F. unfold zmode. replace (r / radius / 1) with (r / radius) by (field; lra). reflexivity.
Qed.
Lemma nearly_orthonormal n m n' m' : zvalid n m -> zvalid n' m' -> exists K, 0 <= K /\ forall ny nx radius e e' z z', aperture_fits ny nx radius -> samples_mode ny nx radius n m e z -> samples_mode ny nx radius n' m' e' z' ->
  Rabs (average (inside ny nx radius) (fun i j => z i j * z' i j) - if ((n =? n') && (m =? m'))%Z then 1 else 0) <= K / radius.
Proof.
  intros V V'. destruct (zmode_poly n m V) as (f & [p P] & F). destruct (zmode_poly n' m' V') as (f' & [p' P'] & F').
  destruct (ispoly_mult f f' (ex_intro _ p P) (ex_intro _ p' P')) as [q Q]. destruct (average_poly q) as (K & K0 & X). exists K. split; [exact K0|].
  intros ny nx radius e e' z z' Fi S S'. assert (HR : 0 < radius) by (destruct Fi; lra). specialize (X ny nx radius Fi).
  rewrite (average_ext _ _ (sampled ny nx radius (beval q))).
  2:{ intros i j I. rewrite (sampled_mode ny nx radius n m e z f i j HR S F I), (sampled_mode ny nx radius n' m' e' z' f' i j HR S' F' I). unfold sampled. apply Q. }
  replace (if ((n =? n') && (m =? m'))%Z then 1 else 0) with (bint q / PI); [exact X|].
  assert (D : disc_integral (beval q) 1 (if ((n =? n') && (m =? m'))%Z then PI else 0)).
  { destruct (ortho_poly n m n' m' f f' V V' F F') as (G & HG & IG). exists G. split; [|exact IG]. intros r Hr. apply (is_RInt_ext (fun phi => f (r * cos phi) (r * sin phi) * f' (r * cos phi) (r * sin phi) * r)); [|exact (HG r Hr)]. intros t _. rewrite Q. reflexivity. }
  rewrite (disc_integral_unique _ _ _ (polar_bint q) D). pose proof PI_RGT_0. destruct (((n =? n') && (m =? m'))%Z); field; lra.
Qed.
(** Coefficients of a polynomial phase. *)
Lemma poly_coefficient n m p v : zvalid n m -> (forall f, (forall r phi, zmode 1 1 n m true r phi = f (r * cos phi) (r * sin phi)) -> disc_integral (fun x y => beval p x y * f x y) 1 v) ->
  exists K, 0 <= K /\ forall ny nx radius e z, aperture_fits ny nx radius -> samples_mode ny nx radius n m e z -> Rabs (average (inside ny nx radius) (fun i j => sampled ny nx radius (beval p) i j * z i j) - v / PI) <= K / radius.
Proof.
  intros V D. destruct (zmode_poly n m V) as (f & [p' P'] & F). specialize (D f F). destruct (ispoly_mult (beval p) f (ex_intro _ p (fun x y => eq_refl)) (ex_intro _ p' P')) as [q Q]. destruct (average_poly q) as (K & K0 & X). exists K. split; [exact K0|].
  intros ny nx radius e z Fi S. assert (HR : 0 < radius) by (destruct Fi; lra). specialize (X ny nx radius Fi). rewrite (average_ext _ _ (sampled ny nx radius (beval q))).
  2:{ intros i j I. rewrite (sampled_mode ny nx radius n m e z f i j HR S F I). unfold sampled. apply Q. }
  assert (D' : disc_integral (beval q) 1 v). { destruct D as (G & HG & IG). exists G. split; [|exact IG]. intros r Hr. apply (is_RInt_ext (fun phi => beval p (r * cos phi) (r * sin phi) * f (r * cos phi) (r * sin phi) * r)); [|exact (HG r Hr)]. intros t _. rewrite Q. reflexivity. }
  rewrite (disc_integral_unique _ _ _ D' (polar_bint q)). exact X.
Qed.
Lemma uniform (Q : nat -> R -> Prop) T : (forall k, (k < T)%nat -> exists K, 0 <= K /\ Q k K) -> (forall k K K', Q k K -> K <= K' -> Q k K') -> exists K, 0 <= K /\ forall k, (k < T)%nat -> Q k K.
Proof.
  intros E M. induction T as [|T IH]; [exists 0; split; [lra|]; intros; lia|]. destruct IH as (K & K0 & H); [intros; apply E; lia|]. destruct (E T) as (K' & K0' & H'); [lia|]. exists (K + K'). split; [lra|]. intros k Hk.
  destruct (Nat.eq_dec k T) as [->|N]; [apply (M T K'); [exact H'|lra]|]. apply (M k K); [apply H; lia|lra].
Qed.
Lemma coefficients_recovered T : (9 + 8 * (Z.of_nat T - 1) <= 2 ^ 53)%Z -> exists K, forall h ny nx radius e e' z (a : nat -> R) P cs g, aperture_fits ny nx radius ->
  samples_ansi ny nx radius e' T z -> (forall i j, In (i, j) (inside ny nx radius) -> P i j = rsum T (fun l => a l * z l i j)) -> zernike_decomposition h ny nx P radius (Z.of_nat T) e = Ok (map Some cs, g) ->
  forall k, (k < T)%nat -> Rabs (nth k cs 0 - a k) <= K / radius * rsum T (fun l => Rabs (a l)).
Proof.
  intros B.
  destruct (uniform (fun k K => forall l, (l < T)%nat -> forall n m n' m', zvalid n m -> zvalid n' m' -> (2 * Z.of_nat k = n * (n + 2) + m)%Z -> (2 * Z.of_nat l = n' * (n' + 2) + m')%Z -> forall ny nx radius e e' z z', aperture_fits ny nx radius -> samples_mode ny nx radius n m e z -> samples_mode ny nx radius n' m' e' z' ->
     Rabs (average (inside ny nx radius) (fun i j => z i j * z' i j) - if (k =? l)%nat then 1 else 0) <= K / radius) T) as (K & K0 & HK).
  - intros k Hk. apply (uniform (fun l K => forall n m n' m', zvalid n m -> zvalid n' m' -> (2 * Z.of_nat k = n * (n + 2) + m)%Z -> (2 * Z.of_nat l = n' * (n' + 2) + m')%Z -> forall ny nx radius e e' z z', aperture_fits ny nx radius -> samples_mode ny nx radius n m e z -> samples_mode ny nx radius n' m' e' z' ->
     Rabs (average (inside ny nx radius) (fun i j => z i j * z' i j) - if (k =? l)%nat then 1 else 0) <= K / radius) T).
    + intros l Hl. destruct (ansi_pair_exists (Z.of_nat k) ltac:(lia)) as (n & m & V & J1). destruct (ansi_pair_exists (Z.of_nat l) ltac:(lia)) as (n' & m' & V' & J2). destruct (nearly_orthonormal n m n' m' V V') as (K & K0 & X). exists K. split; [exact K0|].
      intros n1 m1 n1' m1' V1 V1' J1' J2' ny nx radius e e' z z' Fi S S'. destruct (ansi_pair_unique _ _ _ _ _ V1 J1' V J1) as [-> ->]. destruct (ansi_pair_unique _ _ _ _ _ V1' J2' V' J2) as [-> ->].
      replace (if (k =? l)%nat then 1 else 0) with (if ((n =? n') && (m =? m'))%Z then 1 else 0); [exact (X ny nx radius e e' z z' Fi S S')|].
      destruct (Nat.eqb_spec k l) as [->|N]. * destruct (ansi_pair_unique _ _ _ _ _ V J1 V' J2) as [-> ->]. rewrite !Z.eqb_refl. reflexivity. * destruct (Z.eqb_spec n n') as [->|]; [|reflexivity]. destruct (Z.eqb_spec m m') as [->|]; [exfalso; lia|reflexivity].
    + intros l K K' H L n m n' m' V V' J1 J2 ny nx radius e e' z z' Fi S S'. eapply Rle_trans; [apply (H n m n' m' V V' J1 J2 ny nx radius e e' z z' Fi S S')|]. assert (0 < radius) by (destruct Fi; lra). apply Rmult_le_compat_r; [left; apply Rinv_0_lt_compat; lra|exact L].
  - intros k K K' H L l Hl n m n' m' V V' J1 J2 ny nx radius e e' z z' Fi S S'. eapply Rle_trans; [apply (H l Hl n m n' m' V V' J1 J2 ny nx radius e e' z z' Fi S S')|]. assert (0 < radius) by (destruct Fi; lra). apply Rmult_le_compat_r; [left; apply Rinv_0_lt_compat; lra|exact L].
  - exists K. intros h ny nx radius e e' z a P cs g Fi SA HP E k Hk. assert (HR : 0 < radius) by (destruct Fi; lra). pose proof (fits_inside _ _ _ Fi) as NE.
    destruct (decompose_spec h ny nx P radius T e HR NE B) as (zs & cs' & g' & E' & Len & Zs & Cs & _). rewrite E in E'. injection E' as E' _.
    assert (cs = cs') as -> by (clear -E'; revert cs' E'; induction cs as [|c cs IH]; intros [|c' cs'] E'; cbn in E'; try discriminate; [reflexivity|]; injection E' as -> E'; f_equal; apply IH, E').
    rewrite (Cs k Hk). set (A := average (inside ny nx radius)).
    assert (EA : A (fun i j => P i j * zs k i j) = rsum T (fun l => a l * A (fun i j => z l i j * zs k i j))).
    { transitivity (A (fun i j => rsum T (fun l => a l * (z l i j * zs k i j)))).
      - unfold A. apply average_ext. intros i j I. rewrite (HP i j I), <- rsum_scal_r. apply rsum_ext. intros; ring.
      - unfold A. clear. induction T as [|T IH]; cbn [rsum]; [unfold average; rewrite (total_ext _ _ (fun i j => 0 * 1 + 0 * 1)) by (intros; ring); rewrite (total_lin _ 0 0 (fun _ _ => 1) (fun _ _ => 1)); unfold Rdiv; ring|]. rewrite average_plus, IH, average_scal. reflexivity. }
    rewrite EA. replace (a k) with (rsum T (fun l => a l * if (l =? k)%nat then 1 else 0)).
    2:{ rewrite (rsum_single T k) by (try exact Hk; intros l _ Nl; rewrite (proj2 (Nat.eqb_neq l k) Nl); ring). rewrite Nat.eqb_refl. ring. }
    rewrite <- rsum_minus. eapply Rle_trans; [apply rsum_abs|]. rewrite <- rsum_scal_l. apply rsum_le. intros l Hl. destruct (SA l Hl) as (n & m & V & J1 & S1). destruct (Zs k Hk) as (n' & m' & V' & J2 & S2).
    rewrite <- Rmult_minus_distr_l, Rabs_mult, Rmult_comm. apply Rmult_le_compat_r; [apply Rabs_pos|]. exact (HK l Hl k Hk n m n' m' V V' J1 J2 ny nx radius e' e (z l) (zs k) Fi S1 S2).
Qed.

(** ** remove_trivial_phase *)
Lemma zv00 : zvalid 0 0. Proof. split; [cbn; lia|reflexivity]. Qed.
Lemma zv1m : zvalid 1 (-1). Proof. split; [cbn; lia|reflexivity]. Qed.
Lemma zv11 : zvalid 1 1. Proof. split; [cbn; lia|reflexivity]. Qed.
Lemma zv20 : zvalid 2 0. Proof. split; [cbn; lia|reflexivity]. Qed.
Lemma tilt_rate : exists K, 0 <= K /\ forall ny nx radius, aperture_fits ny nx radius ->
  Rabs (1 - 4 / radius ^ 2 * average (inside ny nx radius) (fun _ j => px nx j ^ 2)) <= K / radius /\ Rabs (1 - 4 / radius ^ 2 * average (inside ny nx radius) (fun i _ => py ny i ^ 2)) <= K / radius.
Proof.
  destruct (nearly_orthonormal 1 1 1 1 zv11 zv11) as (K1 & P1 & H1). destruct (nearly_orthonormal 1 (-1) 1 (-1) zv1m zv1m) as (K2 & P2 & H2). exists (K1 + K2). split; [lra|]. intros ny nx radius Fi.
  assert (HR : 0 < radius) by (destruct Fi; lra). assert (HI : 0 < / radius) by (apply Rinv_0_lt_compat; lra).
  destruct (zernike_sampled heap0 ny nx radius 1 1 false zv11 HR) as (z1 & _ & S1). destruct (zernike_sampled heap0 ny nx radius 1 (-1) false zv1m HR) as (z2 & _ & S2).
  specialize (H1 ny nx radius false false z1 z1 Fi S1 S1). specialize (H2 ny nx radius false false z2 z2 Fi S2 S2). cbn [Z.eqb Pos.eqb andb] in H1, H2.
  rewrite (average_ext _ _ (fun i j => 4 / radius ^ 2 * px nx j ^ 2)) in H1. 2:{ intros i j I. destruct (inside_bounds _ _ _ _ _ I). rewrite (mode_11 _ _ _ _ HR S1), disc_inside by assumption. field. lra. }
  rewrite (average_ext _ _ (fun i j => 4 / radius ^ 2 * py ny i ^ 2)) in H2. 2:{ intros i j I. destruct (inside_bounds _ _ _ _ _ I). rewrite (mode_1m _ _ _ _ HR S2), disc_inside by assumption. field. lra. }
  rewrite (average_scal _ (4 / radius ^ 2) (fun i j => px nx j ^ 2)), Rabs_minus_sym in H1. rewrite (average_scal _ (4 / radius ^ 2) (fun i j => py ny i ^ 2)), Rabs_minus_sym in H2. unfold Rdiv in *. split; nra.
Qed.
Lemma defocus_rate : exists K, 0 <= K /\ forall ny nx radius, aperture_fits ny nx radius -> Rabs (average (inside ny nx radius) (defocus ny nx radius)) <= K / radius.
Proof.
  destruct (nearly_orthonormal 2 0 0 0 zv20 zv00) as (K & P & H). exists K. split; [exact P|]. intros ny nx radius Fi. assert (HR : 0 < radius) by (destruct Fi; lra).
  destruct (zernike_sampled heap0 ny nx radius 2 0 false zv20 HR) as (z1 & _ & S1). destruct (zernike_sampled heap0 ny nx radius 0 0 false zv00 HR) as (z2 & _ & S2).
  specialize (H ny nx radius false false z1 z2 Fi S1 S2). cbn [Z.eqb andb] in H. rewrite (average_ext _ _ (fun i j => sqrt 3 * defocus ny nx radius i j)) in H.
  2:{ intros i j I. destruct (inside_bounds _ _ _ _ _ I). rewrite (mode_20 _ _ _ _ HR S1), (mode_00 _ _ _ _ HR S2), !disc_inside by assumption. unfold defocus. ring. }
  rewrite average_scal, Rminus_0_r, Rabs_mult in H. assert (1 <= sqrt 3) by (rewrite <- sqrt_1 at 1; apply sqrt_le_1; lra). rewrite (Rabs_pos_eq (sqrt 3)) in H by lra. pose proof (Rabs_pos (average (inside ny nx radius) (defocus ny nx radius))). nra.
Qed.
Lemma tilt_small : exists K, forall h ny nx radius P a b c g, aperture_fits ny nx radius -> (forall i j, (i < ny)%nat -> (j < nx)%nat -> P i j = a * px nx j + b * py ny i + c) ->
  remove_trivial_phase h ny nx P radius false = Ok (Some g) -> forall i j, (i < ny)%nat -> (j < nx)%nat -> dist_sq ny nx i j <= radius ^ 2 -> Rabs (g i j) <= K / radius * (Rabs (a * px nx j) + Rabs (b * py ny i)).
Proof.
  destruct tilt_rate as (K & K0 & H). exists K. intros h ny nx radius P a b c g Fi HP E i j Hi Hj D. destruct (H ny nx radius Fi) as [H1 H2]. pose proof (fits_inside _ _ _ Fi) as NE. assert (HR : 0 < radius) by (destruct Fi; lra).
  rewrite (rt_tilt h ny nx P radius a b c g HR NE HP E i j Hi Hj D). eapply Rle_trans; [apply Rabs_triang|]. rewrite Rmult_plus_distr_l, !(Rabs_mult (1 - _)). apply Rplus_le_compat; apply Rmult_le_compat_r; try apply Rabs_pos; assumption.
Qed.
Lemma moment_bound ny nx radius P B : aperture_fits ny nx radius -> (forall i j, In (i, j) (inside ny nx radius) -> Rabs (P i j) <= B) ->
  Rabs (average (inside ny nx radius) P) <= B /\ Rabs (average (inside ny nx radius) (fun i j => P i j * px nx j)) <= B * radius /\ Rabs (average (inside ny nx radius) (fun i j => P i j * py ny i)) <= B * radius.
Proof.
  intros Fi H. pose proof (fits_inside _ _ _ Fi) as NE. assert (HR : 0 < radius) by (destruct Fi; lra).
  assert (U : forall x, Rabs (x / radius) <= 1 -> Rabs x <= radius). { intros x Hx. unfold Rdiv in Hx. rewrite Rabs_mult, (Rabs_pos_eq (/ radius)) in Hx by (left; apply Rinv_0_lt_compat; lra). apply (Rmult_le_compat_r radius) in Hx; [|lra]. rewrite Rmult_assoc, Rinv_l in Hx by lra. lra. }
  split; [|split]; (apply average_abs; [exact NE|]; intros i j I; pose proof (H i j I); destruct (inside_unit _ _ _ _ _ HR I) as [X Y]; apply U in X; apply U in Y); [assumption| |]; rewrite Rabs_mult; apply Rmult_le_compat; try apply Rabs_pos; assumption.
Qed.
Lemma second_pass_small : exists K, forall h ny nx radius P B f g, aperture_fits ny nx radius -> (forall i j, In (i, j) (inside ny nx radius) -> Rabs (P i j) <= B) ->
  remove_trivial_phase h ny nx P radius false = Ok (Some f) -> remove_trivial_phase h ny nx f radius false = Ok (Some g) -> forall i j, (i < ny)%nat -> (j < nx)%nat -> Rabs (g i j - f i j) <= K / radius * B.
Proof.
  destruct tilt_rate as (K & K0 & H). exists (8 * K). intros h ny nx radius P B f g Fi HB E1 E2 i j Hi Hj. destruct (H ny nx radius Fi) as [H1 H2]. pose proof (fits_inside _ _ _ Fi) as NE. assert (HR : 0 < radius) by (destruct Fi; lra).
  destruct (moment_bound ny nx radius P B Fi HB) as (M0 & M1 & M2). rewrite (rt_twice h ny nx P radius f g HR NE E1 E2 i j Hi Hj).
  assert (B0 : 0 <= B) by (pose proof (Rabs_pos (average (inside ny nx radius) P)); lra). assert (KR : 0 <= K / radius) by (apply Rmult_le_pos; [lra|left; apply Rinv_0_lt_compat; lra]).
  match goal with |- Rabs (f i j - ?t - f i j) <= _ => replace (f i j - t - f i j) with (- t) by ring end. rewrite Rabs_Ropp. replace (8 * K / radius * B) with (8 * (K / radius * B)) by (field; lra). assert (KB : 0 <= K / radius * B) by nra.
  destruct (Rle_dec (dist_sq ny nx i j) (radius ^ 2)) as [D|D]; [|rewrite Rabs_R0; lra]. unfold dist_sq in D.
  assert (X1 : Rabs (px nx j) <= radius) by (apply Rabs_le; split; nra). assert (Y1 : Rabs (py ny i) <= radius) by (apply Rabs_le; split; nra).
  assert (T : forall u v w, Rabs u <= K / radius -> Rabs v <= B * radius -> Rabs w <= radius -> Rabs (4 / radius ^ 2 * u * v * w) <= 4 * (K / radius * B)).
  { intros u v w Hu Hv Hw. rewrite !Rabs_mult. rewrite (Rabs_pos_eq (4 / radius ^ 2)) by (apply Rmult_le_pos; [lra|left; apply Rinv_0_lt_compat; nra]).
    replace (4 * (K / radius * B)) with (4 / radius ^ 2 * (K / radius) * (B * radius) * radius) by (field; lra). repeat apply Rmult_le_compat; try apply Rabs_pos; try assumption; try (repeat apply Rmult_le_pos; try apply Rabs_pos; try lra; left; apply Rinv_0_lt_compat; nra); lra. }
  eapply Rle_trans; [apply Rabs_triang|]. pose proof (T _ _ _ H2 M2 Y1). pose proof (T _ _ _ H1 M1 X1). lra.
Qed.
Lemma defocus_left h ny nx P radius f g : 0 < radius -> inside ny nx radius <> [] -> remove_trivial_phase h ny nx P radius false = Ok (Some f) -> remove_trivial_phase h ny nx P radius true = Ok (Some g) ->
  average (inside ny nx radius) g = - 3 * average (inside ny nx radius) (fun i j => f i j * (2 * dist_sq ny nx i j / radius ^ 2 - 1)) * average (inside ny nx radius) (fun i j => 2 * dist_sq ny nx i j / radius ^ 2 - 1).
Proof.
  intros HR NE E1 E2. destruct (rt_closed_defocus h ny nx P radius HR NE) as (f' & g' & E1' & E2' & G). assert (f' = f) by congruence. assert (g' = g) by congruence. subst f' g'.
  set (D := fun i j => 2 * dist_sq ny nx i j / radius ^ 2 - 1). change (fun i j => f i j * (2 * dist_sq ny nx i j / radius ^ 2 - 1)) with (fun i j => f i j * D i j) in *. set (c := average (inside ny nx radius) (fun i j => f i j * D i j)) in *.
  rewrite (average_ext _ g (fun i j => 1 * f i j + (- 3 * c) * D i j)).
  - rewrite average_lin, (rt_zero_mean h ny nx P radius f HR NE E1). ring.
  - intros i j I. destruct (inside_bounds _ _ _ _ _ I). rewrite G by assumption. apply in_inside in I. destruct I as (_ & _ & L). destruct (Rle_dec (dist_sq ny nx i j) (radius ^ 2)) as [Q|Q]; [|exfalso; lra]. fold (D i j). ring.
Qed.
Lemma defocus_mean_small : exists K, forall h ny nx radius P B g, aperture_fits ny nx radius -> (forall i j, In (i, j) (inside ny nx radius) -> Rabs (P i j) <= B) ->
  remove_trivial_phase h ny nx P radius true = Ok (Some g) -> Rabs (average (inside ny nx radius) g) <= K / radius * B.
Proof.
  destruct defocus_rate as (K & K0 & H). exists (30 * K). intros h ny nx radius P B g Fi HB E. specialize (H ny nx radius Fi). pose proof (fits_inside _ _ _ Fi) as NE. assert (HR : 0 < radius) by (destruct Fi; lra).
  destruct (moment_bound ny nx radius P B Fi HB) as (M0 & M1 & M2). assert (B0 : 0 <= B) by (pose proof (Rabs_pos (average (inside ny nx radius) P)); lra).
  destruct (remove_closed h ny nx P radius true HR NE) as (g' & E' & G). rewrite E in E'. injection E' as <-.
  set (l := inside ny nx radius) in *. set (c := average l (fun i j => flat ny nx radius P i j * defocus ny nx radius i j)) in *.
  assert (FB : forall i j, In (i, j) l -> Rabs (flat ny nx radius P i j) <= 10 * B).
  { intros i j I. unfold l in I. rewrite flat_inside by exact I. fold l. pose proof (HB i j I) as X0. destruct (inside_unit _ _ _ _ _ HR I) as [X Y].
    set (u := px nx j / radius) in *. set (v := py ny i / radius) in *. replace (px nx j) with (radius * u) by (unfold u; field; lra). replace (py ny i) with (radius * v) by (unfold v; field; lra).
    set (mx := average l (fun i j => P i j * px nx j)) in *. set (my := average l (fun i j => P i j * py ny i)) in *.
    assert (T : forall m w, Rabs m <= B * radius -> Rabs w <= 1 -> Rabs (4 / radius ^ 2 * m * (radius * w)) <= 4 * B).
    { intros m w Hm Hw. replace (4 / radius ^ 2 * m * (radius * w)) with (4 / radius * m * w) by (field; lra). replace (4 * B) with (4 / radius * (B * radius) * 1) by (field; lra). rewrite !Rabs_mult, (Rabs_pos_eq (4 / radius)) by (apply Rmult_le_pos; [lra|left; apply Rinv_0_lt_compat; lra]).
      assert (R4 : 0 <= 4 / radius) by (apply Rmult_le_pos; [lra|left; apply Rinv_0_lt_compat; lra]). apply Rmult_le_compat; try apply Rabs_pos; [apply Rmult_le_pos; [exact R4|apply Rabs_pos]| |exact Hw]. apply Rmult_le_compat_l; assumption. }
    pose proof (T my v M2 Y) as T1. pose proof (T mx u M1 X) as T2. apply Rabs_le_between in X0, M0, T1, T2. apply Rabs_le. lra. }
  assert (DB : forall i j, In (i, j) l -> Rabs (defocus ny nx radius i j) <= 1).
  { intros i j I. apply in_inside in I. destruct I as (_ & _ & L). unfold defocus. assert (0 <= dist_sq ny nx i j / radius ^ 2 <= 1). { assert (0 <= dist_sq ny nx i j) by (unfold dist_sq; nra). split; [apply Rmult_le_pos; [lra|left; apply Rinv_0_lt_compat; nra]|]. apply (Rmult_le_reg_r (radius ^ 2)); [nra|]. unfold Rdiv. rewrite Rmult_assoc, Rinv_l by nra. lra. } apply Rabs_le. unfold Rdiv in *. lra. }
  assert (CB : Rabs c <= 10 * B). { unfold c. apply average_abs; [exact NE|]. intros i j I. rewrite Rabs_mult. pose proof (FB i j I). pose proof (DB i j I). pose proof (Rabs_pos (flat ny nx radius P i j)). pose proof (Rabs_pos (defocus ny nx radius i j)). nra. }
  assert (AG : average l g = - 3 * c * average l (defocus ny nx radius)).
  { rewrite (average_ext l g (fun i j => 1 * flat ny nx radius P i j + (- 3 * c) * defocus ny nx radius i j)).
    - rewrite average_lin. unfold l. rewrite avg_flat by exact NE. ring.
    - intros i j I. destruct (inside_bounds _ _ _ _ _ I). rewrite G by assumption. rewrite disc_inside by exact I. fold c. ring. }
  rewrite AG, !Rabs_mult. replace (Rabs (-3)) with 3 by (rewrite Rabs_left by lra; ring). replace (30 * K / radius * B) with (3 * (10 * B) * (K / radius)) by (field; lra). apply Rmult_le_compat; try apply Rabs_pos; try (apply Rmult_le_pos; [lra|apply Rabs_pos]); [nra|exact H].
Qed.

(** ** The decomposition of a sampled polynomial, and the reconstruction *)
Lemma map_Some_inj (a b : list R) : map Some a = map Some b -> a = b.
Proof. revert b. induction a as [|c a IH]; intros [|c' b] E; cbn in E; try discriminate; [reflexivity|]. injection E as -> E. f_equal. apply IH, E. Qed.
Lemma decomposition_of_poly p k n m v : zvalid n m -> (2 * Z.of_nat k = n * (n + 2) + m)%Z ->
  (forall f, (forall r phi, zmode 1 1 n m true r phi = f (r * cos phi) (r * sin phi)) -> disc_integral (fun x y => beval p x y * f x y) 1 v) ->
  exists K, forall h ny nx radius T e P cs g, aperture_fits ny nx radius -> (k < T)%nat -> (9 + 8 * (Z.of_nat T - 1) <= 2 ^ 53)%Z -> (forall i j, In (i, j) (inside ny nx radius) -> P i j = sampled ny nx radius (beval p) i j) ->
  zernike_decomposition h ny nx P radius (Z.of_nat T) e = Ok (map Some cs, g) -> Rabs (nth k cs 0 - v / PI) <= K / radius.
Proof.
  intros V J D. destruct (poly_coefficient n m p v V D) as (K & _ & X). exists K. intros h ny nx radius T e P cs g Fi Hk B HP E. assert (HR : 0 < radius) by (destruct Fi; lra). pose proof (fits_inside _ _ _ Fi) as NE.
  destruct (decompose_spec h ny nx P radius T e HR NE B) as (zs & cs' & g' & E' & _ & Zs & Cs & _). rewrite E in E'. injection E' as E' _. apply map_Some_inj in E'. subst cs'.
  rewrite (Cs k Hk). destruct (Zs k Hk) as (n' & m' & V' & J' & S'). destruct (ansi_pair_unique _ _ _ _ _ V' J' V J) as [-> ->]. rewrite (average_ext _ _ (fun i j => sampled ny nx radius (beval p) i j * zs k i j)) by (intros i j I; rewrite (HP i j I); reflexivity).
  exact (X ny nx radius e (zs k) Fi S').
Qed.
Lemma mode_bounded n m : zvalid n m -> exists M, 0 <= M /\ forall ny nx radius e z i j, 0 < radius -> samples_mode ny nx radius n m e z -> In (i, j) (inside ny nx radius) -> Rabs (z i j) <= M.
Proof.
  intros V. destruct (zmode_poly n m V) as (f & [p P] & F). exists (bbound p). split; [apply bbound_pos|]. intros ny nx radius e z i j HR S I. rewrite (sampled_mode ny nx radius n m e z f i j HR S F I). unfold sampled. rewrite P. destruct (inside_unit _ _ _ _ _ HR I). apply beval_bound; assumption.
Qed.
Lemma same_inside ny nx radius n m e e' z z' i j : 0 < radius -> samples_mode ny nx radius n m e z -> samples_mode ny nx radius n m e' z' -> In (i, j) (inside ny nx radius) -> z i j = z' i j.
Proof.
  intros HR S S' I. apply in_inside in I. destruct I as (Hi & Hj & L). destruct (polar_pixel ny nx i j) as (r & phi & Hr & Ex & Ey & E2). rewrite (S i j r phi Hi Hj Hr Ex Ey), (S' i j r phi Hi Hj Hr Ex Ey).
  destruct (Rle_dec r radius) as [Le|Le]; [|exfalso; apply Le; rewrite <- E2 in L; nra]. rewrite !orb_true_r. reflexivity.
Qed.
Lemma reconstructed T : (9 + 8 * (Z.of_nat T - 1) <= 2 ^ 53)%Z -> exists K, forall h ny nx radius e e' z (a : nat -> R) P cs g, aperture_fits ny nx radius ->
  samples_ansi ny nx radius e' T z -> (forall i j, In (i, j) (inside ny nx radius) -> P i j = rsum T (fun l => a l * z l i j)) -> zernike_decomposition h ny nx P radius (Z.of_nat T) e = Ok (map Some cs, Some g) ->
  forall i j, In (i, j) (inside ny nx radius) -> Rabs (g i j - P i j) <= K / radius * rsum T (fun l => Rabs (a l)).
Proof.
  intros B. destruct (coefficients_recovered T B) as (K & HK).
  destruct (uniform (fun k M => forall n m, zvalid n m -> (2 * Z.of_nat k = n * (n + 2) + m)%Z -> forall ny nx radius e z i j, 0 < radius -> samples_mode ny nx radius n m e z -> In (i, j) (inside ny nx radius) -> Rabs (z i j) <= M) T) as (M & M0 & HM).
  - intros k Hk. destruct (ansi_pair_exists (Z.of_nat k) ltac:(lia)) as (n & m & V & J). destruct (mode_bounded n m V) as (M & M0 & H). exists M. split; [exact M0|]. intros n' m' V' J'. destruct (ansi_pair_unique _ _ _ _ _ V' J' V J) as [-> ->]. exact H.
  - intros k M M' H L n m V J ny nx radius e z i j HR S I. pose proof (H n m V J ny nx radius e z i j HR S I). lra.
  - exists (INR T * (K * M)). intros h ny nx radius e e' z a P cs g Fi SA HP E i j I. assert (HR : 0 < radius) by (destruct Fi; lra). pose proof (fits_inside _ _ _ Fi) as NE.
    pose proof (HK h ny nx radius e e' z a P cs (Some g) Fi SA HP E) as C. destruct (decompose_spec h ny nx P radius T e HR NE B) as (zs & cs' & g' & E' & _ & Zs & _ & G). rewrite E in E'. injection E' as E' Eg. apply map_Some_inj in E'. subst cs' g'.
    destruct (inside_bounds _ _ _ _ _ I) as [Hi Hj]. rewrite G, (HP i j I) by assumption. rewrite <- rsum_minus. eapply Rle_trans; [apply rsum_abs|]. set (A := rsum T (fun l => Rabs (a l))) in *.
    replace (INR T * (K * M) / radius * A) with (INR T * (K / radius * A * M)) by (field; lra). rewrite <- rsum_const. apply rsum_le. intros k Hk. destruct (Zs k Hk) as (n & m & V & J & S1). destruct (SA k Hk) as (n' & m' & V' & J' & S2). destruct (ansi_pair_unique _ _ _ _ _ V' J' V J) as [-> ->].
    rewrite (same_inside ny nx radius n m e' e (z k) (zs k) i j HR S2 S1 I). rewrite <- Rmult_minus_distr_r, Rabs_mult. apply Rmult_le_compat; try apply Rabs_pos; [exact (C k Hk)|exact (HM k Hk n m V J ny nx radius e (zs k) i j HR S1 I)].
Qed.
(** The number of pixels in the aperture: Gauss's circle bound. *)
Lemma aperture_area ny nx radius : aperture_fits ny nx radius -> Rabs (INR (length (inside ny nx radius)) - PI * radius ^ 2) <= 28 * radius.
Proof.
  intros (F1 & F2 & F3). set (h := / radius). assert (Hh : 0 < h <= 1). { unfold h. split; [apply Rinv_0_lt_compat; lra|]. rewrite <- Rinv_1. apply Rinv_le_contravar; lra. }
  assert (Hx : 2 <= INR nx * h). { unfold h. apply (Rmult_le_reg_r radius); [lra|]. rewrite Rmult_assoc, Rinv_l by lra. lra. }
  assert (Hy : 2 <= INR ny * h). { unfold h. apply (Rmult_le_reg_r radius); [lra|]. rewrite Rmult_assoc, Rinv_l by lra. lra. }
  pose proof (disc_sum 0 0 ny nx h Hh Hx Hy) as N. rewrite moment_00 in N. cbn [INR] in N.
  assert (C : INR (length (inside ny nx radius)) = rsum2 ny nx (fun i j => in_disc (centre nx h j) (centre ny h i) (centre nx h j ^ 0 * centre ny h i ^ 0))).
  { rewrite <- total_one, total_inside. change (fun _ _ : nat => 1) with (sampled ny nx radius (fun _ _ => 1)). rewrite asum_centre by lra. fold h. apply rsum2_ext. intros. cbn [pow]. rewrite Rmult_1_r. reflexivity. }
  rewrite <- C in N. replace (INR (length (inside ny nx radius)) - PI * radius ^ 2) with (radius ^ 2 * (h * h * INR (length (inside ny nx radius)) - PI)) by (unfold h; field; lra).
  rewrite Rabs_mult, (Rabs_pos_eq (radius ^ 2)) by nra. replace (28 * radius) with (radius ^ 2 * (h * (12 * 0 + 4 * 0 + 28))) by (unfold h; field; lra). apply Rmult_le_compat_l; [nra|exact N].
Qed.
Lemma disc_x2y2 : disc_integral (beval [(1, (2, 0)%nat); (1, (0, 2)%nat)]) 1 (PI / 2).
Proof.
  exists (fun r => 2 * PI * r ^ 3). split.
  - intros r _. apply (is_RInt_ext (fun _ => r ^ 3)).
    + intros t _. unfold beval. cbn [fold_right fst snd pow]. pose proof (sin2_cos2 t) as E. unfold Rsqr in E. match goal with |- ?x = ?y => change (@eq R x y) end. replace (r * (r * (r * 1))) with (r * r * r * (sin t * sin t + cos t * cos t)) by (rewrite E; ring). ring.
    + apply (ftc (fun t => r ^ 3 * t)); [intros x; auto_derive; [trivial|ring]|intros x; auto_derive; trivial|ring].
  - apply (ftc (fun r => PI * r ^ 4 / 2)); [intros x; auto_derive; [trivial|field]|intros x; auto_derive; trivial|field].
Qed.
