(** Moments of the unit disc: row by row and in polar coordinates. *)
From Coq Require Import Reals Lra Psatz ZArith Arith List Bool Lia.
From Coquelicot Require Import Complex Coquelicot.
From Verif Require Import Cx Sums PyBase ProfileModel ProfSpec ZernSpec ZernFacts ZernThms AnaSpec LatticeSpec LatticeFacts.
Import ListNotations.
Open Scope R_scope.

Definition trig (a b : nat) (t : R) : R := sin t ^ b * cos t ^ a.
Lemma trig_cont a b t : continuous (trig a b) t.
Proof. apply (ex_derive_continuous (trig a b)). unfold trig. auto_derive. trivial. Qed.
Lemma trig_int a b s t : ex_RInt (trig a b) s t.
Proof. apply (ex_RInt_continuous (V := R_CompleteNormedModule)). intros; apply trig_cont. Qed.
Definition J (a b : nat) : R := RInt (trig a b) (- (PI / 2)) (PI / 2).
Lemma chord_pow a u : chord a u = (1 + (-1) ^ a) / INR (S a) * u ^ S a.
Proof.
  unfold chord, ipow. assert (INR (S a) <> 0) by (apply not_0_INR; lia). replace ((- u) ^ S a) with ((-1) ^ S a * u ^ S a) by (rewrite <- Rpow_mult_distr; f_equal; ring). cbn [pow]. field. assumption.
Qed.
Lemma moment_J a b : moment a b = (1 + (-1) ^ a) / INR (S a) * J (a + 2) b.
Proof.
  unfold moment, J. pose proof (RInt_comp (column a b) sin cos (- (PI / 2)) (PI / 2)) as C. rewrite sin_neg, sin_PI2 in C.
  set (k := (1 + (-1) ^ a) / INR (S a)) in *. change (RInt (column a b) (-1) 1) with (RInt (column a b) (IZR (Zneg 1)) 1). replace (IZR (Zneg 1)) with (- (1)) by ring. rewrite <- C; clear C.
  - rewrite <- (RInt_scal (V := R_CompleteNormedModule)) by apply trig_int. apply (RInt_ext (V := R_CompleteNormedModule)). intros t Ht. pose proof PI_RGT_0. rewrite Rmin_left, Rmax_right in Ht by lra.
    assert (Hc : 0 <= cos t) by (apply cos_ge_0; lra).
    unfold scal, column; cbn; unfold mult; cbn. rewrite chord_pow. fold k. replace (half (sin t)) with (cos t).
    + unfold trig. rewrite pow_add. cbn [pow]. match goal with |- ?x = ?y => change (@eq R x y) end. ring.
    + unfold half. pose proof (sin2_cos2 t) as E. unfold Rsqr in E. replace (1 - sin t * sin t) with (cos t ^ 2) by lra. rewrite sqrt_pow2 by exact Hc. reflexivity.
  - intros; apply column_continuous.
  - intros x _. split; [apply is_derive_Reals, derivable_pt_lim_sin|]. apply continuous_cos.
Qed.
Lemma J_step a b : (INR a + INR b + 2) * J (a + 2) b = (INR a + 1) * J a b.
Proof.
  assert (D : is_RInt (fun t => (INR a + INR b + 2) * trig (a + 2) b t - (INR a + 1) * trig a b t) (- (PI / 2)) (PI / 2) 0).
  { apply (ftc (fun t => sin t ^ S b * cos t ^ S a)).
    - intros t. auto_derive; [trivial|]. unfold trig. rewrite pow_add. cbn [Nat.pred]. change (match b with O => 1 | S _ => INR b + 1 end) with (INR (S b)). change (match a with O => 1 | S _ => INR a + 1 end) with (INR (S a)). rewrite !S_INR. cbn [pow]. pose proof (sin2_cos2 t) as E. unfold Rsqr in E.
      replace ((INR a + INR b + 2) * (sin t ^ b * (cos t ^ a * (cos t * (cos t * 1)))) - (INR a + 1) * (sin t ^ b * cos t ^ a)) with ((INR b + 1) * sin t ^ b * cos t ^ a * (cos t * cos t) + (INR a + 1) * (sin t ^ b * cos t ^ a) * (cos t * cos t - 1)) by ring.
      replace (cos t * cos t - 1) with (- (sin t * sin t)) by lra. ring.
    - intros t. unfold trig. auto_derive. trivial.
    - rewrite cos_neg, cos_PI2. cbn [pow]. ring. }
  pose proof (is_RInt_minus _ _ _ _ _ _ (is_RInt_scal _ _ _ (INR a + INR b + 2) _ (RInt_correct _ _ _ (trig_int (a + 2) b (- (PI / 2)) (PI / 2)))) (is_RInt_scal _ _ _ (INR a + 1) _ (RInt_correct _ _ _ (trig_int a b (- (PI / 2)) (PI / 2))))) as D'.
  apply (is_RInt_unique (V := R_CompleteNormedModule)) in D. apply (is_RInt_unique (V := R_CompleteNormedModule)) in D'.
  assert (E : 0 = (INR a + INR b + 2) * J (a + 2) b - (INR a + 1) * J a b). { rewrite <- D. exact D'. } lra.
Qed.
Definition circle (a b : nat) : R := RInt (trig a b) (- PI) PI.
Lemma circle_J a b : circle a b = (1 + (-1) ^ a) * J a b.
Proof.
  assert (Ch : forall s t u, RInt (trig a b) s t + RInt (trig a b) t u = RInt (trig a b) s u) by (intros s t u; exact (RInt_Chasles (trig a b) s t u (trig_int a b _ _) (trig_int a b _ _))).
  assert (P : RInt (trig a b) (- PI) (- (PI / 2)) = RInt (trig a b) PI (3 * (PI / 2))).
  { pose proof (RInt_comp_lin (trig a b) 1 (2 * PI) (- PI) (- (PI / 2)) (trig_int a b _ _)) as E. replace (1 * - PI + 2 * PI) with PI in E by ring. replace (1 * - (PI / 2) + 2 * PI) with (3 * (PI / 2)) in E by field.
    rewrite <- E. apply (RInt_ext (V := R_CompleteNormedModule)). intros t _. unfold scal; cbn; unfold mult; cbn. unfold trig. rewrite !Rmult_1_l, sin_plus, cos_plus, sin_2PI, cos_2PI. match goal with |- ?x = ?y => change (@eq R x y) end. f_equal; f_equal; ring. }
  assert (Q : RInt (trig a b) (PI / 2) (3 * (PI / 2)) = (-1) ^ a * J a b).
  { pose proof (RInt_comp_lin (trig a b) (-1) PI (- (PI / 2)) (PI / 2) (trig_int a b _ _)) as E. replace (-1 * - (PI / 2) + PI) with (3 * (PI / 2)) in E by field. replace (-1 * (PI / 2) + PI) with (PI / 2) in E by field.
    assert (E2 : RInt (fun t => - (-1) ^ a * trig a b t) (- (PI / 2)) (PI / 2) = RInt (trig a b) (3 * (PI / 2)) (PI / 2)).
    { rewrite <- E. apply (RInt_ext (V := R_CompleteNormedModule)). intros t _. unfold scal; cbn; unfold mult; cbn. unfold trig. replace (-1 * t + PI) with (PI - t) by ring. rewrite <- sin_PI_x, Rtrigo_facts.cos_pi_minus. replace (- cos t) with (-1 * cos t) by ring. rewrite Rpow_mult_distr. match goal with |- ?x = ?y => change (@eq R x y) end. ring. }
    assert (E3 : RInt (fun t => - (-1) ^ a * trig a b t) (- (PI / 2)) (PI / 2) = - (-1) ^ a * J a b) by exact (RInt_scal (V := R_CompleteNormedModule) (trig a b) _ _ (- (-1) ^ a) (trig_int a b _ _)).
    pose proof (Ch (PI / 2) (3 * (PI / 2)) (PI / 2)) as Z. assert (Z0 : RInt (trig a b) (PI / 2) (PI / 2) = 0) by exact (RInt_point (PI / 2) (trig a b)). rewrite E3 in E2. lra. }
  unfold circle. pose proof (Ch (- PI) (- (PI / 2)) PI) as C1. pose proof (Ch (- (PI / 2)) (PI / 2) PI) as C2. pose proof (Ch (PI / 2) PI (3 * (PI / 2))) as C3. fold (J a b) in C2. lra.
Qed.
Lemma moment_circle a b : moment a b = circle a b / (INR a + INR b + 2).
Proof.
  rewrite moment_J, circle_J. pose proof (J_step a b) as E. pose proof (pos_INR a). pose proof (pos_INR b). rewrite S_INR. apply (Rmult_eq_reg_r ((INR a + INR b + 2) * (INR a + 1))); [|nra].
  replace ((1 + (-1) ^ a) / (INR a + 1) * J (a + 2) b * ((INR a + INR b + 2) * (INR a + 1))) with ((1 + (-1) ^ a) * ((INR a + INR b + 2) * J (a + 2) b)) by (field; lra). rewrite E. field. lra.
Qed.
Lemma moment_00 : moment 0 0 = PI.
Proof.
  rewrite moment_circle. unfold circle. rewrite (RInt_ext (V := R_CompleteNormedModule) _ (fun _ => 1)); [|intros t _; unfold trig; cbn [pow]; apply Rmult_1_r]. rewrite (RInt_const (V := R_CompleteNormedModule)). unfold scal; cbn; unfold mult; cbn. field.
Qed.

(** ** Polynomials in two variables *)
Definition bint (p : bpoly) : R := fold_right (fun t acc => fst t * moment (fst (snd t)) (snd (snd t)) + acc) 0 p.
Lemma polar_monomial a b : exists G, (forall r, 0 <= r <= 1 -> is_RInt (fun phi => (r * cos phi) ^ a * (r * sin phi) ^ b * r) (- PI) PI (G r)) /\ is_RInt G 0 1 (moment a b).
Proof.
  exists (fun r => circle a b * r ^ (a + b + 1)). split.
  - intros r _. pose proof (is_RInt_scal _ _ _ (r ^ (a + b + 1)) _ (RInt_correct _ _ _ (trig_int a b (- PI) PI))) as S.
    apply (is_RInt_ext (fun t => scal (r ^ (a + b + 1)) (trig a b t))).
    + intros t _. unfold scal; cbn; unfold mult; cbn. unfold trig. rewrite !Rpow_mult_distr, !pow_add. cbn [pow]. match goal with |- ?x = ?y => change (@eq R x y) end. ring.
    + apply (int_eq _ (r ^ (a + b + 1) * circle a b)); [ring|exact S].
  - apply (int_eq _ (circle a b * / INR (a + b + 1 + 1))).
    + rewrite moment_circle. replace (INR (a + b + 1 + 1)) with (INR a + INR b + 2) by (rewrite !plus_INR; cbn [INR]; ring). reflexivity.
    + exact (int_scal _ _ _ _ _ (int_pow (a + b + 1))).
Qed.
Lemma polar_bint p : disc_integral (beval p) 1 (bint p).
Proof.
  induction p as [|[c [a b]] p (G & HG & IG)].
  - exists (fun _ => 0). split; [|apply int_zero]. intros r _. cbn [beval fold_right]. apply (is_RInt_ext (fun _ => 0)); [intros; match goal with |- ?x = ?y => change (@eq R x y) end; ring|apply int_zero].
  - destruct (polar_monomial a b) as (M & HM & IM). exists (fun r => c * M r + G r). split.
    + intros r Hr. pose proof (is_RInt_plus _ _ _ _ _ _ (int_scal _ c _ _ _ (HM r Hr)) (HG r Hr)) as P. apply (is_RInt_ext _ (fun phi => beval ((c, (a, b)) :: p) (r * cos phi) (r * sin phi) * r)) in P; [exact P|].
      intros t _. unfold plus; cbn. match goal with |- ?x = ?y => change (@eq R x y) end. fold (beval p (r * cos t) (r * sin t)). ring.
    + cbn [bint fold_right fst snd]. exact (is_RInt_plus _ _ _ _ _ _ (int_scal _ c _ _ _ IM) IG).
Qed.
Lemma disc_integral_unique F v v' : disc_integral F 1 v -> disc_integral F 1 v' -> v = v'.
Proof.
  intros (G & HG & IG) (G' & HG' & IG'). assert (E : forall r, 0 <= r <= 1 -> G r = G' r). { intros r Hr. pose proof (is_RInt_unique (V := R_CompleteNormedModule) _ _ _ _ (HG r Hr)) as E1. pose proof (is_RInt_unique (V := R_CompleteNormedModule) _ _ _ _ (HG' r Hr)) as E2. rewrite <- E1. exact E2. }
  assert (IG2 : is_RInt G 0 1 v'). { apply (is_RInt_ext G'); [|exact IG']. intros x Hx. rewrite Rmin_left, Rmax_right in Hx by lra. symmetry. apply E. lra. }
  pose proof (is_RInt_unique (V := R_CompleteNormedModule) _ _ _ _ IG) as E1. pose proof (is_RInt_unique (V := R_CompleteNormedModule) _ _ _ _ IG2) as E2. rewrite <- E1. exact E2.
Qed.
Definition bbound (p : bpoly) : R := fold_right (fun t acc => Rabs (fst t) + acc) 0 p.
Lemma bbound_pos p : 0 <= bbound p.
Proof. induction p as [|t p IH]; cbn [bbound fold_right]; [lra|]. pose proof (Rabs_pos (fst t)). fold (bbound p). lra. Qed.
Lemma beval_bound p x y : Rabs x <= 1 -> Rabs y <= 1 -> Rabs (beval p x y) <= bbound p.
Proof.
  intros Hx Hy. induction p as [|[c [a b]] p IH]; [cbn; rewrite Rabs_R0; lra|]. cbn [beval bbound fold_right fst snd]. fold (beval p x y). fold (bbound p). eapply Rle_trans; [apply Rabs_triang|].
  rewrite !Rabs_mult. pose proof (pow_le1 x a Hx). pose proof (pow_le1 y b Hy). pose proof (Rabs_pos c). pose proof (Rabs_pos (x ^ a)). pose proof (Rabs_pos (y ^ b)).
  assert (Rabs (x ^ a) * Rabs (y ^ b) <= 1) by nra. assert (0 <= Rabs (x ^ a) * Rabs (y ^ b)) by nra. nra.
Qed.
Fixpoint bcost (p : bpoly) : R := match p with [] => 0 | t :: p => Rabs (fst t) * (12 * INR (fst (snd t)) + 4 * INR (snd (snd t)) + 28) + bcost p end.
Lemma bcost_pos p : 0 <= bcost p.
Proof. induction p as [|[c [a b]] p IH]; cbn [bcost fst snd]; [lra|]. pose proof (Rabs_pos c). pose proof (pos_INR a). pose proof (pos_INR b). nra. Qed.
Lemma in_disc_lin x y c u v : in_disc x y (c * u + v) = c * in_disc x y u + in_disc x y v.
Proof. unfold in_disc. destruct (Rlt_dec _ _); ring. Qed.
Lemma bpoly_sum p ny nx h : 0 < h <= 1 -> 2 <= INR nx * h -> 2 <= INR ny * h ->
  Rabs (h * h * rsum2 ny nx (fun i j => in_disc (centre nx h j) (centre ny h i) (beval p (centre nx h j) (centre ny h i))) - bint p) <= h * bcost p.
Proof.
  intros Hh Hx Hy. induction p as [|[c [a b]] p IH].
  - cbn [beval bint fold_right bcost]. rewrite (rsum2_ext ny nx _ (fun _ _ => 0)), rsum2_0 by (intros; unfold in_disc; destruct (Rlt_dec _ _); reflexivity). rewrite Rmult_0_r, Rminus_0_r, Rabs_R0. lra.
  - cbn [beval bint fold_right bcost fst snd]. fold (bint p). rewrite (rsum2_ext ny nx _ (fun i j => c * in_disc (centre nx h j) (centre ny h i) (centre nx h j ^ a * centre ny h i ^ b) + in_disc (centre nx h j) (centre ny h i) (beval p (centre nx h j) (centre ny h i)))) by (intros; apply in_disc_lin).
    rewrite rsum2_plus, rsum2_scal_l. pose proof (disc_sum a b ny nx h Hh Hx Hy) as D.
    set (A := rsum2 ny nx (fun i j => in_disc (centre nx h j) (centre ny h i) (centre nx h j ^ a * centre ny h i ^ b))) in *. set (B := rsum2 ny nx (fun i j => in_disc (centre nx h j) (centre ny h i) (beval p (centre nx h j) (centre ny h i)))) in *.
    replace (h * h * (c * A + B) - (c * moment a b + bint p)) with (c * (h * h * A - moment a b) + (h * h * B - bint p)) by ring. eapply Rle_trans; [apply Rabs_triang|]. rewrite Rabs_mult. pose proof (Rabs_pos c).
    assert (Rabs c * Rabs (h * h * A - moment a b) <= Rabs c * (h * (12 * INR a + 4 * INR b + 28))) by (apply Rmult_le_compat_l; assumption). lra.
Qed.
Definition ispoly (f : R -> R -> R) : Prop := exists p, forall x y, f x y = beval p x y.
Lemma beval_app p q x y : beval (p ++ q) x y = beval p x y + beval q x y.
Proof.
  induction p as [|t p IH]; [symmetry; apply Rplus_0_l|]. change (beval ((t :: p) ++ q) x y) with (fst t * (x ^ fst (snd t) * y ^ snd (snd t)) + beval (p ++ q) x y). rewrite IH. change (beval (t :: p) x y) with (fst t * (x ^ fst (snd t) * y ^ snd (snd t)) + beval p x y). ring.
Qed.
Lemma ispoly_plus f g : ispoly f -> ispoly g -> ispoly (fun x y => f x y + g x y).
Proof. intros [p P] [q Q]. exists (p ++ q). intros x y. rewrite beval_app, P, Q. reflexivity. Qed.
Lemma ispoly_mono c a b : ispoly (fun x y => c * (x ^ a * y ^ b)).
Proof. exists [(c, (a, b))]. intros x y. cbn. ring. Qed.
Lemma ispoly_ext f g : (forall x y, f x y = g x y) -> ispoly f -> ispoly g.
Proof. intros E [p P]. exists p. intros x y. rewrite <- E. apply P. Qed.
Lemma ispoly_times_mono f c a b : ispoly f -> ispoly (fun x y => c * (x ^ a * y ^ b) * f x y).
Proof.
  intros [p P]. exists (map (fun t => (c * fst t, (a + fst (snd t), b + snd (snd t))%nat)) p). intros x y. rewrite P. clear P. induction p as [|[d [a' b']] p IH]; cbn [map beval fold_right fst snd]; [ring|].
  fold (beval p x y). fold (beval (map (fun t => (c * fst t, ((a + fst (snd t))%nat, (b + snd (snd t))%nat))) p) x y). rewrite <- IH, !pow_add. ring.
Qed.
Lemma ispoly_mult f g : ispoly f -> ispoly g -> ispoly (fun x y => f x y * g x y).
Proof.
  intros [p P] G. apply (ispoly_ext (fun x y => beval p x y * g x y)); [intros; rewrite P; reflexivity|]. clear P f. induction p as [|[c [a b]] p IH].
  - exists []. intros x y. cbn. ring.
  - apply (ispoly_ext (fun x y => c * (x ^ a * y ^ b) * g x y + beval p x y * g x y)); [intros x y; cbn [beval fold_right fst snd]; fold (beval p x y); ring|]. apply ispoly_plus; [apply ispoly_times_mono, G|exact IH].
Qed.
Lemma ispoly_const c : ispoly (fun _ _ => c).
Proof. apply (ispoly_ext (fun x y => c * (x ^ 0 * y ^ 0))); [intros; cbn; ring|]. apply ispoly_mono. Qed.
Lemma ispoly_x : ispoly (fun x _ => x).
Proof. apply (ispoly_ext (fun x y => 1 * (x ^ 1 * y ^ 0))); [intros; cbn; ring|]. apply ispoly_mono. Qed.
Lemma ispoly_y : ispoly (fun _ y => y).
Proof. apply (ispoly_ext (fun x y => 1 * (x ^ 0 * y ^ 1))); [intros; cbn; ring|]. apply ispoly_mono. Qed.
Lemma ispoly_pow f n : ispoly f -> ispoly (fun x y => f x y ^ n).
Proof. intros F. induction n as [|n IH]; cbn [pow]; [apply ispoly_const|]. apply ispoly_mult; assumption. Qed.
Lemma ispoly_rsum n (f : nat -> R -> R -> R) : (forall k, (k < n)%nat -> ispoly (f k)) -> ispoly (fun x y => rsum n (fun k => f k x y)).
Proof. intros H. induction n as [|n IH]; cbn [rsum]; [apply ispoly_const|]. apply ispoly_plus; [apply IH; intros; apply H; lia|apply H; lia]. Qed.

(** ** Zernike modes are polynomials *)
Lemma harmonics mu : exists c s, ispoly c /\ ispoly s /\ forall r phi, c (r * cos phi) (r * sin phi) = r ^ mu * cos (INR mu * phi) /\ s (r * cos phi) (r * sin phi) = r ^ mu * sin (INR mu * phi).
Proof.
  induction mu as [|mu (c & s & C & S & E)].
  - exists (fun _ _ => 1), (fun _ _ => 0). repeat split; try apply ispoly_const; cbn [INR pow]; rewrite Rmult_0_l; [rewrite cos_0|rewrite sin_0]; ring.
  - exists (fun x y => x * c x y + (-1) * y * s x y), (fun x y => y * c x y + x * s x y). split; [|split].
    + apply ispoly_plus; [apply (ispoly_mult (fun x _ => x) c ispoly_x C)|apply (ispoly_mult (fun _ y => -1 * y) s (ispoly_mult _ _ (ispoly_const (-1)) ispoly_y) S)].
    + apply ispoly_plus; [apply (ispoly_mult (fun _ y => y) c ispoly_y C)|apply (ispoly_mult (fun x _ => x) s ispoly_x S)].
    + intros r phi. destruct (E r phi) as [E1 E2]. rewrite E1, E2, S_INR, Rmult_plus_distr_r, Rmult_1_l, cos_plus, sin_plus. cbn [pow]. split; ring.
Qed.
Lemma zmode_poly n m : zvalid n m -> exists f, ispoly f /\ forall r phi, zmode 1 1 n m true r phi = f (r * cos phi) (r * sin phi).
Proof.
  intros V. destruct (zvalid_split n m V) as (mu & s & En & Em & Em' & En'). destruct (harmonics mu) as (c & d & C & D & E).
  set (ang := if (0 <=? m)%Z then c else d).
  assert (A : ispoly ang) by (unfold ang; destruct (0 <=? m)%Z; assumption).
  assert (AE : forall r phi, ang (r * cos phi) (r * sin phi) = r ^ mu * angular m phi).
  { intros r phi. unfold ang, angular. destruct (E r phi) as [E1 E2]. destruct (Z.leb_spec 0 m); [rewrite E1; replace (IZR m) with (INR mu) by (rewrite INR_IZR_INZ; f_equal; lia); reflexivity|rewrite E2; replace (IZR (Z.abs m)) with (INR mu) by (rewrite INR_IZR_INZ; f_equal; lia); reflexivity]. }
  exists (fun x y => znorm n m true * rsum (S s) (fun k => rc mu s k * (x * x + y * y) ^ (s - k) * ang x y)). split.
  - apply ispoly_mult; [apply ispoly_const|]. apply ispoly_rsum. intros k _. apply (ispoly_mult (fun x y => rc mu s k * (x * x + y * y) ^ (s - k)) ang); [|exact A]. apply (ispoly_mult (fun _ _ => rc mu s k)); [apply ispoly_const|].
    apply (ispoly_pow (fun x y => x * x + y * y)). apply ispoly_plus; [apply (ispoly_mult _ _ ispoly_x ispoly_x)|apply (ispoly_mult _ _ ispoly_y ispoly_y)].
  - intros r phi. unfold zmode. rewrite En', Em', radial_sum. replace (r / 1) with r by field. rewrite Rmult_1_l, Rmult_assoc. f_equal. rewrite <- rsum_scal_r. apply rsum_ext. intros k Hk. rewrite AE.
    replace (r * cos phi * (r * cos phi) + r * sin phi * (r * sin phi)) with (r ^ 2). 2:{ pose proof (sin2_cos2 phi) as H. unfold Rsqr in H. replace (r ^ 2) with (r ^ 2 * (sin phi * sin phi + cos phi * cos phi)) by (rewrite H; ring). ring. }
    rewrite <- pow_mult, pow_add. ring.
Qed.
