(** remove_trivial_phase and zernike_decomposition. *)
From Coq Require Import Reals Lra Psatz ZArith Arith List Bool Lia.
From Coquelicot Require Import Complex.
From Verif Require Import Cx Sums PyBase ProfileModel SlmModel ProfSpec ProfFacts ProfFacts2 ModeThms TensorThms ZernSpec ZernFacts ZernThms AnaSpec AnalysisModel AnsiFacts.
Import ListNotations.
Open Scope R_scope.

(** ** Grid and sums *)
Lemma ana_x_px nx j : ana_x nx j = px nx j. Proof. reflexivity. Qed.
Lemma ana_y_py ny i : ana_y ny i = py ny i. Proof. unfold ana_y, py. field. Qed.
Lemma px_rev nx j : (j < nx)%nat -> px nx (nx - 1 - j) = - px nx j.
Proof. intros H. unfold px. rewrite !minus_INR by lia. cbn [INR]. field. Qed.
Lemma py_rev ny i : (i < ny)%nat -> py ny (ny - 1 - i) = - py ny i.
Proof. intros H. unfold py. rewrite !minus_INR by lia. cbn [INR]. field. Qed.
Lemma ap_spec ny nx radius i j : aperture ny nx radius i j = if Rlt_dec (dist_sq ny nx i j) (radius ^ 2) then true else false.
Proof. unfold aperture, Rltb, dist_sq. rewrite ana_x_px, ana_y_py. reflexivity. Qed.
Definition asum ny nx radius (f : nat -> nat -> R) : R := rsum2 ny nx (fun i j => if aperture ny nx radius i j then f i j else 0).
Lemma total_cons p l f : total (p :: l) f = f (fst p) (snd p) + total l f. Proof. reflexivity. Qed.
Lemma total_nil f : total [] f = 0. Proof. reflexivity. Qed.
Lemma total_app l l' f : total (l ++ l') f = total l f + total l' f.
Proof. induction l as [|p l IH]; cbn [app]; [rewrite total_nil; ring|]. rewrite !total_cons, IH. ring. Qed.
Lemma total_filter_row (b : nat -> nat -> bool) f i : forall n a, total (filter (fun ij => b (fst ij) (snd ij)) (map (fun j => (i, j)) (seq a n))) f = rsum n (fun j => if b i (a + j)%nat then f i (a + j)%nat else 0).
Proof.
  induction n as [|n IH]; intros a; [reflexivity|]. rewrite seq_S, map_app, filter_app, total_app, IH. cbn [rsum map filter fst snd]. f_equal. destruct (b i (a + n)%nat); cbn; ring.
Qed.
Lemma total_filter (b : nat -> nat -> bool) f nx : forall n a, total (filter (fun ij => b (fst ij) (snd ij)) (list_prod (seq a n) (seq 0 nx))) f = rsum2 n nx (fun i j => if b (a + i)%nat j then f (a + i)%nat j else 0).
Proof.
  induction n as [|n IH]; intros a; [reflexivity|]. cbn [seq list_prod]. rewrite filter_app, total_app, total_filter_row, IH. unfold rsum2.
  assert (H : forall g, rsum (S n) g = g 0%nat + rsum n (fun i => g (S i))). { intros g. replace (S n) with (1 + n)%nat by lia. rewrite rsum_app. change (rsum 1 g) with (0 + g 0%nat). rewrite Rplus_0_l. reflexivity. }
  rewrite H. rewrite Nat.add_0_r. f_equal. apply rsum_ext. intros i Hi. apply rsum_ext. intros j Hj. rewrite Nat.add_succ_comm. reflexivity.
Qed.
Lemma total_inside ny nx radius f : total (inside ny nx radius) f = asum ny nx radius f.
Proof.
  unfold inside. rewrite (total_filter (fun i j => if Rlt_dec (dist_sq ny nx i j) (radius ^ 2) then true else false)). unfold asum. apply rsum2_ext. intros i j _ _. rewrite ap_spec. reflexivity.
Qed.
Lemma total_one l : total l (fun _ _ => 1) = INR (length l).
Proof. induction l as [|p l IH]; [reflexivity|]. cbn [length]. rewrite S_INR, total_cons, IH. ring. Qed.
Lemma count_inside ny nx radius : count ny nx (aperture ny nx radius) = INR (length (inside ny nx radius)).
Proof. rewrite <- total_one, total_inside. reflexivity. Qed.
Lemma average_asum ny nx radius f : average (inside ny nx radius) f = asum ny nx radius f / INR (length (inside ny nx radius)).
Proof. unfold average. rewrite total_inside. reflexivity. Qed.
Lemma mean_sel_some ny nx radius f : inside ny nx radius <> [] -> mean_sel ny nx (aperture ny nx radius) f = Some (average (inside ny nx radius) f).
Proof.
  intros H. unfold mean_sel. rewrite count_inside. destruct (Req_EM_T _ 0) as [E|E].
  - exfalso. apply (INR_eq (length (inside ny nx radius)) 0) in E. apply length_zero_iff_nil in E. contradiction.
  - rewrite average_asum. reflexivity.
Qed.
Lemma mean_sel_none ny nx radius f : inside ny nx radius = [] -> mean_sel ny nx (aperture ny nx radius) f = None.
Proof. intros H. unfold mean_sel. rewrite count_inside, H. cbn. destruct (Req_EM_T 0 0); [reflexivity|lra]. Qed.
Lemma len_pos ny nx radius : inside ny nx radius <> [] -> 0 < INR (length (inside ny nx radius)).
Proof. intros H. apply lt_0_INR. destruct (inside ny nx radius); [contradiction|cbn; lia]. Qed.

(** Averages. *)
Lemma in_inside ny nx radius i j : In (i, j) (inside ny nx radius) <-> (i < ny)%nat /\ (j < nx)%nat /\ dist_sq ny nx i j < radius ^ 2.
Proof.
  unfold inside. rewrite filter_In, in_prod_iff, !in_seq. cbn [fst snd]. destruct (Rlt_dec _ _); intuition (try lia; try discriminate; try lra).
Qed.
Lemma total_ext l f g : (forall i j, In (i, j) l -> f i j = g i j) -> total l f = total l g.
Proof. induction l as [|[i j] l IH]; intros H; [reflexivity|]. rewrite !total_cons. cbn [fst snd]. rewrite (H i j (or_introl eq_refl)). f_equal. apply IH. intros; apply H; right; assumption. Qed.
Lemma average_ext l f g : (forall i j, In (i, j) l -> f i j = g i j) -> average l f = average l g.
Proof. intros H. unfold average. rewrite (total_ext l f g H). reflexivity. Qed.
Lemma total_lin l a b f g : total l (fun i j => a * f i j + b * g i j) = a * total l f + b * total l g.
Proof. induction l as [|p l IH]; [rewrite !total_nil; ring|]. rewrite !total_cons, IH. ring. Qed.
Lemma average_lin l a b f g : average l (fun i j => a * f i j + b * g i j) = a * average l f + b * average l g.
Proof. unfold average. rewrite total_lin. unfold Rdiv. ring. Qed.
Lemma average_scal l a f : average l (fun i j => a * f i j) = a * average l f.
Proof. rewrite (average_ext l _ (fun i j => a * f i j + 0 * f i j)) by (intros; ring). rewrite average_lin. ring. Qed.
Lemma average_plus l f g : average l (fun i j => f i j + g i j) = average l f + average l g.
Proof. rewrite (average_ext l _ (fun i j => 1 * f i j + 1 * g i j)) by (intros; ring). rewrite average_lin. ring. Qed.
Lemma average_minus l f g : average l (fun i j => f i j - g i j) = average l f - average l g.
Proof. rewrite (average_ext l _ (fun i j => 1 * f i j + -1 * g i j)) by (intros; ring). rewrite average_lin. ring. Qed.
Lemma average_const l c : l <> [] -> average l (fun _ _ => c) = c.
Proof.
  intros H. rewrite (average_ext l _ (fun i j => c * 1)) by (intros; ring). rewrite (average_scal l c (fun _ _ => 1)). unfold average. rewrite total_one.
  assert (INR (length l) <> 0). { intros E. apply (INR_eq (length l) 0) in E. apply length_zero_iff_nil in E. contradiction. } field. assumption.
Qed.
(** Odd functions average to zero. *)
Lemma odd_x ny nx radius f : (forall i j, (i < ny)%nat -> (j < nx)%nat -> f i (nx - 1 - j)%nat = - f i j) -> average (inside ny nx radius) f = 0.
Proof.
  intros H. rewrite average_asum. assert (S : asum ny nx radius f = - asum ny nx radius f).
  { unfold asum, rsum2. rewrite <- rsum_opp. apply rsum_ext. intros i Hi. rewrite <- rsum_rev at 1. rewrite <- rsum_opp. apply rsum_ext. intros j Hj. rewrite H by assumption. rewrite !ap_spec. unfold dist_sq. rewrite px_rev by exact Hj.
    replace ((- px nx j) ^ 2) with (px nx j ^ 2) by ring. destruct (Rlt_dec _ _); ring. }
  replace (asum ny nx radius f) with 0 by lra. unfold Rdiv. ring.
Qed.
Lemma odd_y ny nx radius f : (forall i j, (i < ny)%nat -> (j < nx)%nat -> f (ny - 1 - i)%nat j = - f i j) -> average (inside ny nx radius) f = 0.
Proof.
  intros H. rewrite average_asum. assert (S : asum ny nx radius f = - asum ny nx radius f).
  { unfold asum, rsum2. rewrite <- rsum_rev at 1. rewrite <- rsum_opp. apply rsum_ext. intros i Hi. rewrite <- rsum_opp. apply rsum_ext. intros j Hj. rewrite H by assumption. rewrite !ap_spec. unfold dist_sq. rewrite py_rev by exact Hi.
    replace ((- py ny i) ^ 2) with (py ny i ^ 2) by ring. destruct (Rlt_dec _ _); ring. }
  replace (asum ny nx radius f) with 0 by lra. unfold Rdiv. ring.
Qed.

(** ** The sampled modes *)
Lemma zernike_sampled h ny nx radius n m e : zvalid n m -> 0 < radius -> exists z, zernike_on_grid h ny nx radius n m e = Ok z /\ samples_mode ny nx radius n m e z.
Proof.
  intros V HR. destruct (zern_evaluates h 1 radius n m true e V HR) as (h1 & p & E & _ & _ & F). unfold zernike_on_grid. rewrite E. cbn [rbind]. unfold sample.
  assert (S : scalar_valued p = false). { unfold zernike_new in E. destruct (negb _); [discriminate|]. destruct (negb _); [discriminate|]. destruct (zern_norm _ _ _); [|discriminate]. cbn [rbind h_alloc] in E. injection E as _ <-. reflexivity. }
  rewrite S. cbn [ana_grid fst snd].
  assert (G : forall x y, exists v, func h1 p x y = Ok v). { intros x y. destruct (to_polar 0 0 x y) as (r & phi & Hr & -> & ->). rewrite !Rplus_0_l. destruct (F r phi Hr) as [v [Ev _]]. exists v. exact Ev. }
  rewrite (proj2 (all_ok_ok _ _ _)) by (intros; apply G). cbn [rbind]. eexists. split; [reflexivity|]. intros i j r phi Hi Hj Hr X Y. unfold ana_grid. cbn [fst snd]. rewrite !tget_T2 by assumption. rewrite ana_x_px, ana_y_py, X, Y.
  destruct (F r phi Hr) as [v [Ev [E1 E2]]]. rewrite Ev. cbn [val_or0]. destruct v as [v|v]; [|discriminate E2]. cbn [to_c cast_r] in *. apply RtoC_inj in E1. exact E1.
Qed.
Lemma polar_pixel ny nx i j : exists r phi, 0 <= r /\ px nx j = r * cos phi /\ py ny i = r * sin phi /\ r ^ 2 = dist_sq ny nx i j.
Proof.
  destruct (to_polar 0 0 (px nx j) (py ny i)) as (r & phi & Hr & X & Y). rewrite Rplus_0_l in X, Y. exists r, phi. repeat split; try assumption. unfold dist_sq. rewrite X, Y. pose proof (sin2_cos2 phi) as H. unfold Rsqr in H. replace (r ^ 2) with (r ^ 2 * (sin phi * sin phi + cos phi * cos phi)) by (rewrite H; ring). ring.
Qed.
Lemma samples_unique ny nx radius n m e z z' : samples_mode ny nx radius n m e z -> samples_mode ny nx radius n m e z' -> agree ny nx z z'.
Proof. intros H H' i j Hi Hj. destruct (polar_pixel ny nx i j) as (r & phi & Hr & X & Y & _). rewrite (H i j r phi), (H' i j r phi) by assumption. reflexivity. Qed.
Definition disc (ny nx : nat) (radius : R) (i j : nat) (v : R) : R := if Rle_dec (dist_sq ny nx i j) (radius ^ 2) then v else 0.
Lemma disc_polar ny nx radius i j r (v : R) : 0 < radius -> 0 <= r -> r ^ 2 = dist_sq ny nx i j -> (if (false || if Rle_dec r radius then true else false)%bool then v else 0) = disc ny nx radius i j v.
Proof. intros HR Hr E. unfold disc. rewrite <- E. destruct (Rle_dec r radius), (Rle_dec (r ^ 2) (radius ^ 2)); try reflexivity; exfalso; nra. Qed.
Lemma mode_00 ny nx radius z : 0 < radius -> samples_mode ny nx radius 0 0 false z -> forall i j, (i < ny)%nat -> (j < nx)%nat -> z i j = disc ny nx radius i j 1.
Proof.
  intros HR H i j Hi Hj. destruct (polar_pixel ny nx i j) as (r & phi & Hr & X & Y & D). rewrite (H i j r phi) by assumption. rewrite (disc_polar ny nx radius i j) by assumption. f_equal.
  unfold zmode, znorm, angular. cbn [Z.eqb Z.leb Z.compare Z.to_nat Z.abs_nat]. rewrite radial_00, Rmult_0_l, cos_0, Rplus_0_l, sqrt_1. ring.
Qed.
Lemma sqrt4 : sqrt (2 * 1 + 2) = 2.
Proof. replace (2 * 1 + 2) with (2 * 2) by ring. apply sqrt_square. lra. Qed.
Lemma radial_11 x : radial 1 1 x = x. Proof. unfold radial. cbn. field. Qed.
Lemma radial_20 x : radial 2 0 x = 2 * x ^ 2 - 1. Proof. unfold radial. cbn. field. Qed.
Lemma mode_1m ny nx radius z : 0 < radius -> samples_mode ny nx radius 1 (-1) false z -> forall i j, (i < ny)%nat -> (j < nx)%nat -> z i j = disc ny nx radius i j (2 * py ny i / radius).
Proof.
  intros HR H i j Hi Hj. destruct (polar_pixel ny nx i j) as (r & phi & Hr & X & Y & D). rewrite (H i j r phi) by assumption. rewrite (disc_polar ny nx radius i j) by assumption. f_equal.
  unfold zmode, znorm, angular. change (0 <=? -1)%Z with false. change (-1 =? 0)%Z with false. change (Z.to_nat 1) with 1%nat. change (Z.abs_nat (-1)) with 1%nat. change (Z.abs (-1)) with 1%Z. cbn match. rewrite radial_11, sqrt4, Y. replace (1 * phi) with phi by ring. field. lra.
Qed.
Lemma mode_11 ny nx radius z : 0 < radius -> samples_mode ny nx radius 1 1 false z -> forall i j, (i < ny)%nat -> (j < nx)%nat -> z i j = disc ny nx radius i j (2 * px nx j / radius).
Proof.
  intros HR H i j Hi Hj. destruct (polar_pixel ny nx i j) as (r & phi & Hr & X & Y & D). rewrite (H i j r phi) by assumption. rewrite (disc_polar ny nx radius i j) by assumption. f_equal.
  unfold zmode, znorm, angular. change (0 <=? 1)%Z with true. change (1 =? 0)%Z with false. change (Z.to_nat 1) with 1%nat. change (Z.abs_nat 1) with 1%nat. cbn match. rewrite radial_11, sqrt4, X. replace (1 * phi) with phi by ring. field. lra.
Qed.
Lemma mode_20 ny nx radius z : 0 < radius -> samples_mode ny nx radius 2 0 false z -> forall i j, (i < ny)%nat -> (j < nx)%nat -> z i j = disc ny nx radius i j (sqrt 3 * (2 * dist_sq ny nx i j / radius ^ 2 - 1)).
Proof.
  intros HR H i j Hi Hj. destruct (polar_pixel ny nx i j) as (r & phi & Hr & X & Y & D). rewrite (H i j r phi) by assumption. rewrite (disc_polar ny nx radius i j) by assumption. f_equal.
  unfold zmode, znorm, angular. change (0 <=? 0)%Z with true. change (0 =? 0)%Z with true. change (Z.to_nat 2) with 2%nat. change (Z.abs_nat 0) with 0%nat. cbn match. rewrite radial_20, Rmult_0_l, cos_0, <- D. replace (2 + 1) with 3 by ring. field. lra.
Qed.

(** ** remove_trivial_phase *)
Lemma disc_inside ny nx radius i j v : In (i, j) (inside ny nx radius) -> disc ny nx radius i j v = v.
Proof. intros H. apply in_inside in H. unfold disc. destruct (Rle_dec _ _); [reflexivity|lra]. Qed.
Definition defocus (ny nx : nat) (radius : R) (i j : nat) : R := 2 * dist_sq ny nx i j / radius ^ 2 - 1.
(** What is left after piston and tilts. *)
Definition flat (ny nx : nat) (radius : R) (P : nat -> nat -> R) (i j : nat) : R :=
  let avg := average (inside ny nx radius) in
  P i j - disc ny nx radius i j (avg P + 4 / radius ^ 2 * avg (fun i j => P i j * py ny i) * py ny i + 4 / radius ^ 2 * avg (fun i j => P i j * px nx j) * px nx j).
Lemma flat_inside ny nx radius P i j : In (i, j) (inside ny nx radius) -> flat ny nx radius P i j = P i j - (average (inside ny nx radius) P + 4 / radius ^ 2 * average (inside ny nx radius) (fun i j => P i j * py ny i) * py ny i + 4 / radius ^ 2 * average (inside ny nx radius) (fun i j => P i j * px nx j) * px nx j).
Proof. intros H. unfold flat. rewrite disc_inside by exact H. reflexivity. Qed.
Lemma remove_step h ny nx radius n m r P z c : zernike_on_grid h ny nx radius n m false = Ok z -> coefficient ny nx radius (Some P) z = Some c ->
  remove_terms h ny nx radius ((n, m) :: r) (Some P) = remove_terms h ny nx radius r (Some (fun i j => P i j - c * z i j)).
Proof. intros E C. cbn [remove_terms]. rewrite E. cbn [rbind]. rewrite C. reflexivity. Qed.
Lemma remove_closed h ny nx P radius (d : bool) : 0 < radius -> inside ny nx radius <> [] ->
  exists g, remove_trivial_phase h ny nx P radius d = Ok (Some g) /\
  agree ny nx g (fun i j => flat ny nx radius P i j - if d then disc ny nx radius i j (3 * average (inside ny nx radius) (fun i j => flat ny nx radius P i j * defocus ny nx radius i j) * defocus ny nx radius i j) else 0).
Proof.
  intros HR NE. assert (V00 : zvalid 0 0) by (split; [lia|reflexivity]). assert (V1m : zvalid 1 (-1)) by (split; [lia|reflexivity]). assert (V11 : zvalid 1 1) by (split; [lia|reflexivity]). assert (V20 : zvalid 2 0) by (split; [lia|reflexivity]).
  destruct (zernike_sampled h ny nx radius 0 0 false V00 HR) as (z0 & E0 & S0). destruct (zernike_sampled h ny nx radius 1 (-1) false V1m HR) as (z1 & E1 & S1).
  destruct (zernike_sampled h ny nx radius 1 1 false V11 HR) as (z2 & E2 & S2). destruct (zernike_sampled h ny nx radius 2 0 false V20 HR) as (z3 & E3 & S3).
  pose proof (mode_00 _ _ _ _ HR S0) as M0. pose proof (mode_1m _ _ _ _ HR S1) as M1. pose proof (mode_11 _ _ _ _ HR S2) as M2. pose proof (mode_20 _ _ _ _ HR S3) as M3.
  set (l := inside ny nx radius) in *. set (avg := average l).
  assert (Lb : forall i j, In (i, j) l -> (i < ny)%nat /\ (j < nx)%nat) by (intros i j H; apply in_inside in H; tauto).
  assert (A0 : avg (fun i j => P i j * z0 i j) = avg P). { apply average_ext. intros i j H. destruct (Lb i j H). rewrite M0, disc_inside by assumption. ring. }
  assert (O1 : avg (fun i j => py ny i) = 0) by (apply odd_y; intros; rewrite py_rev by assumption; reflexivity).
  assert (O2 : avg (fun i j => px nx j) = 0) by (apply odd_x; intros; rewrite px_rev by assumption; reflexivity).
  assert (O3 : avg (fun i j => py ny i * px nx j) = 0) by (apply odd_x; intros; rewrite px_rev by assumption; ring).
  set (c0 := avg P). set (P1 := fun i j => P i j - c0 * z0 i j).
  assert (A1 : avg (fun i j => P1 i j * z1 i j) = 2 / radius * avg (fun i j => P i j * py ny i)).
  { transitivity (avg (fun i j => 2 / radius * (P i j * py ny i) + (- c0 * (2 / radius)) * py ny i)).
    - apply average_ext. intros i j H. destruct (Lb i j H). unfold P1. rewrite M0, M1, !disc_inside by assumption. field. lra.
    - unfold avg. rewrite average_lin. fold avg. rewrite O1. ring. }
  set (c1 := 2 / radius * avg (fun i j => P i j * py ny i)) in *. set (P2 := fun i j => P1 i j - c1 * z1 i j).
  assert (A2 : avg (fun i j => P2 i j * z2 i j) = 2 / radius * avg (fun i j => P i j * px nx j)).
  { transitivity (avg (fun i j => 1 * (2 / radius * (P i j * px nx j) + (- c0 * (2 / radius)) * px nx j) + (- c1 * (2 / radius) * (2 / radius)) * (py ny i * px nx j))).
    - apply average_ext. intros i j H. destruct (Lb i j H). unfold P2, P1. rewrite M0, M1, M2, !disc_inside by assumption. field. lra.
    - unfold avg. rewrite average_lin, average_lin. fold avg. rewrite O2, O3. ring. }
  set (c2 := 2 / radius * avg (fun i j => P i j * px nx j)) in *. set (P3 := fun i j => P2 i j - c2 * z2 i j).
  assert (F3 : agree ny nx P3 (flat ny nx radius P)).
  { intros i j Hi Hj. unfold P3, P2, P1, flat. rewrite M0, M1, M2 by assumption. fold l avg. unfold c0, c1, c2, disc. destruct (Rle_dec _ _); field; lra. }
  assert (A3 : avg (fun i j => P3 i j * z3 i j) = sqrt 3 * avg (fun i j => flat ny nx radius P i j * defocus ny nx radius i j)).
  { unfold avg. rewrite <- average_scal. apply average_ext. intros i j H. destruct (Lb i j H). rewrite F3, M3, disc_inside by assumption. unfold defocus. ring. }
  assert (C : forall Q z, coefficient ny nx radius (Some Q) z = Some (avg (fun i j => Q i j * z i j))). { intros Q z. unfold coefficient. rewrite mean_sel_some by exact NE. reflexivity. }
  assert (C0 := C P z0). rewrite A0 in C0. assert (C1 := C P1 z1). rewrite A1 in C1. assert (C2 := C P2 z2). rewrite A2 in C2. assert (C3 := C P3 z3). rewrite A3 in C3.
  assert (RR : remove_trivial_phase h ny nx P radius d = remove_terms h ny nx radius (if d then [(2, 0)] else [])%Z (Some P3)).
  { exact (eq_trans (remove_step _ _ _ _ _ _ _ P z0 c0 E0 C0) (eq_trans (remove_step _ _ _ _ _ _ _ P1 z1 c1 E1 C1) (remove_step _ _ _ _ _ _ _ P2 z2 c2 E2 C2))). }
  rewrite RR. clear RR. clearbody P3. destruct d.
  - rewrite (remove_step _ _ _ _ _ _ _ P3 z3 _ E3 C3). cbn [remove_terms]. eexists. split; [reflexivity|]. intros i j Hi Hj. cbn beta. rewrite F3, M3 by assumption. f_equal. unfold disc. destruct (Rle_dec _ _); [|ring]. fold (defocus ny nx radius i j).
    rewrite <- (sqrt_sqrt 3) at 3 by lra. ring.
  - cbn [remove_terms]. eexists. split; [reflexivity|]. intros i j Hi Hj. cbn beta. rewrite F3 by assumption. ring.
Qed.
