(** The scale parameter s of IFTA (C89). *)
From Coq Require Import Reals Lra Psatz ZArith Arith List Bool Lia.
From Coquelicot Require Import Hierarchy RInt Complex.
From Verif Require Import AmpFacts4 RandomFacts Cx Sums DFT PyBase ProfileModel SlmModel LibModel DmdModel OriginFacts SimModel SimSpec GridFacts SimFacts SimFacts2 SimExamples DmdSpec DmdFacts DmdFacts2 AmpFacts AmpFacts3 HoloSpec HoloFacts HoloFacts2 IftaFacts IftaSym OrderFacts.
Open Scope R_scope.

Lemma dev_simulated h dev m a F S : let s := dev_slm dev in full_input h s a F -> full_state dev S -> scaling_factor s <> 0 -> pad_x m = 0%Z -> pad_y m = 0%Z ->
  exists m', propagate_to_image h dev m a = (m', Ok tt) /\
    field_is (f_image m') (s_Ny s) (s_Nx s) (fun u v => (RtoC (eta_scale s) * image_of (s_Ny s) (s_Nx s) (fun i j => (F i j * S i j)%C) u v)%C).
Proof.
  intros s HF HS Hs Hx Hy. destruct (propagate_succeeds h dev m a F S HF HS ltac:(lia) ltac:(lia) Hs) as [m' P]. exists m'. split; [exact P|].
  destruct (propagate_inv h dev m a F S m' HF HS P) as (_ & _ & _ & _ & _ & _ & _ & Hi). fold s in Hi.
  assert (EY : NY s m = s_Ny s) by (unfold NY; rewrite Hy; lia). assert (EX : NX s m = s_Nx s) by (unfold NX; rewrite Hx; lia).
  assert (En : norm_of s m = eta_scale s). { unfold norm_of, eta_scale, sim_Nx, sim_Ny. rewrite Hx, Hy. cbn [Z.mul]. rewrite !Z.add_0_r, mult_IZR, <- !INR_IZR_INZ. field. exact Hs. }
  rewrite EY, EX in Hi. eapply field_is_ext; [|exact Hi]. intros u v Hu Hv. cbn beta.
  rewrite image_of_to_image by assumption. rewrite En, Cmult_comm. f_equal. apply image_of_ext. intros i j Hi' Hj'. rewrite pad_zero by assumption. reflexivity.
Qed.

(** *** First order of a thresholded fringe as a function of a = A s *)
Definition first_harmonic (a : R) : R := 2 * sqrt (2 * a - 1) / a.
Lemma harmonic_sq a : 1 / 2 <= a -> first_harmonic a = sqrt (4 * (2 * a - 1) / a ^ 2).
Proof.
  intros H. unfold first_harmonic. assert (0 < a) by lra. replace (4 * (2 * a - 1) / a ^ 2) with ((2 / a) ^ 2 * (2 * a - 1)) by (field; lra).
  rewrite sqrt_mult by (try apply pow2_ge_0; lra). rewrite sqrt_pow2 by (left; apply Rdiv_lt_0_compat; lra). field. lra.
Qed.
Lemma harmonic_shape : (forall a b, 1 / 2 <= a < b -> b <= 1 -> first_harmonic a < first_harmonic b) /\ (forall a b, 1 <= a < b -> first_harmonic b < first_harmonic a).
Proof.
  assert (K : forall a b, 1 / 2 <= a -> 1 / 2 <= b -> 4 * (2 * a - 1) / a ^ 2 < 4 * (2 * b - 1) / b ^ 2 -> first_harmonic a < first_harmonic b).
  { intros a b Ha Hb H. rewrite !harmonic_sq by assumption. apply sqrt_lt_1_alt. split; [|exact H]. apply Rmult_le_pos; [lra|]. left. apply Rinv_0_lt_compat. nra. }
  assert (D : forall a b, 0 < a -> 0 < b -> 4 * (2 * b - 1) / b ^ 2 - 4 * (2 * a - 1) / a ^ 2 = 4 * ((b - a) * (a + b - 2 * a * b)) * / (a ^ 2 * b ^ 2)) by (intros; field; lra).
  split; intros a b.
  - intros H H1. apply K; [lra|lra|]. assert (E := D a b ltac:(lra) ltac:(lra)). assert (0 < / (a ^ 2 * b ^ 2)) by (apply Rinv_0_lt_compat; assert (0 < a ^ 2) by nra; assert (0 < b ^ 2) by nra; nra).
    assert (0 < (b - a) * (a + b - 2 * a * b)). { apply Rmult_lt_0_compat; [lra|]. replace (a + b - 2 * a * b) with (a * (1 - b) + b * (1 - a)) by ring. nra. }
    assert (0 < 4 * ((b - a) * (a + b - 2 * a * b)) * / (a ^ 2 * b ^ 2)) by (apply Rmult_lt_0_compat; lra). lra.
  - intros H. apply K; [lra|lra|]. assert (E := D a b ltac:(lra) ltac:(lra)). assert (0 < / (a ^ 2 * b ^ 2)) by (apply Rinv_0_lt_compat; assert (0 < a ^ 2) by nra; assert (0 < b ^ 2) by nra; nra).
    assert (0 < (b - a) * (2 * a * b - a - b)). { apply Rmult_lt_0_compat; [lra|]. replace (2 * a * b - a - b) with (a * (b - 1) + b * (a - 1)) by ring. nra. }
    assert (0 < 4 * ((b - a) * (2 * a * b - a - b)) * / (a ^ 2 * b ^ 2)) by (apply Rmult_lt_0_compat; lra). lra.
Qed.

(** *** Mirrors switched on when s grows *)
Lemma scale_grows h d amp pin pout P Pi Po F A c V a kw kw' u : let s := d_slm d in
  reads h s amp P -> reads h s pin Pi -> reads h s pout Po -> d_p d <> 0 -> (forall i j, in_array d i j -> F i j = (RtoC (A i j) * cis c)%C) ->
  complex_array (k_input kw) (T2 (s_Ny s) (s_Nx s) F) -> complex_array (k_input kw') (T2 (s_Ny s) (s_Nx s) F) ->
  complex_array (k_window kw) (T2 (s_Ny s) (s_Nx s) V) -> complex_array (k_window kw') (T2 (s_Ny s) (s_Nx s) V) ->
  0 <= a <= 1 -> (forall u v, in_array d u v -> symmetric_part (s_Ny s) (s_Nx s) V u v = RtoC a) -> dflt (k_s kw) 1 <= dflt (k_s kw') 1 ->
  exists f f', set_dmd_grating_state h d amp pin pout MIfta kw u = (with_state d (DBool (s_Ny s) (s_Nx s) f), Ok tt) /\
    set_dmd_grating_state h d amp pin pout MIfta kw' u = (with_state d (DBool (s_Ny s) (s_Nx s) f'), Ok tt) /\
    forall i j, in_array d i j -> F i j <> RtoC 0 -> 0 <= P i j -> f i j = true -> f' i j = true.
Proof.
  intros s HP HI HO Hp HA K1 K2 W1 W2 Ha HS Hs. destruct (ifta_grating h d amp pin pout P Pi Po kw F V u HP HI HO Hp K1 W1) as (f & E1 & R1).
  destruct (ifta_grating h d amp pin pout P Pi Po kw' F V u HP HI HO Hp K2 W2) as (f' & E2 & R2). exists f, f'. split; [exact E1|]. split; [exact E2|].
  intros i j [Hi Hj] HL HPij T. assert (HA' := fun i j Hi Hj => HA i j (conj Hi Hj)). assert (HS' := fun u v Hu Hv => HS u v (conj Hu Hv)).
  apply (run_const (s_Ny s) (s_Nx s) A c F HA' V a _ _ f Ha HS' R1 i j Hi Hj HL) in T. apply (run_const (s_Ny s) (s_Nx s) A c F HA' V a _ _ f' Ha HS' R2 i j Hi Hj HL).
  assert (B := COS_bound (carrier d i j - signed (d_neg d) (Po i j - Pi i j))). cbv beta in T |- *. set (q := P i j * _) in *. assert (0 <= q) by (unfold q; nra). nra.
Qed.

(** *** A grating whose first order vanishes when s is raised *)
Definition three : dmd := dmd_new 2 3 3 0 3 1 1 false.
Definition flat3' : nat -> nat -> C := fun _ _ => RtoC 1.
Definition kw3 (s : R) (N : Z) : kwargs := {| k_r := None; k_N := Some N; k_s := Some s; k_window := Some (AConstC (T2 1 3 flat3')); k_input := Some (AConstC (T2 1 3 flat3')) |}.
Definition sim3 : sim := {| pad_x := 0; pad_y := 0; f_input := None; f_output := None; f_image := None |}.
Lemma three_pattern s N u : exists f, set_dmd_grating_state ex_heap three (AConstR (T0 1)) (AConstR (T0 0)) (AConstR (T0 PI)) MIfta (kw3 s N) u = (with_state three (DBool 1 3 f), Ok tt) /\
  (f 0%nat 0%nat = true <-> 1 / 2 < s) /\ (f 0%nat 1%nat = true <-> 2 < s) /\ (f 0%nat 2%nat = true <-> 2 < s).
Proof.
  destruct (ifta_grating ex_heap three (AConstR (T0 1)) (AConstR (T0 0)) (AConstR (T0 PI)) _ _ _ (kw3 s N) flat3' flat3' u (reads_const _ _ 1) (reads_const _ _ 0) (reads_const _ _ PI) ltac:(cbn; lra) ltac:(right; reflexivity) ltac:(right; reflexivity)) as (f & E & Hr).
  exists f. split; [exact E|]. destruct (run_consequences _ _ _ _ _ _ _ Hr) as (_ & _ & K & _).
  assert (L : flat3' 0%nat 0%nat <> RtoC 0) by (intros Q; injection Q; lra).
  assert (K' := fun j Hj => K (or_intror (fun i j _ _ => eq_refl)) 0%nat j ltac:(cbn; lia) Hj L). clear K. cbn [three dmd_new d_neg signed kw3 k_s dflt] in K'.
  assert (C0 : forall j t, carrier three 0 j - (PI - 0) = t -> carrier three 0 j - (PI - 0) = t) by auto.
  assert (E0 : carrier three 0 0 - (PI - 0) = - (2 * PI)) by (unfold carrier, mirror_x, mirror_y; cbn [three dmd_new d_theta d_p d_slm s_Nx s_Ny pixel_size INR]; rewrite cos_0, sin_0; field).
  assert (E1 : carrier three 0 1 - (PI - 0) = - (4 * (PI / 3))) by (unfold carrier, mirror_x, mirror_y; cbn [three dmd_new d_theta d_p d_slm s_Nx s_Ny pixel_size INR]; rewrite cos_0, sin_0; field).
  assert (E2 : carrier three 0 2 - (PI - 0) = - (2 * (PI / 3))) by (unfold carrier, mirror_x, mirror_y; cbn [three dmd_new d_theta d_p d_slm s_Nx s_Ny pixel_size INR]; rewrite cos_0, sin_0; field).
  assert (P0 := K' 0%nat ltac:(cbn; lia)). assert (P1 := K' 1%nat ltac:(cbn; lia)). assert (P2 := K' 2%nat ltac:(cbn; lia)). cbn [three dmd_new d_neg signed] in P0, P1, P2.
  fold three in P0, P1, P2. rewrite E0, cos_neg, cos_2PI in P0. rewrite E1, cos_neg in P1. rewrite E2, cos_neg, cos_2PI3 in P2.
  replace (4 * (PI / 3)) with (PI / 3 + PI) in P1 by field. rewrite neg_cos, cos_PI3 in P1.
  split; [|split].
  - rewrite P0. split; lra.
  - rewrite P1. split; lra.
  - rewrite P2. split; lra.
Qed.
Lemma three_state s N u f : set_dmd_grating_state ex_heap three (AConstR (T0 1)) (AConstR (T0 0)) (AConstR (T0 PI)) MIfta (kw3 s N) u = (with_state three (DBool 1 3 f), Ok tt) ->
  exists m', propagate_to_image ex_heap (DevDmd (with_state three (DBool 1 3 f))) sim3 (AConstC (T2 1 3 flat3')) = (m', Ok tt) /\
    field_is (f_image m') 1 3 (fun u v => (RtoC (eta_scale (d_slm three)) * image_of 1 3 (fun i j => (flat3' i j * RtoC (if f i j then 1 else 0))%C) u v)%C).
Proof.
  intros E. apply (dev_simulated ex_heap (DevDmd (with_state three (DBool 1 3 f))) sim3 (AConstC (T2 1 3 flat3')) flat3'); try reflexivity. cbn. unfold scaling_factor. cbn. lra.
Qed.
Lemma image_single : Cmod (image_of 1 3 (fun _ j => if Nat.eqb j 0 then RtoC 1 else RtoC 0) 0 2) = 1 / 3.
Proof.
  unfold image_of, csum2. cbn [csum Nat.eqb Nat.mul Nat.add]. rewrite Cmod_div by (intros E; injection E; cbn; lra).
  replace (RtoC 0 + (RtoC 0 + RtoC 1 * wave 1 3 0 0 0 2 + RtoC 0 * wave 1 3 0 1 0 2 + RtoC 0 * wave 1 3 0 2 0 2))%C with (wave 1 3 0 0 0 2) by ring.
  unfold wave. rewrite Cmod_cis, Cmod_R, Rabs_right by (cbn; lra). cbn. field.
Qed.
Lemma raising_s_refuted : ~ forall h d amp pin pout kw kw' u d1 d2 a m m1 m2 I1 I2 X Y i j,
  k_input kw' = k_input kw -> k_window kw' = k_window kw -> k_N kw' = k_N kw -> dflt (k_s kw) 1 <= dflt (k_s kw') 1 -> k_input kw = Some a ->
  set_dmd_grating_state h d amp pin pout MIfta kw u = (d1, Ok tt) -> set_dmd_grating_state h d amp pin pout MIfta kw' u = (d2, Ok tt) ->
  propagate_to_image h (DevDmd d1) m a = (m1, Ok tt) -> propagate_to_image h (DevDmd d2) m a = (m2, Ok tt) ->
  field_is (f_image m1) (NY (d_slm d) m) (NX (d_slm d) m) I1 -> field_is (f_image m2) (NY (d_slm d) m) (NX (d_slm d) m) I2 ->
  grid_is (image_plane_padded_grid (d_slm d) m) (NY (d_slm d) m) (NX (d_slm d) m) X Y ->
  (i < NY (d_slm d) m)%nat -> (j < NX (d_slm d) m)%nat -> first_order_origin d = (Fin (X i j), Fin (Y i j)) ->
  Cmod (I1 i j) <= Cmod (I2 i j).
Proof.
  intros H. destruct (three_pattern 1 2 (fun _ _ => 0)) as (f1 & E1 & A1 & B1 & C1). destruct (three_pattern 3 2 (fun _ _ => 0)) as (f2 & E2 & A2 & B2 & C2).
  destruct (three_state _ _ _ _ E1) as (m1 & P1 & F1). destruct (three_state _ _ _ _ E2) as (m2 & P2 & F2).
  assert (G := image_grid_of_is 3 1 1 (scaling_factor (d_slm three)) ltac:(lra)).
  specialize (H ex_heap three _ _ _ (kw3 1 2) (kw3 3 2) (fun _ _ => 0) _ _ _ sim3 m1 m2 _ _ _ _ 0%nat 2%nat eq_refl eq_refl eq_refl ltac:(cbn; lra) eq_refl E1 E2 P1 P2 F1 F2 G ltac:(cbn; lia) ltac:(cbn; lia)).
  assert (O : first_order_origin three = (Fin (IZR (Z.of_nat 2 - Z.of_nat (3 / 2)) * scaling_factor (d_slm three) / (INR 3 * 1)), Fin (- (IZR (Z.of_nat 0 - Z.of_nat (1 / 2)) * scaling_factor (d_slm three) / (INR 1 * 1))))).
  { rewrite origin_fin by (cbn; lra). unfold origin_of. cbn [three dmd_new d_theta d_p d_slm fst snd]. rewrite ?cos_0, ?sin_0. cbn. f_equal; f_equal; unfold scaling_factor; cbn; field. }
  specialize (H O). cbv beta in H. clear O G P1 P2 F1 F2 E1 E2.
  assert (V1 : f1 0%nat 0%nat = true /\ f1 0%nat 1%nat = false /\ f1 0%nat 2%nat = false).
  { split; [apply A1; lra|]. split; apply Bool.not_true_is_false; intros T; [apply B1 in T|apply C1 in T]; lra. }
  assert (V2 : f2 0%nat 0%nat = true /\ f2 0%nat 1%nat = true /\ f2 0%nat 2%nat = true) by (split; [apply A2; lra|split; [apply B2|apply C2]; lra]).
  rewrite !Cmod_mult, (image_of_ext 1 3 _ (fun _ j => if Nat.eqb j 0 then RtoC 1 else RtoC 0)), image_single in H.
  2:{ intros i j Hi Hj. replace i with 0%nat by lia. destruct V1 as (T1 & T2 & T3). destruct j as [|[|[|j]]]; [rewrite T1|rewrite T2|rewrite T3|lia]; cbn; unfold flat3'; ring. }
  rewrite (image_of_ext 1 3 _ (fun _ _ => RtoC 1)) in H.
  2:{ intros i j Hi Hj. replace i with 0%nat by lia. destruct V2 as (T1 & T2 & T3). destruct j as [|[|[|j]]]; [rewrite T1|rewrite T2|rewrite T3|lia]; cbn; unfold flat3'; ring. }
  assert (Z0 : image_of 1 3 (fun _ _ => RtoC 1) 0 2 = RtoC 0).
  { destruct (Ceq_dec (image_of 1 3 (fun _ _ => RtoC 1) 0 2) (RtoC 0)) as [E|E]; [exact E|]. apply image_of_uniform in E; [|lia|lia]. destruct E as [_ E]. cbn in E. discriminate. }
  rewrite Z0, Cmod_0 in H. assert (0 < Cmod (RtoC (eta_scale (d_slm three)))); [|lra].
  rewrite Cmod_R. apply Rabs_pos_lt. unfold eta_scale, scaling_factor. cbn. lra.
Qed.
Lemma efficiency_ignores h d input target w me me' kw kw' u u' e e' :
  snd (calculate_dmd_state h d input target me w kw u) = Ok e -> snd (calculate_dmd_state h d input target me' w kw' u') = Ok e' -> e = e'.
Proof.
  assert (K : forall me kw u e, snd (calculate_dmd_state h d input target me w kw u) = Ok e ->
    exists i t wt a pi po one, profile_to_tensor_c h (d_slm d) input true = Ok i /\ profile_to_tensor_c h (d_slm d) target false = Ok t /\
      match w with None => Ok None | Some a => let! t := profile_to_tensor_c h (d_slm d) a true in Ok (Some t) end = Ok wt /\
      calc_amp_phase i t wt = Ok (a, pi, po, one) /\ py_div (pixel_size (d_slm d) ^ 2 / scaling_factor (d_slm d) * INR (s_Nx (d_slm d)) * INR (s_Ny (d_slm d))) one = Ok e).
  { clear. intros me kw u e. unfold calculate_dmd_state. destruct (profile_to_tensor_c h (d_slm d) input true) as [i|]; cbn [rbind]; [|intros Q; discriminate Q].
    destruct (profile_to_tensor_c h (d_slm d) target false) as [t|]; cbn [rbind]; [|intros Q; discriminate Q].
    destruct (match w with None => Ok None | Some a => let! t := profile_to_tensor_c h (d_slm d) a true in Ok (Some t) end) as [wt|]; cbn [rbind]; [|intros Q; discriminate Q].
    destruct (calc_amp_phase i t wt) as [[[[a pi] po] one]|] eqn:E; cbn [rbind]; [|intros Q; discriminate Q]. destruct (fourier_plane_grid (d_slm d)) as [x y].
    match goal with |- context [rbind ?c _] => destruct c as [[inp win]|]; cbn [rbind]; [|intros Q; discriminate Q] end.
    match goal with |- context [rbind ?c _] => destruct c as [g|]; cbn [rbind]; [|intros Q; discriminate Q] end.
    destruct (to_dstate g) as [st|]; cbn [rbind]; [|intros Q; discriminate Q].
    destruct (Req_EM_T (scaling_factor (d_slm d)) 0); cbn [snd]; intros Q; [discriminate Q|]. exists i, t, wt, a, pi, po, one. repeat split; assumption. }
  intros H1 H2. apply K in H1. apply K in H2. destruct H1 as (i & t & wt & a & pi & po & one & A1 & A2 & A3 & A4 & A5). destruct H2 as (i' & t' & wt' & a' & pi' & po' & one' & B1 & B2 & B3 & B4 & B5).
  assert (i = i') by congruence. subst i'. assert (t = t') by congruence. subst t'. assert (wt = wt') by congruence. subst wt'. congruence.
Qed.
Definition fringe_first_order (a t : R) : R := (if Rlt_dec (1 / 2) (a * (cos t / 2 + 1 / 2)) then 1 else 0) * cos t.
Lemma fringe_peak a b Ha Hb : is_RInt (fringe_first_order a) (- PI) PI Ha -> is_RInt (fringe_first_order b) (- PI) PI Hb ->
  (0 <= a < b -> b <= 1 -> 1 / 2 < b -> Ha < Hb) /\ (1 <= a < b -> 0 < Hb < Ha).
Proof.
  intros I1 I2. assert (U : forall a x, 0 <= a -> is_RInt (fringe_first_order a) (- PI) PI x -> x = if Rle_dec a (1 / 2) then 0 else first_harmonic a).
  { intros c x Hc J. assert (K1 := is_RInt_unique (V := R_CompleteNormedModule) _ _ _ _ J). assert (K2 := is_RInt_unique (V := R_CompleteNormedModule) _ _ _ _ (threshold_harmonic c Hc)). etransitivity; [symmetry; exact K1|exact K2]. }
  assert (P : forall a, 1 / 2 < a -> 0 < first_harmonic a) by (intros c Hc; apply Rdiv_lt_0_compat; [assert (0 < sqrt (2 * c - 1)) by (apply sqrt_lt_R0; lra)|]; lra).
  destruct harmonic_shape as [S1 S2]. split.
  - intros H H1 H2. rewrite (U a Ha ltac:(lra) I1), (U b Hb ltac:(lra) I2). destruct (Rle_dec b (1 / 2)); [lra|]. destruct (Rle_dec a (1 / 2)); [apply P; lra|apply S1; lra].
  - intros H. rewrite (U a Ha ltac:(lra) I1), (U b Hb ltac:(lra) I2). destruct (Rle_dec b (1 / 2)); [lra|]. destruct (Rle_dec a (1 / 2)); [lra|]. split; [apply P; lra|apply S2; lra].
Qed.
