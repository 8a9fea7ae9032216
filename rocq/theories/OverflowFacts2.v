(** Proofs for C146: image grids, powers, holograms, and the arithmetics with enough room. *)
From Coq Require Import Reals Lra Psatz ZArith Arith List Bool Lia.
From Flocq Require Import Core.
From Coquelicot Require Import Complex.
From Verif Require Import Cx DFT PyBase ProfileModel SlmModel LibModel DmdModel SimModel AmpFacts FloatModel FloatSpec FloatFacts FloatFacts4 FlGridModel FlModeModel FlHoloModel OverflowModel OverflowSpec OverflowFacts.
Import ListNotations.
Open Scope R_scope.

Section More.
Variables (L : limits) (a : fpu).
Hypothesis RO : roomy L a.

(** ** The image-plane grid *)
Lemma ck_map_some f g l : Forall (fun x => f x = Some (g x)) l -> ck_map f l = Some (map g l).
Proof. induction 1 as [|x l Hx _ IH]; [reflexivity|]. cbn [ck_map map]. rewrite Hx, IH. reflexivity. Qed.
Lemma freq_finite n d : (0 < n)%nat -> (Z.of_nat n <= 2 ^ 20)%Z -> above2 40 d -> below2 20 d ->
  ck_fftfreq L a n d = Some (fl_fftfreq a n d) /\ Forall (below2 75) (fl_fftfreq a n d).
Proof.
  intros H0 Hn Hd Hd'. unfold ck_fftfreq. cbv zeta. do 3 one RO.
  assert (BV : below2 43 (dbl a (1 / dbl a (dbl a (INR n) * d)))) by (eapply below_le; [mag RO|]; small).
  set (v := dbl a (1 / dbl a (dbl a (INR n) * d))) in *.
  set (ks := arange 0 ((Z.of_nat n - 1) / 2 + 1) ++ arange (- (Z.of_nat n / 2)) 0).
  assert (KS : Forall (fun k => (Z.abs k <= 2 ^ 20)%Z) ks).
  { apply Forall_forall. intros k Hk. unfold ks in Hk. apply in_app_or in Hk. unfold arange in Hk. assert (D := Z.div_mod (Z.of_nat n) 2 ltac:(lia)). assert (M := Z.mod_pos_bound (Z.of_nat n) 2 ltac:(lia)).
    assert (D' := Z.div_mod (Z.of_nat n - 1) 2 ltac:(lia)). assert (M' := Z.mod_pos_bound (Z.of_nat n - 1) 2 ltac:(lia)).
    destruct Hk as [Hk|Hk]; apply in_map_iff in Hk; destruct Hk as (t & <- & Ht); apply in_seq in Ht; lia. }
  rewrite (ck_map_some _ (dbl a)).
  2: { apply Forall_forall. intros x Hx. apply in_map_iff in Hx. destruct Hx as (k & <- & Hk). rewrite Forall_forall in KS. assert (B := below_int k (KS k Hk)). one RO. reflexivity. }
  rewrite (ck_map_some _ (fun k => dbl a (k * v))).
  2: { apply Forall_forall. intros x Hx. apply in_map_iff in Hx. destruct Hx as (y & <- & Hy). apply in_map_iff in Hy. destruct Hy as (k & <- & Hk). rewrite Forall_forall in KS. assert (B := below_int k (KS k Hk)). one RO. reflexivity. }
  rewrite !map_map. split; [reflexivity|]. unfold fl_fftfreq. cbv zeta. fold v. fold ks. apply Forall_forall. intros x Hx. apply in_map_iff in Hx. destruct Hx as (k & <- & Hk). rewrite Forall_forall in KS. assert (B := below_int k (KS k Hk)).
  eapply below_le; [mag RO|]; small.
Qed.
Lemma Forall_app_parts {A} (P : A -> Prop) l n : Forall P l -> Forall P (skipn n l ++ firstn n l).
Proof. intros H. rewrite <- (firstn_skipn n l) in H. apply Forall_app in H. destruct H. apply Forall_app. split; assumption. Qed.
Lemma image_grid_finite nx ny ps sf : (0 < nx)%nat -> (0 < ny)%nat -> (Z.of_nat nx <= 2 ^ 20)%Z -> (Z.of_nat ny <= 2 ^ 20)%Z -> above2 40 ps -> below2 20 ps -> below2 40 sf ->
  ck_image_grid_of L a nx ny ps sf = Some (fl_image_grid_of a nx ny ps sf).
Proof.
  intros X0 Y0 Hx Hy Hp Hp' Hs. unfold ck_image_grid_of. destruct (freq_finite nx ps X0 Hx Hp Hp') as [EX BX]. destruct (freq_finite ny ps Y0 Hy Hp Hp') as [EY BY]. rewrite EX, EY.
  assert (OK : forall l, Forall (below2 75) l -> ck_map (fin_op (lim L) (rnd a)) l = Some (map (rnd a) l) /\ Forall (below2 76) (map (rnd a) l)).
  { intros l Hl. split.
    - apply ck_map_some. eapply Forall_impl; [|exact Hl]. intros x B. cbv beta in B. one RO. reflexivity.
    - apply Forall_map. eapply Forall_impl; [|exact Hl]. intros x B. cbv beta in B. eapply below_le; [mag RO|]; small. }
  assert (OK2 : forall l, Forall (below2 76) l -> ck_map (fun k => fin_op (lim L) (rnd a) (k * rnd a sf)) (fftshift1 l) = Some (map (fun k => rnd a (k * rnd a sf)) (fftshift1 l))).
  { intros l Hl. apply ck_map_some. apply (Forall_app_parts _ _ (length l - length l / 2)) in Hl. unfold fftshift1. cbv zeta. eapply Forall_impl; [|exact Hl]. intros x B. cbv beta in B. one RO. reflexivity. }
  destruct (OK _ BX) as [E1 B1]. rewrite E1.
  assert (BY' : Forall (below2 75) (map Ropp (fl_fftfreq a ny ps))) by (apply Forall_map; eapply Forall_impl; [|exact BY]; intros x B; apply below_opp; exact B).
  destruct (OK _ BY') as [E2 B2]. rewrite E2. one RO. rewrite (OK2 _ B1), (OK2 _ B2). reflexivity.
Qed.
Lemma device_grid_finite s : (0 < s_Nx s)%nat -> (0 < s_Ny s)%nat -> (Z.of_nat (s_Nx s) <= 2 ^ 20)%Z -> (Z.of_nat (s_Ny s) <= 2 ^ 20)%Z -> above2 40 (pixel_size s) -> below2 20 (pixel_size s) -> below2 19 (wavelength s) -> below2 19 (focal_length s) ->
  ck_image_plane_grid L a s = Some (fl_image_plane_grid a s).
Proof.
  intros X0 Y0 Hx Hy Hp Hp' Hw Hf. unfold ck_image_plane_grid. one RO. apply image_grid_finite; try assumption. eapply below_le; [mag RO|]; small.
Qed.

(** ** Powers *)
Lemma u22 : / 2 ^ 22 = / 4194304. Proof. f_equal. ring. Qed.
Definition grown (n : nat) : R := INR n * 2 ^ 83 * (1 + / 2 ^ 22) ^ n.
Lemma grown_below n : (Z.of_nat n <= 2 ^ 22)%Z -> grown n <= 2 ^ 107.
Proof.
  intros Hn. unfold grown. assert (E : (1 + / 2 ^ 22) ^ n <= 4).
  { assert (Q : 1 + / 2 ^ 22 <= exp (/ 2 ^ 22)) by (left; apply exp_ineq1; apply Rgt_not_eq, Rinv_0_lt_compat, pow2_pos).
    apply Rle_trans with (exp (/ 2 ^ 22) ^ n). { apply pow_incr. split; [|exact Q]. assert (0 < / 2 ^ 22) by (apply Rinv_0_lt_compat, pow2_pos). lra. }
    assert (X : exp (/ 2 ^ 22) ^ n = exp (INR n * / 2 ^ 22)).
    { generalize (/ 2 ^ 22). clear. intros e. induction n as [|n IH]; [cbn [INR pow]; rewrite Rmult_0_l, exp_0; reflexivity|]. rewrite S_INR. cbn [pow]. rewrite IH, <- exp_plus. f_equal. ring. }
    rewrite X. apply Rle_trans with (exp 1); [|assert (K := exp_le_3); lra].
    destruct (Rle_lt_or_eq_dec (INR n * / 2 ^ 22) 1) as [K|K]; [|left; apply exp_increasing; exact K|rewrite K; lra].
    apply Rmult_le_reg_r with (2 ^ 22); [apply pow2_pos|]. rewrite Rmult_assoc, Rinv_l by (apply pow_nonzero; lra). rewrite INR_IZR_INZ, Rmult_1_r, Rmult_1_l, pow_IZR. apply IZR_le. exact Hn. }
  assert (N : INR n <= 2 ^ 22) by (rewrite INR_IZR_INZ, pow_IZR; apply IZR_le; exact Hn).
  replace (2 ^ 107) with (2 ^ 22 * 2 ^ 83 * 4) by ring. apply Rmult_le_compat; [|apply pow_le|apply Rmult_le_compat_r|exact E].
  - apply Rmult_le_pos; [apply pos_INR|left; apply pow2_pos].
  - assert (0 < / 2 ^ 22) by (apply Rinv_0_lt_compat, pow2_pos). lra.
  - left. apply pow2_pos.
  - exact N.
Qed.
Lemma terms_pos t : (1 <= terms t)%nat. Proof. induction t; cbn [terms]; lia. Qed.
Lemma grown_mono n m : (n <= m)%nat -> (1 + / 2 ^ 22) ^ n <= (1 + / 2 ^ 22) ^ m.
Proof. intros H. apply Rle_pow; [|exact H]. assert (0 < / 2 ^ 22) by (apply Rinv_0_lt_compat, pow2_pos). lra. Qed.
Lemma sum_finite (g : nat -> nat -> R) (o : nat -> nat -> option R) t : over t (fun i j => o i j = Some (g i j) /\ below2 83 (g i j)) -> (Z.of_nat (terms t) <= 2 ^ 22)%Z ->
  ck_sum L a o t = Some (fl_sum a g t) /\ Rabs (fl_sum a g t) <= grown (terms t).
Proof.
  assert (V : 0 < / 2 ^ 22) by (apply Rinv_0_lt_compat, pow2_pos).
  induction t as [i j|l IHl r IHr]; cbn [over terms ck_sum fl_sum].
  - intros [E B] _. split; [exact E|]. unfold grown. cbn [INR pow]. unfold below2 in B. assert (0 < 2 ^ 83) by apply pow2_pos. nra.
  - intros [Ol Or] HN. assert (Tl := terms_pos l). assert (Tr := terms_pos r). destruct (IHl Ol ltac:(lia)) as [El Bl]. destruct (IHr Or ltac:(lia)) as [Er Br]. rewrite El, Er.
    assert (GL := grown_below (terms l) ltac:(lia)). assert (GR := grown_below (terms r) ltac:(lia)).
    set (x := fl_sum a g l) in *. set (y := fl_sum a g r) in *. clearbody x y.
    assert (BX : below2 107 x) by (unfold below2; lra). assert (BY : below2 107 y) by (unfold below2; lra). split; [one RO; reflexivity|].
    assert (ER := ro_rnd _ _ RO (x + y)). set (z := rnd a (x + y)) in *. clearbody z.
    assert (AZ : Rabs z <= Rabs (x + y) + (/ 2 ^ 24 * Rabs (x + y) + / 2 ^ 120)).
    { replace z with ((x + y) + (z - (x + y))) at 1 by ring. eapply Rle_trans; [apply Rabs_triang|]. lra. }
    assert (AT := Rabs_triang x y). set (q := 1 + / 2 ^ 22) in *. destruct (terms l + terms r)%nat as [|n] eqn:En; [lia|].
    assert (QL : q ^ terms l <= q ^ n) by (apply grown_mono; lia). assert (QR : q ^ terms r <= q ^ n) by (apply grown_mono; lia).
    assert (Q1 : 1 <= q ^ n) by (apply pow_R1_Rle; unfold q; lra).
    assert (SN : INR (S n) = INR (terms l) + INR (terms r)) by (rewrite <- En; apply plus_INR).
    assert (NL : 1 <= INR (terms l)) by (change 1 with (INR 1); apply le_INR; exact Tl). assert (NR : 1 <= INR (terms r)) by (change 1 with (INR 1); apply le_INR; exact Tr).
    unfold grown in *. fold q in Bl, Br. fold q. change (q ^ S n) with (q * q ^ n). rewrite SN. set (nl := INR (terms l)) in *. set (nr := INR (terms r)) in *. clearbody nl nr.
    assert (W : 1 <= 2 ^ 83) by apply pow2_ge1. set (M := 2 ^ 83) in *. clearbody M. set (ql := q ^ terms l) in *. set (qr := q ^ terms r) in *. set (Q := q ^ n) in *. clearbody ql qr Q.
    assert (S1 : Rabs x <= nl * M * Q) by (eapply Rle_trans; [exact Bl|]; apply Rmult_le_compat_l; [nra|exact QL]).
    assert (S2 : Rabs y <= nr * M * Q) by (eapply Rle_trans; [exact Br|]; apply Rmult_le_compat_l; [nra|exact QR]).
    set (T := (nl + nr) * M * Q). assert (T1 : Rabs (x + y) <= T) by (unfold T; nra).
    assert (T2 : 1 <= T) by (unfold T; assert (1 <= (nl + nr) * M) by nra; nra).
    replace ((nl + nr) * M * (q * Q)) with (q * T) by (unfold T; ring). clearbody T. unfold q. rewrite u22. rewrite u24 in AZ.
    assert (TT : / 2 ^ 120 <= / 16777216). { rewrite <- u24. apply Rinv_le_contravar; [apply pow2_pos|]. apply Rle_pow; [lra|lia]. }
    set (e := / 2 ^ 120) in *. clearbody e. clear - AZ T1 T2 TT. lra.
Qed.
Lemma times_finite w s area : below2 107 s -> below2 15 area -> ck_times L a w s area = Some (fl_times a w s area).
Proof. intros Hs Ha. destruct w; cbn [ck_times fl_times]; repeat one RO; reflexivity. Qed.
Lemma power_finite w area field t : over t (fun i j => below2 40 (fst (field i j)) /\ below2 40 (snd (field i j))) -> (Z.of_nat (terms t) <= 2 ^ 22)%Z -> below2 15 area ->
  ck_power L a w area field t = Some (fl_power a w area field t).
Proof.
  intros Ho Ht Ha. unfold ck_power. destruct (sum_finite (fun i j => fl_intensity a (field i j)) (fun i j => ck_intensity L a (field i j)) t) as [E B].
  - clear Ht. induction t as [i j|l IHl r IHr]; cbn [over] in *; [|split; [apply IHl|apply IHr]; tauto]. destruct Ho. apply intensity_finite; assumption.
  - exact Ht.
  - rewrite E. apply times_finite; [|exact Ha]. unfold below2. eapply Rle_trans; [exact B|]. apply grown_below. exact Ht.
Qed.

(** ** Amplitudes and holograms *)
Section Amplitudes.
Variables (ny nx : nat) (S E : nat -> nat -> R).
Hypotheses (Hy : (0 < ny)%nat) (Hx : (0 < nx)%nat).
Hypothesis HS : forall i j, (i < ny)%nat -> (j < nx)%nat -> 0 <= S i j /\ below2 60 (S i j).
Hypothesis HE : forall i j, (i < ny)%nat -> (j < nx)%nat -> 0 < E i j /\ above2 60 (E i j).
Lemma ratio_same i j : (i < ny)%nat -> (j < nx)%nat -> exists r, fl_ratio a (S i j) (E i j) = Fin r /\ ie_ratio L a (S i j) (E i j) = Fin r /\ 0 <= r.
Proof.
  intros Hi Hj. destruct (HS i j Hi Hj) as [S0 SB]. destruct (HE i j Hi Hj) as [E0 EB]. unfold fl_ratio, ie_ratio, ie_div, xdiv.
  destruct (Req_EM_T (S i j) 0) as [Z|Z]; [exists 0; repeat split; lra|]. destruct (Req_EM_T (E i j) 0) as [Q|Q]; [lra|].
  exists (rnd a (S i j / E i j)). split; [reflexivity|]. assert (B : below2 121 (rnd a (S i j / E i j))) by (eapply below_le; [mag RO|]; small).
  split.
  - destruct (Rle_dec (Rabs (rnd a (S i j / E i j))) (lim L)) as [_|N]; [reflexivity|]. destruct N. apply (below_le _ 127) in B; [|small]. unfold below2 in B. assert (M := ro_lim _ _ RO). lra.
  - apply (ro_pos _ _ RO). apply Rmult_le_pos; [exact S0|left; apply Rinv_0_lt_compat; exact E0].
Qed.
Lemma max_same : exists m, ie_max L a ny nx S E = Fin m /\ reduce_max (T2 ny nx (fun i j => fl_ratio a (S i j) (E i j))) = Fin m /\ forall i j r, (i < ny)%nat -> (j < nx)%nat -> fl_ratio a (S i j) (E i j) = Fin r -> r <= m.
Proof.
  set (r := fun i j => match fl_ratio a (S i j) (E i j) with Fin r => r | _ => 0 end).
  assert (R1 : forall i j, (i < ny)%nat -> (j < nx)%nat -> fl_ratio a (S i j) (E i j) = Fin (r i j) /\ ie_ratio L a (S i j) (E i j) = Fin (r i j)).
  { intros i j Hi Hj. destruct (ratio_same i j Hi Hj) as (x & E1 & E2 & _). unfold r. rewrite E1, E2. split; reflexivity. }
  destruct (xmax2_fin r ny nx Hy Hx) as (m & Em & Lm & _). exists m. unfold ie_max. cbn [reduce_max]. split; [|split].
  - rewrite <- Em. apply xmax2_ext. intros i j Hi Hj. exact (proj2 (R1 i j Hi Hj)).
  - rewrite <- Em. apply xmax2_ext. intros i j Hi Hj. exact (proj1 (R1 i j Hi Hj)).
  - intros i j x Hi Hj Ex. rewrite (proj1 (R1 i j Hi Hj)) in Ex. injection Ex as <-. apply Lm; assumption.
Qed.
Lemma amp_same i j : (i < ny)%nat -> (j < nx)%nat -> ie_amp_scaled L a ny nx S E i j = fl_amp_scaled a ny nx S E i j /\ forall A, fl_amp_scaled a ny nx S E i j = Fin A -> below2 1 A.
Proof.
  intros Hi Hj. destruct (ratio_same i j Hi Hj) as (r & E1 & E2 & R0). destruct max_same as (m & M1 & M2 & ML). assert (RM := ML i j r Hi Hj E1).
  unfold ie_amp_scaled, fl_amp_scaled. rewrite E1, E2, M1, M2. unfold ie_div, xdiv. destruct (Req_EM_T m 0) as [Z|Z].
  - destruct (Rlt_dec 0 r); [split; [reflexivity|discriminate]|]. destruct (Rlt_dec r 0); split; first [reflexivity|discriminate].
  - assert (B : below2 0 (r / m)).
    { unfold below2. cbn [pow]. assert (P : 0 < m) by lra. rewrite Rabs_pos_eq by (apply Rmult_le_pos; [exact R0|left; apply Rinv_0_lt_compat; exact P]). apply Rmult_le_reg_r with m; [exact P|]. unfold Rdiv. rewrite Rmult_assoc, Rinv_l, Rmult_1_r by lra. lra. }
    assert (B1 : below2 1 (rnd a (r / m))) by (eapply below_rnd; [exact (ro_rnd _ _ RO)|exact B]). destruct (Rle_dec (Rabs (rnd a (r / m))) (lim L)) as [_|N].
    + split; [reflexivity|]. intros A EA. injection EA as <-. exact B1.
    + destruct N. apply (below_le _ 127) in B1; [|small]. unfold below2 in B1. assert (M := ro_lim _ _ RO). lra.
Qed.
End Amplitudes.

Section Holo.
Variables (q : polar) (ny nx : nat) (ps p th : R) (S E : nat -> nat -> C).
Hypotheses (Hy : (0 < ny)%nat) (Hx : (0 < nx)%nat) (Ny : (Z.of_nat ny <= 2 ^ 20)%Z) (Nx : (Z.of_nat nx <= 2 ^ 20)%Z) (Hps : below2 20 ps) (Hp : above2 20 p) (Hp' : below2 100 p) (Hth : below2 100 th).
Hypothesis HA : forall z, Rabs (f_angle q z) <= 4.
Hypothesis HS : forall i j, (i < ny)%nat -> (j < nx)%nat -> 0 <= f_abs q (S i j) <= 2 ^ 60.
Hypothesis HE : forall i j, (i < ny)%nat -> (j < nx)%nat -> / 2 ^ 60 <= f_abs q (E i j).
Let HS' : forall i j, (i < ny)%nat -> (j < nx)%nat -> 0 <= f_abs q (S i j) /\ below2 60 (f_abs q (S i j)).
Proof. intros i j Hi Hj. destruct (HS i j Hi Hj). unfold below2. rewrite Rabs_pos_eq by assumption. split; assumption. Qed.
Let HE' : forall i j, (i < ny)%nat -> (j < nx)%nat -> 0 < f_abs q (E i j) /\ above2 60 (f_abs q (E i j)).
Proof. intros i j Hi Hj. assert (H := HE i j Hi Hj). assert (P : 0 < / 2 ^ 60) by (apply Rinv_0_lt_compat, pow2_pos). unfold above2. rewrite Rabs_pos_eq by lra. split; lra. Qed.
Lemma level_finite neg i j : (i < ny)%nat -> (j < nx)%nat ->
  ck_holo_level L a q neg ny nx ps p th S E i j = Some (match fl_holo_level a q neg ny nx ps p th S E i j with Some g => Fin g | None => NaN end) /\
  ck_holo_mirror L a q neg ny nx ps p th S E i j = Some (match fl_holo_mirror a q neg ny nx ps p th S E i j with Some b => b | None => false end).
Proof.
  intros Hi Hj. destruct (grid_finite L a RO ny nx ps i j Ny Nx Hps ltac:(lia) ltac:(lia)) as (EG & BX & BY).
  destruct (amp_same ny nx (fun i j => f_abs q (S i j)) (fun i j => f_abs q (E i j)) Hy Hx HS' HE' i j Hi Hj) as [EA BA].
  assert (LV : ck_holo_level L a q neg ny nx ps p th S E i j = Some (match fl_holo_level a q neg ny nx ps p th S E i j with Some g => Fin g | None => NaN end)).
  { unfold ck_holo_level, fl_holo_level, fl_holo_amp. rewrite EG. destruct (fl_grid a ny nx ps i j) as [x y]. cbn [fst snd] in BX, BY. repeat one RO. rewrite EA.
    destruct fl_amp_scaled as [A| | |]; try reflexivity. assert (B := BA A eq_refl). rewrite (ideal_finite L a RO); [reflexivity|..]; try assumption.
    - apply (below_le 1); [exact B|small].
    - apply (fun H => proj2 (conj Logic.I H)). assert (UP : above2 21 (rnd a p)) by (eapply above_rnd; [exact (ro_rnd _ _ RO)|small|exact Hp]). unfold above2 in *. eapply Rle_trans; [|exact UP]. apply Rinv_le_contravar; [apply pow2_pos|]. apply Rle_pow; [lra|lia].
    - apply (below_le 2); [apply below_4; apply HA|small].
    - unfold fl_phase_out. destruct (C_dec0 (S i j)); [apply below_const; rewrite Rabs_R0; lra|]. apply (below_le 2); [apply below_4; apply HA|small]. }
  split; [exact LV|]. unfold ck_holo_mirror. rewrite LV. unfold fl_holo_level, fl_holo_mirror. destruct fl_holo_amp as [A| | |]; try reflexivity. destruct (fl_grid a ny nx ps i j) as [x y]. repeat one RO. reflexivity.
Qed.
Lemma eta_finite sf m : below2 0 ps -> above2 40 sf -> above2 30 m -> ck_holo_eta L a ny nx ps sf (Fin m) = fl_holo_eta a ny nx ps sf (Fin m).
Proof. clear Hps. intros Hs Hf Hm. unfold ck_holo_eta, fl_holo_eta. repeat one RO. destruct (Req_EM_T m 0) as [Z|Z]; [reflexivity|]. repeat one RO. reflexivity. Qed.
Lemma holo_max_finite : ie_max L a ny nx (fun i j => f_abs q (S i j)) (fun i j => f_abs q (E i j)) = fl_holo_max a q ny nx S E.
Proof. destruct (max_same ny nx (fun i j => f_abs q (S i j)) (fun i j => f_abs q (E i j)) Hy Hx HS' HE') as (m & E1 & E2 & _). rewrite E1. unfold fl_holo_max. symmetry. exact E2. Qed.
End Holo.
End More.

(** ** Machines with enough room *)
Lemma machine_roomy f u eta B u' eta' B' L : arithmetic u eta B f -> arithmetic u' eta' B' binary64 -> (2 ^ 20 <= B)%Z -> u <= / 2 ^ 24 -> eta <= / 2 ^ 120 -> u' <= / 2 ^ 24 -> eta' <= / 2 ^ 120 -> 2 ^ 127 <= lim L -> 2 ^ 127 <= dlim L -> roomy L (machine f).
Proof.
  intros H H' HB Hu He Hu' He' HL HL'. assert (Lb := library_machine u eta B f H HB). destruct Lb as [LC LT _].
  assert (M := ar_monotone _ _ _ _ H). assert (Z1 := fl_1 _ _ _ _ H HB). assert (Z0 := fl_0 _ _ _ _ H HB).
  assert (I4 : f 4 = 4) by (apply (fl_int _ _ _ _ H 4); lia).
  assert (N4 : forall x, f (- x) = - f x) by exact (ar_odd _ _ _ _ H).
  assert (Q4 : forall x, Rabs x <= 4 -> Rabs (f x) <= 4).
  { intros x Hx. apply Rabs_le_inv in Hx. apply Rabs_le. split; [rewrite <- I4, <- N4; apply M; lra|rewrite <- I4; apply M; lra]. }
  split; try assumption.
  - intros x. assert (E := ar_error _ _ _ _ H x). assert (P := Rabs_pos x). cbn [machine rnd]. nra.
  - intros x. assert (E := ar_error _ _ _ _ H' x). assert (P := Rabs_pos x). cbn [machine dbl]. nra.
  - intros x Hx. cbn [machine rnd]. rewrite <- Z0. apply M. exact Hx.
  - intros x. apply Rabs_le. exact (LC x).
  - intros x. cbn [machine f_sin]. assert (K := SIN_bound x). apply Rabs_le. split; [rewrite <- Z1, <- N4; apply M; lra|rewrite <- Z1; apply M; lra].
  - intros x. apply Rabs_le. exact (LT x).
  - intros x. cbn [machine f_acos]. apply Q4. assert (K := acos_bound x). assert (P := PI_4). rewrite Rabs_pos_eq; lra.
  - intros x. cbn [machine f_asin]. apply Q4. assert (K := asin_bound x). assert (P := PI_4). apply Rabs_le. lra.
Qed.
Lemma max32_big : 2 ^ 127 <= max32. Proof. unfold max32. replace (2 ^ 127) with (2 ^ 104 * 8388608) by ring. replace (2 ^ 128) with (2 ^ 104 * 16777216) by ring. assert (P := pow2_pos 104). lra. Qed.
Lemma max64_big : 2 ^ 127 <= max64.
Proof.
  unfold max64. replace 1024%nat with (971 + 53)%nat by reflexivity. rewrite pow_add. assert (P : 2 ^ 127 <= 2 ^ 971) by (apply Rle_pow; [lra|lia]). assert (Q : 4 <= 2 ^ 53) by (replace 4 with (2 ^ 2) by ring; apply Rle_pow; [lra|lia]).
  assert (P0 := pow2_pos 971). assert (T : 2 ^ 971 * 4 <= 2 ^ 971 * 2 ^ 53) by (apply Rmult_le_compat_l; lra). generalize dependent (2 ^ 971 * 2 ^ 53). generalize dependent (2 ^ 971). intros. lra.
Qed.
Lemma inv_pow_le n m : (m <= n)%nat -> / 2 ^ n <= / 2 ^ m.
Proof. intros H. apply Rinv_le_contravar; [apply pow2_pos|]. apply Rle_pow; [lra|exact H]. Qed.
Lemma single_roomy : roomy single_limits single.
Proof. apply (machine_roomy _ _ _ _ _ _ _ _ binary32_arithmetic binary64_arithmetic); try (apply inv_pow_le; lia); [lia|exact max32_big|exact max64_big]. Qed.
Lemma double_roomy : roomy double_limits double.
Proof. apply (machine_roomy _ _ _ _ _ _ _ _ binary64_arithmetic binary64_arithmetic); try (apply inv_pow_le; lia); [lia|exact max64_big|exact max64_big]. Qed.
Lemma flushed_roomy : roomy single_limits (machine (flushed (/ 2 ^ 126) binary32)).
Proof.
  assert (T : 2 * (/ 2 ^ 126 + / 2 ^ 150) <= / 2 ^ 120).
  { replace (2 ^ 126) with (2 ^ 120 * 64) by ring. replace (2 ^ 150) with (2 ^ 120 * 1073741824) by ring. rewrite !Rinv_mult. assert (P : 0 < / 2 ^ 120) by (apply Rinv_0_lt_compat, pow2_pos). set (t := / 2 ^ 120) in *. clearbody t. lra. }
  apply (machine_roomy _ _ _ _ _ _ _ _ flushed32 binary64_arithmetic); try exact T; try (apply inv_pow_le; lia); try exact max32_big; try exact max64_big; lia.
Qed.
Lemma beam_finite L a f_exp Ny Nx ps x0 y0 A w i j : roomy L a -> (forall t, t <= 0 -> Rabs (f_exp t) <= 2) -> (Z.of_nat Ny <= 2 ^ 20)%Z -> (Z.of_nat Nx <= 2 ^ 20)%Z -> below2 0 ps -> (Z.of_nat i <= 2 ^ 20)%Z -> (Z.of_nat j <= 2 ^ 20)%Z ->
  below2 30 x0 -> below2 30 y0 -> below2 100 A -> above2 25 w -> below2 30 w -> ck_gaussian_beam L a f_exp Ny Nx ps x0 y0 A w i j = Some (fl_gaussian_beam a f_exp Ny Nx ps x0 y0 A w i j).
Proof.
  intros RO He Hy Hx Hp Hi Hj Hx0 Hy0 HA Hw Hw'. unfold ck_gaussian_beam, fl_gaussian_beam. assert (Hp' := below_le 0 20 ps Hp ltac:(lia)). destruct (grid_finite L a RO Ny Nx ps i j Hy Hx Hp' Hi Hj) as [EG _]. destruct (grid_fine L a RO Ny Nx ps i j Hy Hx Hp Hi Hj) as [BX BY].
  rewrite EG. destruct (fl_grid a Ny Nx ps i j) as [x y]. cbn [fst snd] in BX, BY. apply gaussian_finite; assumption.
Qed.
