(** Proofs for C132: blank holograms. *)
From Coq Require Import Reals Lra Lia ZArith Arith.
From Flocq Require Import Core.
From Coquelicot Require Import Complex Derive.
From Verif Require Import Cx Sums PyBase ProfileModel SlmModel LibModel DmdModel SimModel SimSpec DmdSpec DmdThms SimExamples FloatModel FloatSpec FloatFacts FloatFacts2 FloatFacts4 ModeSpec ModeThms FlModeModel NarrowSpec NarrowFacts.
Open Scope R_scope.

Lemma narrow_corner a u eta u' eta' B B' f_exp K kx ky s A w : arithmetic u eta B (rnd a) -> arithmetic u' eta' B' (dbl a) -> (2 ^ 22 <= B)%Z -> (2 ^ 22 <= B')%Z ->
  0 <= u <= / 2 ^ 24 -> 0 <= eta <= / 2 ^ 124 -> underflows f_exp K -> (K <= kx * kx + ky * ky)%Z -> narrow s w kx ky -> / 2 ^ 90 <= pixel_size s ->
  (0 < Z.of_nat (s_Ny s) <= 2 ^ 20)%Z -> (0 < Z.of_nat (s_Nx s) <= 2 ^ 20)%Z ->
  fl_gaussian_beam a f_exp (s_Ny s) (s_Nx s) (pixel_size s) 0 0 A w 0 0 = 0.
Proof.
  intros H H' HB HB' Hu He HU HK (Hkx & Hky & Hw & HX & HY) Hp Hy Hx.
  assert (P0 : 0 < pixel_size s) by (assert (0 < / 2 ^ 90) by (apply Rinv_0_lt_compat, pow_lt; lra); lra).
  destruct (grid_accurate a u eta u' eta' B B' (s_Ny s) (s_Nx s) (pixel_size s) H H' HB HB' Hu (proj1 He) (proj2 Hy) (proj2 Hx) P0 0 0 ltac:(lia) ltac:(lia)) as [GX GY].
  destruct (grid_stable a u eta B (s_Ny s) (s_Nx s) (pixel_size s) 0 0 H) as [SX SY].
  unfold fl_gaussian_beam. destruct (fl_grid a (s_Ny s) (s_Nx s) (pixel_size s) 0 0) as [x y]. cbn [fst snd] in *.
  assert (NX : 0 < INR (s_Nx s)) by (apply lt_0_INR; lia). assert (NY : 0 < INR (s_Ny s)) by (apply lt_0_INR; lia).
  cbn [INR] in GX, GY.
  assert (DX : 0 <= INR (s_Nx s) / 2 * pixel_size s) by (apply Rmult_le_pos; lra). assert (DY : 0 <= INR (s_Ny s) / 2 * pixel_size s) by (apply Rmult_le_pos; lra).
  replace ((0 - INR (s_Nx s) / 2) * pixel_size s) with (- (INR (s_Nx s) / 2 * pixel_size s)) in GX by ring.
  replace (Rabs (0 - INR (s_Nx s) / 2)) with (INR (s_Nx s) / 2) in GX by (rewrite Rminus_0_l, Rabs_Ropp, Rabs_pos_eq; lra).
  rewrite Rminus_0_r in GY. replace (Rabs (INR (s_Ny s) / 2)) with (INR (s_Ny s) / 2) in GY by (rewrite Rabs_pos_eq; lra).
  apply abs_near in GY; [|exact DY].
  assert (GX' : Rabs (- x - INR (s_Nx s) / 2 * pixel_size s) <= (2 * u + u ^ 2) * (INR (s_Nx s) / 2 * pixel_size s) + (INR (s_Nx s) + 1) * eta).
  { rewrite <- Rabs_Ropp. replace (- (- x - INR (s_Nx s) / 2 * pixel_size s)) with (x - - (INR (s_Nx s) / 2 * pixel_size s)) by ring. exact GX. }
  apply abs_near in GX'; [|exact DX]. rewrite Rabs_Ropp in GX'.
  assert (RW := ar_error _ _ _ _ H w).
  destruct (corner_far u eta _ w (rnd a w) (s_Nx s) kx x Hu He ltac:(lia) Hp Hw ltac:(lia) RW GX' HX) as [W0 FX].
  destruct (corner_far u eta _ w (rnd a w) (s_Ny s) ky y Hu He ltac:(lia) Hp Hw ltac:(lia) RW GY HY) as [_ FY].
  exact (far_is_dark a u eta B f_exp kx ky K A w x y H HB HU Hkx Hky HK SX SY W0 FX FY).
Qed.
Lemma narrow_hologram a u eta u' eta' B B' f_exp K kx ky h d A w target T wa W kw ru : let s := d_slm d in let b := rounded_beam a s f_exp A w in
  arithmetic u eta B (rnd a) -> arithmetic u' eta' B' (dbl a) -> (2 ^ 22 <= B)%Z -> (2 ^ 22 <= B')%Z ->
  0 <= u <= / 2 ^ 24 -> 0 <= eta <= / 2 ^ 124 -> underflows f_exp K -> (K <= kx * kx + ky * ky)%Z -> narrow s w kx ky -> / 2 ^ 90 <= pixel_size s ->
  (0 < Z.of_nat (s_Ny s) <= 2 ^ 20)%Z -> (0 < Z.of_nat (s_Nx s) <= 2 ^ 20)%Z -> d_p d <> 0 -> scaling_factor s <> 0 ->
  full_target h s target T -> window_reads h s wa W -> windowed d T W 0 0 <> RtoC 0 ->
  blank d (calculate_dmd_state h d b target MSimple wa kw ru) /\
  ((forall i j, 0 <= ru i j) -> blank d (calculate_dmd_state h d b target MRandom wa kw ru)) /\
  (snd (calculate_dmd_state h d b target MIdeal wa kw ru) = Ok (Fin 0) /\ forall i j, in_array d i j ->
     cell_at (d_state (fst (calculate_dmd_state h d b target MIdeal wa kw ru))) i j = CFloat (Fin 0) \/ cell_at (d_state (fst (calculate_dmd_state h d b target MIdeal wa kw ru))) i j = CFloat NaN).
Proof.
  cbv zeta. intros H H' HB HB' Hu He HU HK Hn Hps Hy Hx Hp Hs HT HW Hz.
  assert (E := narrow_corner a u eta u' eta' B B' f_exp K kx ky (d_slm d) A w H H' HB HB' Hu He HU HK Hn Hps Hy Hx).
  set (F := fun i j => RtoC (fl_gaussian_beam a f_exp (s_Ny (d_slm d)) (s_Nx (d_slm d)) (pixel_size (d_slm d)) 0 0 A w i j)).
  assert (HF : full_input h (d_slm d) (rounded_beam a (d_slm d) f_exp A w) F) by reflexivity.
  destruct (dark_spec h d (rounded_beam a (d_slm d) f_exp A w) target wa F T W kw ru HF HT HW Hp Hs) as ((g1 & G1 & V1) & (g2 & G2 & V2) & H3).
  { exists 0%nat, 0%nat. split; [split; lia|]. split; [unfold F; rewrite E; reflexivity|exact Hz]. }
  split; [|split].
  - rewrite G2. split; [reflexivity|]. split; [reflexivity|]. intros i j Hij. cbn [fst with_state d_state cell_at]. rewrite (V2 i j Hij). reflexivity.
  - intros Hr. destruct (H3 Hr) as (g3 & G3 & V3). rewrite G3. split; [reflexivity|]. split; [reflexivity|]. intros i j Hij. cbn [fst with_state d_state cell_at]. rewrite (V3 i j Hij). reflexivity.
  - rewrite G1. split; [reflexivity|]. intros i j Hij. cbn [fst with_state d_state cell_at]. destruct (V1 i j Hij) as [-> | ->]; auto.
Qed.
(** The exponential of single precision. *)
Lemma round_tiny x : 0 < x < bpow radix2 (-150) -> binary32 x = 0.
Proof.
  intros [H0 H1]. unfold binary32. apply round_N_small with (ex := mag radix2 x).
  - destruct (mag radix2 x) as [e He]. cbn. apply He. lra.
  - assert (M : (mag radix2 x <= -150)%Z) by (apply mag_le_bpow; [lra|rewrite Rabs_pos_eq; lra]). unfold FLT_exp. lia.
Qed.
Lemma exp_times n x : exp x ^ n = exp (INR n * x).
Proof.
  induction n as [|n IH]; [cbn [pow INR]; rewrite Rmult_0_l, exp_0; reflexivity|]. rewrite S_INR. cbn [pow]. rewrite IH, <- exp_plus. f_equal. ring.
Qed.
Lemma exp_110 : 2 ^ 150 < exp 110.
Proof.
  assert (E : 17 / 16 < exp (1 / 16)) by (eapply Rle_lt_trans; [|apply exp_ineq1; lra]; lra).
  assert (E1 : 263 / 100 < exp 1).
  { replace 1 with (INR 16 * (1 / 16)) by (cbn; lra). rewrite <- exp_times.
    apply Rlt_le_trans with ((17 / 16) ^ 16); [|apply pow_incr; lra].
    lra. }
  replace 110 with (INR 110 * 1) by (rewrite INR_IZR_INZ; cbn; lra). rewrite <- exp_times.
  apply Rlt_le_trans with ((263 / 100) ^ 110); [|apply pow_incr; lra].
  unfold Rdiv. rewrite Rpow_mult_distr, pow_inv. apply Rmult_lt_reg_r with (100 ^ 110); [apply pow_lt; lra|].
  rewrite Rmult_assoc, Rinv_l, Rmult_1_r by (apply pow_nonzero; lra).
  rewrite !pow_IZR, <- mult_IZR. apply IZR_lt. vm_compute. reflexivity.
Qed.
Lemma exp32_underflows : underflows exp32 110.
Proof.
  intros t Ht. unfold exp32. apply round_tiny. split; [apply exp_pos|].
  apply Rle_lt_trans with (exp (Ropp 110)). { destruct Ht as [Ht| ->]; [left; apply exp_increasing; exact Ht|right; reflexivity]. }
  rewrite exp_Ropp. assert (E := exp_110). replace (bpow radix2 (-150)) with (/ 2 ^ 150) by (rewrite <- (bpow_nat 150), <- bpow_opp; reflexivity).
  apply Rinv_lt_contravar; [|exact E]. apply Rmult_lt_0_compat; [apply pow_lt; lra|apply exp_pos].
Qed.
(** The panels. *)
Lemma narrow_panels wl fl per th neg w : / 2 ^ 90 <= w ->
  (w <= 1 / 1000 -> narrow (d_slm (DLP9500 wl fl per th neg)) w 10 5 /\ narrow (d_slm (DLP9000 wl fl per th neg)) w 9 6) /\
  (w <= 66 / 100000 -> narrow (d_slm (DLP7000 wl fl per th neg)) w 10 7).
Proof.
  intros H0. unfold narrow, DLP9500, DLP9000, DLP7000, dmd_new. cbn [d_slm s_Nx s_Ny pixel_size]. unfold micro.
  replace (20 * 128)%nat with 2560%nat by reflexivity. replace (10 * 160)%nat with 1600%nat by reflexivity. rewrite !INR_IZR_INZ, pow_inv_20.
  change (Z.of_nat 1920) with 1920%Z. change (Z.of_nat 1080) with 1080%Z. change (Z.of_nat 2560) with 2560%Z. change (Z.of_nat 1600) with 1600%Z. change (Z.of_nat 1024) with 1024%Z. change (Z.of_nat 768) with 768%Z.
  split; intros Hw; [split|]; (split; [lia|]; split; [lia|]; split; [exact H0|]; clear H0; replace (/ 10 ^ 6) with (1 / 1000000) by (cbn [pow]; lra); split; lra).
Qed.
(** Without rounding the formula is the fundamental mode. *)
Lemma link_gaussian x0 y0 A w x y : w <> 0 -> fl_gaussian exact exp x0 y0 A w x y = hg_mode x0 y0 A w 0 0 x y.
Proof.
  intros Hw. unfold fl_gaussian, exact, hg_mode. cbn [rnd]. cbv zeta. rewrite !(fun x => proj1 (hermite_low_orders x)).
  rewrite !Rmult_1_r. f_equal. f_equal. field. exact Hw.
Qed.
Lemma exact_bright s A w i j : 0 < w -> A <> 0 -> RtoC (hg_mode 0 0 A w 0 0 (mirror_x s j) (mirror_y s i)) <> RtoC 0.
Proof.
  intros Hw HA E. apply RtoC_inj in E. rewrite <- link_gaussian in E by lra. unfold fl_gaussian, exact in E. cbn [rnd] in E. rewrite !Rmult_1_r in E.
  apply Rmult_integral in E. destruct E as [E|E]; [contradiction|]. revert E. apply Rgt_not_eq, exp_pos.
Qed.
Lemma blank_instead wl fl per th neg h A w target T kw ru m : let d := DLP9500 wl fl per th neg in let s := d_slm d in
  0 < wl -> 0 < fl -> per <> 0 -> A <> 0 -> / 2 ^ 90 <= w <= 1 / 1000 -> full_target h s target T -> spectrum_of (s_Ny s) (s_Nx s) T 0 0 <> RtoC 0 -> (forall i j, 0 <= ru i j) ->
  m = MSimple \/ m = MRandom ->
  (exists eta, 0 < eta /\ snd (calculate_dmd_state h d (exact_beam s A w) target m None kw ru) = Ok (Fin eta)) /\
  blank d (calculate_dmd_state h d (rounded_beam single s exp32 A w) target m None kw ru).
Proof.
  cbv zeta. intros Hwl Hfl Hper HA Hw HT Hz Hr Hm.
  assert (W0 : 0 < w) by (assert (0 < / 2 ^ 90) by (apply Rinv_0_lt_compat, pow_lt; lra); lra).
  destruct (proj1 (narrow_panels wl fl per th neg w (proj1 Hw)) (proj2 Hw)) as [HN _].
  set (d := DLP9500 wl fl per th neg) in *.
  assert (PS : pixel_size (d_slm d) = 10.8 * (1 / 1000000)) by (unfold d, DLP9500, dmd_new, micro; cbn [d_slm pixel_size]; f_equal; cbn [pow]; lra).
  assert (Hp : d_p d <> 0). { unfold d, DLP9500, dmd_new. cbn [d_p]. apply Rmult_integral_contrapositive_currified; [exact Hper|]. unfold micro. lra. }
  assert (S0 : 0 < scaling_factor (d_slm d)) by (unfold d, DLP9500, dmd_new, scaling_factor; cbn [d_slm wavelength focal_length]; apply Rmult_lt_0_compat; assumption).
  assert (Sz : s_Ny (d_slm d) = 1080%nat /\ s_Nx (d_slm d) = 1920%nat) by (split; reflexivity). clearbody d. destruct Sz as [Sy Sx].
  assert (HW : window_reads h (d_slm d) None (fun _ _ => RtoC 1)) by (intros i j; reflexivity).
  assert (Hz' : windowed d T (fun _ _ => RtoC 1) 0 0 <> RtoC 0) by (unfold windowed; rewrite Cmult_1_r; exact Hz).
  assert (Yn : (0 < s_Ny (d_slm d))%nat) by (rewrite Sy; apply Nat.lt_0_succ). assert (Xn : (0 < s_Nx (d_slm d))%nat) by (rewrite Sx; apply Nat.lt_0_succ).
  split.
  - set (F := fun i j => RtoC (hg_mode 0 0 A w 0 0 (mirror_x (d_slm d) j) (mirror_y (d_slm d) i))).
    assert (HF : full_input h (d_slm d) (exact_beam (d_slm d) A w) F) by reflexivity.
    destruct (hologram_spec h d (exact_beam (d_slm d) A w) target None F T (fun _ _ => RtoC 1) kw ru HF HT HW Hp Yn Xn ltac:(lra)) as (M & HM & _ & _ & _ & (g2 & G2 & _) & (g3 & G3 & _)).
    { intros i j _ E. destruct (exact_bright (d_slm d) A w i j W0 HA E). }
    { exists 0%nat, 0%nat. split; [split; assumption|exact Hz']. }
    exists (eta_scale (d_slm d) / M). split.
    + unfold eta_scale. apply Rdiv_lt_0_compat; [|exact HM]. apply Rdiv_lt_0_compat; [|exact S0]. assert (N1 := lt_0_INR _ Yn). assert (N2 := lt_0_INR _ Xn).
      apply Rmult_lt_0_compat; [apply Rmult_lt_0_compat; assumption|apply pow_lt; lra].
    + destruct Hm as [-> | ->]; [rewrite G2|rewrite G3]; reflexivity.
  - assert (Q : 0 < / 2 ^ 90) by (apply Rinv_0_lt_compat, pow_lt; lra).
    assert (P90 : / 2 ^ 90 <= pixel_size (d_slm d)).
    { rewrite PS. apply Rle_trans with (/ 2 ^ 20); [apply Rinv_le_contravar; [apply pow_lt; lra|apply Rle_pow; [lra|lia]]|]. rewrite pow_inv_20. lra. }
    assert (E124 : 0 <= / 2 ^ 150 <= / 2 ^ 124) by (split; [left; apply Rinv_0_lt_compat, pow_lt; lra|apply Rinv_le_contravar; [apply pow_lt; lra|apply Rle_pow; [lra|lia]]]).
    assert (U24 : 0 <= / 2 ^ 24 <= / 2 ^ 24) by (rewrite pow_inv_24; lra).
    destruct (narrow_hologram single (/ 2 ^ 24) (/ 2 ^ 150) (/ 2 ^ 53) (/ 2 ^ 1075) (2 ^ 24) (2 ^ 53) exp32 110 10 5 h d A w target T None (fun _ _ => RtoC 1) kw ru
      binary32_arithmetic binary64_arithmetic ltac:(lia) ltac:(lia) U24 E124 exp32_underflows ltac:(lia) HN P90 ltac:(rewrite Sy; lia) ltac:(rewrite Sx; lia) Hp ltac:(lra) HT HW Hz') as (B1 & B2 & _).
    destruct Hm as [-> | ->]; [exact B1|exact (B2 Hr)].
Qed.
(** A target with one bright pixel. *)
Lemma one_pixel ny nx k l i j : (k < ny)%nat -> (l < nx)%nat -> spectrum_of ny nx (fun u v => if andb (Nat.eqb u k) (Nat.eqb v l) then RtoC 1 else RtoC 0) i j <> RtoC 0.
Proof.
  intros Hk Hl. unfold spectrum_of. rewrite (csum2_single ny nx k l _ Hk Hl).
  - rewrite !Nat.eqb_refl. cbn [andb]. rewrite Cmult_1_l. apply Cmod_gt_0. unfold wave. rewrite Cmod_cconj. rewrite Cmod_cis. lra.
  - intros u v _ _ N. destruct (Nat.eqb u k) eqn:E1; [|cbn [andb]; ring]. destruct (Nat.eqb v l) eqn:E2; [|cbn [andb]; ring].
    apply Nat.eqb_eq in E1. apply Nat.eqb_eq in E2. subst. destruct N. reflexivity.
Qed.
