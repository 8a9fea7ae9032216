(** C117: the power of a vortex beam on a DLP9500. *)
From Coq Require Import Reals Lra Psatz ZArith Arith List Bool Lia.
From Coquelicot Require Import Rcomplements Complex.
From Verif Require Import Cx Sums PyBase ProfileModel ProfSpec SlmModel LibModel DmdModel SimModel SimSpec ModeSpec DFT ModeFacts ModeThms GridFacts GaussSum GaussFacts HermSpec HermSum HermSum2 HermFacts HermCase RingSpec OverlapSpec OverSum OverFacts OverThms.
Import ListNotations.
Open Scope R_scope.

Lemma bend_small : 0 <= bend 0 0 <= 13.74 /\ 0 <= bend 1 1 <= 114.1 /\ 0 <= bend 0 1 <= 40.6 /\ 0 <= bend 1 0 <= 40.6.
Proof.
  destruct sup0_small as (B0 & B1 & _). destruct sup1_small as (C0 & C1 & _). destruct sup2_small as (D0 & D1). unfold bend.
  assert (M : forall x y a b, 0 <= x <= a -> 0 <= y <= b -> 0 <= x * y <= a * b) by (intros x y u v X Y; split; [apply Rmult_le_pos; lra|apply Rmult_le_compat; lra]).
  pose proof (M _ _ _ _ D0 B0). pose proof (M _ _ _ _ B0 D0). pose proof (M _ _ _ _ C0 C0). pose proof (M _ _ _ _ D1 B1). pose proof (M _ _ _ _ B1 D1). pose proof (M _ _ _ _ C1 C1).
  pose proof (M _ _ _ _ D0 B1). pose proof (M _ _ _ _ B0 D1). pose proof (M _ _ _ _ C0 C1). pose proof (M _ _ _ _ D1 B0). pose proof (M _ _ _ _ B1 D0). pose proof (M _ _ _ _ C1 C0). repeat apply conj; lra.
Qed.
Lemma low_beyond L : (L = 5.832 \/ L = 10.368) ->
  0 <= height 0 L <= / 10 ^ 9 /\ 0 <= height 1 L <= / 10 ^ 9 /\ 0 <= beyond 0 0 L <= / 10 ^ 8 /\ 0 <= beyond 1 1 L <= / 10 ^ 8 /\ 0 <= beyond 0 1 L <= / 10 ^ 8 /\ 0 <= beyond 1 0 L <= / 10 ^ 8.
Proof.
  intros HL. assert (T := low_tails L 0 HL ltac:(rewrite Rabs_R0; lra)). destruct T as (A0 & A1 & _).
  assert (E : forall n, 0 <= edge n (- L) L -> height n L <= edge n (- L) L /\ 0 <= height n L).
  { intros n _. assert (H0 : 0 <= height n L) by (rewrite height_H; apply Rabs_pos). assert (H1 : 0 <= height n (- L)) by (rewrite height_H; apply Rabs_pos). change (edge n (- L) L) with (height n (- L) + height n L). lra. }
  destruct (E 0%nat (proj1 A0)) as [H0 H0']. destruct (E 1%nat (proj1 A1)) as [H1 H1']. assert (K0 : 0 <= height 0 L <= / 10 ^ 9) by lra. assert (K1 : 0 <= height 1 L <= / 10 ^ 9) by lra.
  assert (P3 := sqrtPI_lb). assert (S2 : 1.4142 <= sqrt 2) by (rewrite <- (sqrt_pow2 1.4142) by lra; apply sqrt_le_1_alt; lra). assert (S2' : sqrt 2 <= 1.5) by (apply sqrt_ub; lra).
  assert (D : forall x y, 0 <= x <= / 10 ^ 9 -> 0 <= y <= / 10 ^ 9 -> 0 <= x * y / sqrt 2 <= / 10 ^ 10).
  { intros x y X Y. apply over_s2. split; [apply Rmult_le_pos; lra|]. apply Rle_trans with (/ 10 ^ 9 * / 10 ^ 9); [apply Rmult_le_compat; lra|lra]. }
  assert (D00 := D _ _ K0 K0). assert (D10 := D _ _ K1 K0).
  assert (B : 0 <= beyond 0 0 L <= / 10 ^ 9).
  { cbn [beyond]. assert (G : exp (- 2 * L ^ 2) <= / 10 ^ 11) by (replace (- 2 * L ^ 2) with (- (2 * L ^ 2)) by ring; apply exp_tiny; destruct HL as [-> | ->]; lra). assert (G0 := exp_pos (- 2 * L ^ 2)).
    assert (Q : 0 <= sqrt 2 / sqrt PI <= 1). { split; [apply Rmult_le_pos; [lra|left; apply Rinv_0_lt_compat; lra]|]. apply (Rmult_le_reg_r (sqrt PI)); [lra|]. replace (sqrt 2 / sqrt PI * sqrt PI) with (sqrt 2) by (field; lra). lra. }
    split; [apply Rmult_le_pos; lra|]. apply Rle_trans with (1 * / 10 ^ 11); [apply Rmult_le_compat; lra|lra]. }
  repeat apply conj; try lra; cbn [beyond INR] in *; lra.
Qed.
Lemma oaxis_small p q L0 b M : (L0 = 5.832 \/ L0 = 10.368) -> ((p = 0 \/ p = 1) /\ (q = 0 \/ q = 1))%nat -> 0 <= bend p q <= M -> 2 * L0 * 0.0108 ^ 2 / 12 * M + / 10 ^ 6 <= b ->
  0 <= overlap_axis_error p q (10.8 / 1000000) (L0 / 1000) 0 (1 / 1000) <= b * (1 / 1000).
Proof.
  intros HL HP HM HB. unfold overlap_axis_error. cbv zeta.
  replace (- (L0 / 1000 + 0) / (1 / 1000)) with (- L0) by field. replace ((L0 / 1000 - 0) / (1 / 1000)) with L0 by field. replace (2 * (L0 / 1000) / (1 / 1000)) with (2 * L0) by field.
  replace (10.8 / 1000000 / (1 / 1000)) with 0.0108 by lra. rewrite !height_flip, beyond_flip.
  destruct (low_beyond L0 HL) as (H0 & H1 & B00 & B11 & B01 & B10).
  assert (HH : 0 <= height p L0 * height q L0 <= / 10 ^ 9).
  { assert (Hp : 0 <= height p L0 <= / 10 ^ 9) by (destruct HP as [[-> | ->] _]; assumption). assert (Hq : 0 <= height q L0 <= / 10 ^ 9) by (destruct HP as [_ [-> | ->]]; assumption).
    split; [apply Rmult_le_pos; lra|]. apply Rle_trans with (/ 10 ^ 9 * / 10 ^ 9); [apply Rmult_le_compat; lra|lra]. }
  assert (BB : 0 <= beyond p q L0 <= / 10 ^ 8) by (destruct HP as [[-> | ->] [-> | ->]]; assumption).
  set (u := height p L0 * height q L0) in *. set (v := beyond p q L0) in *. set (k := 2 * L0 * 0.0108 ^ 2 / 12) in *. assert (Hk : 0 <= k) by (unfold k; destruct HL as [-> | ->]; lra).
  assert (0 <= k * bend p q <= k * M) by (split; [apply Rmult_le_pos; lra|apply Rmult_le_compat_l; lra]). split; [lra|]. lra.
Qed.
Lemma vortex_power h wl fl per th neg m a (left : bool) : wl * fl <> 0 -> (0 <= pad_x m)%Z -> (0 <= pad_y m)%Z ->
  let d := set_dmd_state_on (DLP9500 wl fl per th neg) in let w := 1 / 1000 in let l := if left then (-1)%Z else 1%Z in
  exists h1 p m' P, lg_new h 0 0 a w l 0 = Ok (h1, p) /\ propagate_to_image h1 (DevDmd d) m (AProf p) = (m', Ok tt) /\ get_input_power (d_slm d) m' = Ok P /\ get_image_plane_power (d_slm d) m' = Ok P /\
  Rabs (P - 0.5 * PI * a ^ 2 * w ^ 2) <= 0.02 * (0.5 * PI * a ^ 2 * w ^ 2).
Proof.
  intros Hsf Px Py d w l. assert (EX : INR 1920 = 1920) by (rewrite INR_IZR_INZ; reflexivity). assert (EY : INR 1080 = 1080) by (rewrite INR_IZR_INZ; reflexivity). set (s := d_slm d).
  assert (Ehs : pixel_size s = 10.8 / 1000000) by (cbn; unfold micro; lra). assert (ENx : s_Nx s = 1920%nat) by reflexivity. assert (ENy : s_Ny s = 1080%nat) by reflexivity.
  assert (Eq : Z.abs_nat l = 1%nat) by (unfold l; destruct left; reflexivity).
  destruct (laguerre_power h (DevDmd d) m 0 0 a w l 0 (RtoC 1) (fun i j => RtoC (if true then 1 else 0))) as (h1 & p & m' & P & E1 & E2 & E3 & E4 & E5 & B); cbn [dev_slm]; fold s; rewrite ?Ehs, ?ENx, ?ENy, ?EX, ?EY, ?Rabs_R0; try (unfold w; lra); try lia; try assumption.
  - exact (on_state (DLP9500 wl fl per th neg)).
  - reflexivity.
  - cbn [dev_slm] in E3, E4, E5, B. fold s in E3, E4, E5, B. rewrite Cmod_1, pow1, Rmult_1_l in E5. exists h1, p, m', P. split; [exact E1|]. split; [exact E2|]. split; [exact E3|]. split; [exact E5|].
    rewrite Ehs, ENx, ENy in B. unfold lg_power, lg_error, ring_scale in B. rewrite Eq in B. cbv zeta in B. cbn [rings_abs vortex_abs fact Nat.add Nat.mul pow INR] in B. unfold panel_error, overlap_error in B. rewrite EX, EY in B.
    replace (1080 / 2 * (10.8 / 1000000)) with (5.832 / 1000) in B by lra. replace (1920 / 2 * (10.8 / 1000000)) with (10.368 / 1000) in B by lra.
    destruct bend_small as (M00 & M11 & M01 & M10).
    assert (X00 := oaxis_small 0 0 10.368 0.00278 13.74 (or_intror eq_refl) ltac:(auto) M00 ltac:(lra)). assert (X11 := oaxis_small 1 1 10.368 0.02301 114.1 (or_intror eq_refl) ltac:(auto) M11 ltac:(lra)).
    assert (X01 := oaxis_small 0 1 10.368 0.0082 40.6 (or_intror eq_refl) ltac:(auto) M01 ltac:(lra)). assert (X10 := oaxis_small 1 0 10.368 0.0082 40.6 (or_intror eq_refl) ltac:(auto) M10 ltac:(lra)).
    assert (Y00 := oaxis_small 0 0 5.832 0.00156 13.74 (or_introl eq_refl) ltac:(auto) M00 ltac:(lra)). assert (Y11 := oaxis_small 1 1 5.832 0.01295 114.1 (or_introl eq_refl) ltac:(auto) M11 ltac:(lra)).
    assert (Y01 := oaxis_small 0 1 5.832 0.0047 40.6 (or_introl eq_refl) ltac:(auto) M01 ltac:(lra)). assert (Y10 := oaxis_small 1 0 5.832 0.0047 40.6 (or_introl eq_refl) ltac:(auto) M10 ltac:(lra)).
    fold w in X00, X11, X01, X10, Y00, Y11, Y01, Y10.
    set (x00 := overlap_axis_error 0 0 _ (10.368 / 1000) 0 w) in *. set (x11 := overlap_axis_error 1 1 _ (10.368 / 1000) 0 w) in *. set (x01 := overlap_axis_error 0 1 _ (10.368 / 1000) 0 w) in *. set (x10 := overlap_axis_error 1 0 _ (10.368 / 1000) 0 w) in *.
    set (y00 := overlap_axis_error 0 0 _ (5.832 / 1000) 0 w) in *. set (y11 := overlap_axis_error 1 1 _ (5.832 / 1000) 0 w) in *. set (y01 := overlap_axis_error 0 1 _ (5.832 / 1000) 0 w) in *. set (y10 := overlap_axis_error 1 0 _ (5.832 / 1000) 0 w) in *.
    clearbody x00 x11 x01 x10 y00 y11 y01 y10. unfold axis_overlap, product_error in B. cbn [Nat.eqb fact Nat.add Nat.mul pow INR] in B.
    assert (PP := PI2_3_2). assert (P4 := PI_4). set (t := sqrt (PI / 2)) in *. assert (T : 0 <= t <= 1.4143) by (split; [apply sqrt_pos|apply sqrt_ub; lra]). clearbody t.
    match type of B with Rabs ?z <= ?k * ?e => assert (Z : z = P - 0.5 * PI * a ^ 2 * w ^ 2) by (unfold Rdiv; rewrite ?Rinv_1; lra); rewrite Z in B; eapply Rle_trans; [exact B|]; replace k with (a ^ 2 / 4) by (rewrite <- (pow2_abs a); field); apply Rle_trans with (a ^ 2 / 4 * (0.066 * w ^ 2)) end.
    + assert (0 <= a ^ 2) by apply pow2_ge_0. apply Rmult_le_compat_l; [lra|]. unfold w in *.
      assert (M : forall x y u v, 0 <= x <= u -> 0 <= y <= v -> 0 <= x * y <= u * v) by (intros x y u v X Y; split; [apply Rmult_le_pos; lra|apply Rmult_le_compat; lra]).
      pose proof (M _ _ _ _ T X11). pose proof (M _ _ _ _ T X00). pose proof (M _ _ _ _ T Y00). pose proof (M _ _ _ _ T Y11). pose proof (M _ _ _ _ Y00 X11). pose proof (M _ _ _ _ Y11 X00). pose proof (M _ _ _ _ Y01 X10). pose proof (M _ _ _ _ Y10 X01). lra.
    + assert (0 <= a ^ 2 * w ^ 2) by (apply Rmult_le_pos; apply pow2_ge_0). nra.
Qed.
