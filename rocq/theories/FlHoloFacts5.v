(** Holograms after rounding: without rounding, and a flat beam with a spot (C134). *)
From Coq Require Import Reals Lra Psatz ZArith Arith List Bool Lia.
From Coquelicot Require Import Complex.
From Verif Require Import Cx Sums DFT PyBase ProfileModel SlmModel LibModel DmdModel SimModel SimSpec SimExamples DmdSpec FloatModel FloatSpec FlSimSpec NormFacts FftModel FlHoloModel FlHoloSpec FlHoloFacts3.
From Verif Require Import FringeSpec.
Open Scope R_scope.

Lemma exact_any B : arithmetic 0 0 B (rnd exact).
Proof. constructor; cbn [rnd exact]; intros; try reflexivity; try assumption. rewrite Rminus_diag_eq, Rabs_R0 by reflexivity. lra. Qed.
Lemma exact_any' B : arithmetic 0 0 B (dbl exact).
Proof. exact (exact_any B). Qed.
Lemma exact_lib : library exact.
Proof.
  split; cbn.
  - apply COS_bound.
  - intros x. unfold tanh, sinh, cosh. assert (P := exp_pos x). assert (P' := exp_pos (- x)). replace ((exp x - exp (- x)) / 2 / ((exp x + exp (- x)) / 2)) with ((exp x - exp (- x)) / (exp x + exp (- x))) by (field; lra).
    split; [apply Rmult_le_reg_r with (exp x + exp (- x)); [lra|]|apply Rmult_le_reg_r with (exp x + exp (- x)); [lra|]]; unfold Rdiv; rewrite Rmult_assoc, Rinv_l by lra; lra.
  - apply asin_0.
Qed.
Lemma exact_acc : FringeSpec.accurate exact 0.
Proof. split; intros x; cbn; rewrite Rminus_diag_eq, Rabs_R0 by reflexivity; lra. Qed.
Lemma exact_pol : accurate_polar exact_polar 0 0.
Proof.
  split; intros z; cbn.
  - apply Cmod_ge_0.
  - rewrite Rminus_diag_eq, Rabs_R0 by reflexivity. lra.
  - intros N. rewrite cis_carg by exact N. replace (z / RtoC (Cmod z) - z / RtoC (Cmod z))%C with (RtoC 0) by ring. rewrite Cmod_0. lra.
  - intros _. assert (C := carg_range z). assert (P := PI_4). apply Rabs_le. lra.
Qed.
Lemma hologram_exact h d input target w E T W kw ru b :
  let s := d_slm d in let ny := s_Ny s in let nx := s_Nx s in
  full_input h s input E -> full_target h s target T -> window_reads h s w W ->
  (forall i j, in_array d i j -> b <= Cmod (E i j)) -> 0 < b -> (forall i j, in_array d i j -> Cmod (W i j) <= 1) ->
  (exists i j, in_array d i j /\ windowed d T W i j <> RtoC 0) ->
  (Z.of_nat ny <= 2 ^ 20)%Z -> (Z.of_nat nx <= 2 ^ 20)%Z -> 0 < pixel_size s -> 0 < scaling_factor s -> 0 < d_p d -> Rabs (d_theta d) <= 4 ->
  let S' := fl_spectrum exact fft2 ny nx T (window_of w W) in
  exists g f ef,
    calculate_dmd_state h d input target MIdeal w kw ru = (with_state d (DFloat ny nx g), Ok (Fin ef)) /\
    calculate_dmd_state h d input target MSimple w kw ru = (with_state d (DBool ny nx f), Ok (Fin ef)) /\
    fl_holo_eta exact ny nx (pixel_size s) (scaling_factor s) (fl_holo_max exact exact_polar ny nx S' E) = Some ef /\
    forall i j, in_array d i j -> exists r, g i j = Fin r /\
      fl_holo_level exact exact_polar (d_neg d) ny nx (pixel_size s) (d_p d) (d_theta d) S' E i j = Some r /\
      (r <> 1 / 2 -> fl_holo_mirror exact exact_polar (d_neg d) ny nx (pixel_size s) (d_p d) (d_theta d) S' E i j = Some (f i j)).
Proof.
  intros s ny nx FI FT WR Eb Hb W1 NZ Zy Zx Ps Sf Pp Ht S'.
  assert (TR : forall i j, in_array d i j -> representable (rnd exact) (T i j)) by (intros; split; reflexivity).
  assert (AF : accurate_forward exact 0 0 ny nx (fft2 ny nx)).
  { intros f _. unfold norm. rewrite (rsum2_ext ny nx _ (fun _ _ => 0)). 2:{ intros i j _ _. replace (fft2 ny nx f i j - fft2 ny nx f i j)%C with (RtoC 0) by ring. rewrite Cmod_0. ring. }
    replace (rsum2 ny nx (fun _ _ => 0)) with 0. { rewrite sqrt_0. lra. } symmetry. unfold rsum2. rewrite (rsum_ext ny _ (fun _ => 0)); [rewrite rsum_const; ring|intros; rewrite rsum_const; ring]. }
  assert (A1 : 0 <= 0 <= / 2 ^ 24) by lra. assert (A2 : 0 <= 0) by lra. assert (A3 : 0 <= 0 <= 0) by lra. assert (A4 : 0 <= / 2 ^ 16) by lra.
  assert (BA : (2 ^ 22 <= 2 ^ 22)%Z) by lia. 
  assert (HK : 0 * contrast ny nx E (spectrum_of ny nx T) (windowed d T W) b <= 1 / 17) by lra.
  assert (HU : holo_no_underflow 0 b 0 0 0 ny nx E (windowed d T W)) by (unfold holo_no_underflow; cbv zeta; repeat split; lra).
  assert (HN : no_underflow 0 0 (pixel_size s) (d_p d)) by (unfold no_underflow; repeat split; lra).
  assert (HE : eta_no_underflow 0 0 (pixel_size s) (scaling_factor s) (INR nx * INR ny) b ny nx (windowed d T W)) by (unfold eta_no_underflow; repeat split; lra).
  destruct (hologram_rounded exact 0 0 0 0 0 (2 ^ 22) (2 ^ 22) exact_polar 0 fft2 0 0 h d input target w E T W kw ru b
    (exact_any _) (exact_any' _) BA BA exact_lib exact_acc exact_pol A1 A2 A3 A4 A3 A2 A2 FI FT WR Eb Hb W1 NZ TR AF A2 HK HU HN HE Zy Zx Ps Sf Pp Ht) as (g & f & ef & y & G & G' & Ey & Dy & V).
  exists g, f, ef. split; [exact G|]. split; [exact G'|].
  assert (Z : forall x z k, Rabs (x - z) <= k -> k = 0 -> x = z) by (intros x z k Q ->; assert (P := Rabs_pos (x - z)); destruct (Req_dec x z) as [|N]; [assumption|exfalso; assert (P' := Rabs_pos_lt (x - z) ltac:(lra)); lra]).
  split; [rewrite <- (Z _ _ _ Dy ltac:(ring)); exact Ey|].
  intros i j Hij. destruct (V i j Hij) as (r & x & t & V1 & V2 & V3 & V4 & V5). exists r. split; [exact V1|].
  split; [rewrite <- (Z _ _ _ V3 ltac:(ring)); exact V2|]. intros N. fold s ny nx in V4. fold S' in V4. rewrite V4. f_equal.
  destruct (Bool.bool_dec t (f i j)) as [|D]; [assumption|exfalso]. apply N. specialize (V5 D). exact (Z _ _ _ V5 ltac:(ring)).
Qed.

(** ** A flat beam and a spot *)
Lemma norm_unit ny nx f : (forall i j, (i < ny)%nat -> (j < nx)%nat -> Cmod (f i j) = 1) -> norm ny nx f = sqrt (INR ny * INR nx).
Proof.
  intros H. unfold norm. f_equal. rewrite (rsum2_ext ny nx _ (fun _ _ => 1)) by (intros i j Hi Hj; rewrite (H i j Hi Hj); ring).
  unfold rsum2. rewrite (rsum_ext ny _ (fun _ => INR nx)) by (intros; rewrite rsum_const; ring). apply rsum_const.
Qed.
Definition spot (k l u v : nat) : C := if andb (Nat.eqb u k) (Nat.eqb v l) then RtoC 1 else RtoC 0.
Lemma spot_spectrum ny nx k l i j : (k < ny)%nat -> (l < nx)%nat -> Cmod (spectrum_of ny nx (spot k l) i j) = 1.
Proof.
  intros Hk Hl. unfold spectrum_of, spot. rewrite (csum2_single ny nx k l _ Hk Hl).
  - rewrite !Nat.eqb_refl. cbn [andb]. rewrite Cmult_1_l. unfold wave. rewrite Cmod_cconj. apply Cmod_cis.
  - intros u v _ _ N. destruct (Nat.eqb u k) eqn:E1; [|cbn [andb]; ring]. destruct (Nat.eqb v l) eqn:E2; [|cbn [andb]; ring].
    apply Nat.eqb_eq in E1. apply Nat.eqb_eq in E2. subst. destruct N. reflexivity.
Qed.
