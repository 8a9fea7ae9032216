(** Sampled Gaussian beams, and holograms of two beams that differ little (C137). *)
From Coq Require Import Reals Lra Psatz ZArith Arith Lia.
From Flocq Require Import Core.
From Coquelicot Require Import Complex.
From Verif Require Import Cx Sums DFT PyBase ProfileModel SlmModel LibModel DmdModel SimModel SimSpec DmdSpec DmdThms ModeSpec FloatModel FloatSpec FloatFacts FloatFacts2 FloatFacts4 FlModeModel NarrowSpec NarrowFacts WideSpec WideFacts.
Open Scope R_scope.

Lemma beam_accurate a u eta u' eta' B B' f_exp v o s x0 y0 A w i j :
  arithmetic u eta B (rnd a) -> arithmetic u' eta' B' (dbl a) -> (2 ^ 22 <= B)%Z -> (2 ^ 22 <= B')%Z -> 0 <= u <= / 2 ^ 24 -> 0 <= eta <= u / 100 ->
  accurate_exp f_exp v o -> 0 <= v <= 1 / 8 -> 0 <= o ->
  (Z.of_nat (s_Ny s) <= 2 ^ 20)%Z -> (Z.of_nat (s_Nx s) <= 2 ^ 20)%Z -> 0 < pixel_size s -> eta <= u * pixel_size s / 2 -> 0 < w -> 2 ^ 23 * eta <= u * w -> eta <= u * Rabs A ->
  (i < s_Ny s)%nat -> (j < s_Nx s)%nat -> let x := mirror_x s j in let y := mirror_y s i in 19 * u * reach x0 y0 w x y <= 1 / 8 ->
  Rabs (fl_gaussian_beam a f_exp (s_Ny s) (s_Nx s) (pixel_size s) x0 y0 A w i j - hg_mode x0 y0 A w 0 0 x y) <=
  (24 * u * reach x0 y0 w x y + 2 * v) * Rabs (hg_mode x0 y0 A w 0 0 x y) + 2 * (Rabs A * o + eta).
Proof.
  intros H H' HB HB' Hu He HX Hv Ho Ny Nx Hps Heps Hw Hew HA Hi Hj x y HQ.
  destruct (grid_after_rounding a u eta u' eta' B B' (s_Ny s) (s_Nx s) (pixel_size s) H H' HB HB' Hu (proj1 He) Ny Nx Hps Heps) as (X & Y & G & _ & _ & _ & _ & AX & AY).
  unfold fl_gaussian_beam. rewrite G by lia. specialize (AX j ltac:(lia)). specialize (AY i ltac:(lia)).
  assert (N : forall n, (Z.of_nat n <= 2 ^ 20)%Z -> (INR n + 1) * eta <= 2 ^ 20 * 1.01 * eta).
  { intros n Hn. apply Rmult_le_compat_r; [lra|]. rewrite INR_IZR_INZ. apply IZR_le in Hn. change (IZR (2 ^ 20)) with 1048576 in Hn. replace (2 ^ 20) with 1048576 by ring. lra. }
  assert (N1 := N _ Ny). assert (N2 := N _ Nx). rewrite pow_inv_24 in Hu. assert (uu : u ^ 2 <= u) by nra.
  assert (P : forall c n, Rabs ((c - n) * pixel_size s) = Rabs (c - n) * pixel_size s) by (intros; rewrite Rabs_mult, (Rabs_pos_eq (pixel_size s)) by lra; reflexivity).
  apply (gaussian_accurate a u eta B f_exp v o x0 y0 A w x y (X j) (Y i) (2 ^ 20 * 1.01 * eta)); try assumption.
  - rewrite pow_inv_24. exact Hu.
  - replace (2 ^ 20) with 1048576 by ring. lra.
  - replace (2 ^ 23) with 8388608 in Hew by ring. replace (2 ^ 20) with 1048576 by ring. lra.
  - unfold x, mirror_x. rewrite P. assert (Q := Rabs_pos (INR j - INR (s_Nx s) / 2)). assert (0 <= Rabs (INR j - INR (s_Nx s) / 2) * pixel_size s) by nra. eapply Rle_trans; [exact AX|]. assert ((2 * u + u ^ 2) * (Rabs (INR j - INR (s_Nx s) / 2) * pixel_size s) <= 3 * u * (Rabs (INR j - INR (s_Nx s) / 2) * pixel_size s)) by (apply Rmult_le_compat_r; lra). lra.
  - unfold y, mirror_y. rewrite P. assert (Q := Rabs_pos (INR (s_Ny s) / 2 - INR i)). assert (0 <= Rabs (INR (s_Ny s) / 2 - INR i) * pixel_size s) by nra. eapply Rle_trans; [exact AY|]. assert ((2 * u + u ^ 2) * (Rabs (INR (s_Ny s) / 2 - INR i) * pixel_size s) <= 3 * u * (Rabs (INR (s_Ny s) / 2 - INR i) * pixel_size s)) by (apply Rmult_le_compat_r; lra). lra.
Qed.
Lemma hologram_stable h d in1 in2 target w E E' T W kw ru delta : let s := d_slm d in let ny := s_Ny s in let nx := s_Nx s in
  full_input h s in1 E -> full_input h s in2 E' -> full_target h s target T -> window_reads h s w W -> d_p d <> 0 -> (0 < ny)%nat -> (0 < nx)%nat -> scaling_factor s <> 0 ->
  0 <= delta <= 1 / 2 -> (forall i j, in_array d i j -> E i j <> RtoC 0 /\ exists r, Rabs (r - 1) <= delta /\ E' i j = (RtoC r * E i j)%C) ->
  (exists i j, in_array d i j /\ windowed d T W i j <> RtoC 0) ->
  exists g f ef g' f' ef',
    calculate_dmd_state h d in1 target MIdeal w kw ru = (with_state d (DFloat ny nx g), Ok (Fin ef)) /\ calculate_dmd_state h d in1 target MSimple w kw ru = (with_state d (DBool ny nx f), Ok (Fin ef)) /\
    calculate_dmd_state h d in2 target MIdeal w kw ru = (with_state d (DFloat ny nx g'), Ok (Fin ef')) /\ calculate_dmd_state h d in2 target MSimple w kw ru = (with_state d (DBool ny nx f'), Ok (Fin ef')) /\
    Rabs (ef' - ef) <= delta * Rabs ef /\ forall i j, in_array d i j -> exists r r', g i j = Fin r /\ g' i j = Fin r' /\ Rabs (r' - r) <= 4 * delta /\ (f' i j <> f i j -> Rabs (r - 1 / 2) <= 4 * delta).
Proof.
  intros s ny nx FI FI' FT WR Hp Hy Hx Hs Hd HE NZ.
  assert (NE' : forall i j, in_array d i j -> E' i j <> RtoC 0).
  { intros i j Hij Z. destruct (HE i j Hij) as (N & r & Hr & X). rewrite X in Z. apply (f_equal Cmod) in Z. rewrite Cmod_mult, Cmod_0, Cmod_R in Z. assert (P := proj1 (Cmod_gt_0 (E i j)) N). apply Rabs_le_inv in Hr. rewrite Rabs_pos_eq in Z by lra. nra. }
  destruct (hologram_spec h d in1 target w E T W kw ru FI FT WR Hp Hy Hx Hs) as (M & HM & H1 & (i1 & j1 & A1 & B1) & (g & G & V1) & (f & F1 & V2) & _).
  { intros i j Hij Z. destruct (HE i j Hij) as (N & _). contradiction. } { exact NZ. }
  destruct (hologram_spec h d in2 target w E' T W kw ru FI' FT WR Hp Hy Hx Hs) as (M' & HM' & H1' & (i1' & j1' & A1' & B1') & (g' & G' & V1') & (f' & F1' & V2') & _).
  { intros i j Hij Z. destruct (NE' i j Hij Z). } { exact NZ. }
  cbv zeta in *. set (S1 := windowed d T W) in *.
  (* beams *)
  assert (HC : forall i j, in_array d i j -> exists r, 1 - delta <= r <= 1 + delta /\ Cmod (E' i j) = r * Cmod (E i j) /\ carg (E' i j) = carg (E i j) /\ 0 < Cmod (E i j)).
  { intros i j Hij. destruct (HE i j Hij) as (N & r & Hr & X). apply Rabs_le_inv in Hr. exists r. split; [lra|]. rewrite X. split; [rewrite Cmod_mult, Cmod_R, Rabs_pos_eq by lra; reflexivity|]. split; [|apply (proj1 (Cmod_gt_0 (E i j)) N)].
    apply carg_scale. lra. }
  assert (RA : forall i j, in_array d i j -> Cmod (S1 i j) / Cmod (E' i j) * (1 - delta) <= Cmod (S1 i j) / Cmod (E i j) <= Cmod (S1 i j) / Cmod (E' i j) * (1 + delta)).
  { intros i j Hij. destruct (HC i j Hij) as (r & Hr & X & _ & P). rewrite X. assert (Q := Cmod_ge_0 (S1 i j)). replace (Cmod (S1 i j) / (r * Cmod (E i j))) with (Cmod (S1 i j) / Cmod (E i j) * / r) by (field; lra).
    assert (q0 : 0 <= Cmod (S1 i j) / Cmod (E i j)) by (apply Rmult_le_pos; [exact Q|left; apply Rinv_0_lt_compat, P]). set (q := Cmod (S1 i j) / Cmod (E i j)) in *.
    assert (ri : 0 < / r) by (apply Rinv_0_lt_compat; lra). assert (rr : / r * r = 1) by (apply Rinv_l; lra). split.
    - rewrite Rmult_assoc. rewrite <- (Rmult_1_r q) at 2. apply Rmult_le_compat_l; [exact q0|]. apply Rle_trans with (/ r * r); [|lra]. apply Rmult_le_compat_l; lra.
    - rewrite Rmult_assoc. rewrite <- (Rmult_1_r q) at 1. apply Rmult_le_compat_l; [exact q0|]. apply Rle_trans with (/ r * r); [lra|]. apply Rmult_le_compat_l; lra. }
  assert (LE : forall i j, in_array d i j -> Cmod (S1 i j) / Cmod (E i j) <= M). { intros i j Hij. destruct (H1 i j Hij) as [_ X]. apply Rmult_le_reg_r with (/ M); [apply Rinv_0_lt_compat, HM|]. rewrite Rinv_r by lra. exact X. }
  assert (LE' : forall i j, in_array d i j -> Cmod (S1 i j) / Cmod (E' i j) <= M'). { intros i j Hij. destruct (H1' i j Hij) as [_ X]. apply Rmult_le_reg_r with (/ M'); [apply Rinv_0_lt_compat, HM'|]. rewrite Rinv_r by lra. exact X. }
  assert (EQ : Cmod (S1 i1 j1) / Cmod (E i1 j1) = M). { replace (Cmod (S1 i1 j1) / Cmod (E i1 j1)) with (Cmod (S1 i1 j1) / Cmod (E i1 j1) / M * M) by (unfold Rdiv; rewrite !Rmult_assoc, Rinv_l, Rmult_1_r by lra; reflexivity). rewrite B1. ring. }
  assert (EQ' : Cmod (S1 i1' j1') / Cmod (E' i1' j1') = M'). { replace (Cmod (S1 i1' j1') / Cmod (E' i1' j1')) with (Cmod (S1 i1' j1') / Cmod (E' i1' j1') / M' * M') by (unfold Rdiv; rewrite !Rmult_assoc, Rinv_l, Rmult_1_r by lra; reflexivity). rewrite B1'. ring. }
  assert (MM : M <= M' * (1 + delta)). { rewrite <- EQ. eapply Rle_trans; [apply (RA i1 j1 A1)|]. apply Rmult_le_compat_r; [lra|apply LE', A1]. }
  assert (MM' : M' * (1 - delta) <= M). { rewrite <- EQ'. eapply Rle_trans; [apply (RA i1' j1' A1')|]. apply LE, A1'. }
  exists g, f, (eta_scale s / M), g', f', (eta_scale s / M'). split; [exact G|]. split; [exact F1|]. split; [exact G'|]. split; [exact F1'|].
  assert (iM : 0 < / M) by (apply Rinv_0_lt_compat, HM). assert (iM' : 0 < / M') by (apply Rinv_0_lt_compat, HM'). assert (e1 : M * / M = 1) by (apply Rinv_r; lra). assert (e2 : M' * / M' = 1) by (apply Rinv_r; lra).
  assert (I1 : / M' <= (1 + delta) * / M). { apply Rmult_le_reg_l with M'; [exact HM'|]. rewrite e2, <- Rmult_assoc. apply Rle_trans with (M * / M); [lra|]. apply Rmult_le_compat_r; lra. }
  assert (I2 : (1 - delta) * / M <= / M'). { apply Rmult_le_reg_l with M'; [exact HM'|]. rewrite e2, <- Rmult_assoc. apply Rle_trans with (M * / M); [|lra]. apply Rmult_le_compat_r; lra. }
  split.
  { replace (eta_scale s / M' - eta_scale s / M) with (eta_scale s * (/ M' - / M)) by (unfold Rdiv; ring). unfold Rdiv. rewrite !Rabs_mult, (Rabs_pos_eq (/ M)) by lra. replace (delta * (Rabs (eta_scale s) * / M)) with (Rabs (eta_scale s) * (delta * / M)) by ring.
    apply Rmult_le_compat_l; [apply Rabs_pos|]. apply Rabs_le. lra. }
  intros i j Hij. specialize (V1 i j Hij). specialize (V2 i j Hij). specialize (V1' i j Hij). specialize (V2' i j Hij). destruct (HC i j Hij) as (_ & _ & _ & CA & _). rewrite CA in V1', V2'.
  set (co := cos (carrier d i j - signed (d_neg d) (phase_of (S1 i j) - carg (E i j))) / 2 + 1 / 2) in *. assert (CO : 0 <= co <= 1) by (unfold co; assert (X := COS_bound (carrier d i j - signed (d_neg d) (phase_of (S1 i j) - carg (E i j)))); lra).
  specialize (H1 i j Hij). specialize (H1' i j Hij). specialize (RA i j Hij).
  assert (DA : Rabs (Cmod (S1 i j) / Cmod (E' i j) / M' - Cmod (S1 i j) / Cmod (E i j) / M) <= 4 * delta).
  { set (p := Cmod (S1 i j) / Cmod (E i j)) in *. set (p' := Cmod (S1 i j) / Cmod (E' i j)) in *. unfold Rdiv in H1, H1' |- *. clearbody p p'.
    assert (P0 : 0 <= p'). { destruct H1' as [X _]. replace p' with (p' * / M' * M') by (rewrite Rmult_assoc, (Rmult_comm (/ M')), e2; ring). apply Rmult_le_pos; lra. }
    assert (P1 : 0 <= p). { destruct H1 as [X _]. replace p with (p * / M * M) by (rewrite Rmult_assoc, (Rmult_comm (/ M)), e1; ring). apply Rmult_le_pos; lra. }
    assert (U : (1 - delta) * (p' * / M') <= (1 + delta) * (p * / M)).
    { replace ((1 - delta) * (p' * / M')) with (p' * (1 - delta) * / M') by ring. replace ((1 + delta) * (p * / M)) with (p * ((1 + delta) * / M)) by ring. apply Rmult_le_compat; nra. }
    assert (L : (1 - delta) * (p * / M) <= (1 + delta) * (p' * / M')).
    { replace ((1 - delta) * (p * / M)) with (p * ((1 - delta) * / M)) by ring. replace ((1 + delta) * (p' * / M')) with (p' * (1 + delta) * / M') by ring. apply Rmult_le_compat; nra. }
    set (X := p * / M) in *. set (X' := p' * / M') in *. clearbody X X'. apply Rabs_le. nra. }
  do 2 eexists. split; [exact V1|]. split; [exact V1'|].
  set (A := Cmod (S1 i j) / Cmod (E i j) / M) in *. set (A' := Cmod (S1 i j) / Cmod (E' i j) / M') in *. clearbody A A' co.
  assert (D : Rabs (A' * co - A * co) <= 4 * delta). { rewrite <- Rmult_minus_distr_r, Rabs_mult, (Rabs_pos_eq co) by lra. assert (Q := Rabs_pos (A' - A)). nra. }
  split; [exact D|]. intros N. apply Rabs_le_inv in D. destruct (f i j), (f' i j); try (contradiction N; reflexivity).
  - assert (1 / 2 < A * co) by (apply V2; reflexivity). assert (~ 1 / 2 < A' * co) by (intros X; apply V2' in X; discriminate). apply Rabs_le. lra.
  - assert (1 / 2 < A' * co) by (apply V2'; reflexivity). assert (~ 1 / 2 < A * co) by (intros X; apply V2 in X; discriminate). apply Rabs_le. lra.
Qed.
