(** Random gratings with random numbers of finite resolution (C157). *)
From Coq Require Import Reals Lra ZArith Arith List Bool Lia FunctionalExtensionality.
From Flocq Require Import Core.
From Coquelicot Require Import Hierarchy RInt Complex.
From Verif Require Import Cx Sums DFT PyBase ProfileModel SlmModel LibModel DmdModel SimModel SimSpec GridFacts GridFacts2 SimFacts SimFacts2 SimFacts4 DmdSpec DmdFacts DmdFacts2 DmdFacts3 RandomFacts AmpFacts5 PhaseFacts DmdThms StatSpec StatFacts StatThms QuantSpec.
Import ListNotations.
Open Scope R_scope.

Lemma quant_lt K u g i j : (0 < K)%Z -> (quantised K u i j < g <-> u i j < next_step K g).
Proof.
  intros HK. unfold quantised, next_step. assert (P : 0 < IZR K) by (apply IZR_lt; exact HK). set (x := u i j).
  assert (F1 := Zfloor_lb (x * IZR K)). assert (F2 := Zfloor_ub (x * IZR K)). assert (C1 := Zceil_ub (g * IZR K)). assert (C2 := Zceil_lb (g * IZR K)).
  set (a := Zfloor (x * IZR K)) in *. set (b := Zceil (g * IZR K)) in *.
  assert (E : IZR a / IZR K < g <-> (a < b)%Z).
  { split; intros H.
    - apply lt_IZR. assert (IZR a < g * IZR K). { replace (IZR a) with (IZR a / IZR K * IZR K) by (field; lra). apply Rmult_lt_compat_r; assumption. } lra.
    - assert (IZR a <= IZR b - 1) by (rewrite <- minus_IZR; apply IZR_le; lia). apply Rmult_lt_reg_r with (IZR K); [exact P|]. 
      replace (IZR a / IZR K * IZR K) with (IZR a) by (field; lra). lra. }
  rewrite E. split; intros H.
  - assert (IZR a <= IZR b - 1) by (rewrite <- minus_IZR; apply IZR_le; lia). apply Rmult_lt_reg_r with (IZR K); [exact P|].
    replace (IZR b / IZR K * IZR K) with (IZR b) by (field; lra). lra.
  - apply lt_IZR. assert (x * IZR K < IZR b). { replace (IZR b) with (IZR b / IZR K * IZR K) by (field; lra). apply Rmult_lt_compat_r; assumption. } lra.
Qed.
Lemma step_bounds K g : (0 < K)%Z -> g <= next_step K g < g + / IZR K.
Proof.
  intros HK. unfold next_step. assert (P : 0 < IZR K) by (apply IZR_lt; exact HK).
  assert (C1 := Zceil_ub (g * IZR K)). assert (C2 := Zceil_lb (g * IZR K)). set (b := Zceil (g * IZR K)) in *. split.
  - apply Rmult_le_reg_r with (IZR K); [exact P|]. replace (IZR b / IZR K * IZR K) with (IZR b) by (field; lra). exact C1.
  - apply Rmult_lt_reg_r with (IZR K); [exact P|]. replace (IZR b / IZR K * IZR K) with (IZR b) by (field; lra). replace ((g + / IZR K) * IZR K) with (g * IZR K + 1) by (field; lra). lra.
Qed.
Lemma step_range K g : (0 < K)%Z -> 0 <= g <= 1 -> 0 <= next_step K g <= 1.
Proof.
  intros HK Hg. assert (P : 0 < IZR K) by (apply IZR_lt; exact HK). destruct (step_bounds K g HK) as [L _]. split; [lra|].
  unfold next_step. apply Rmult_le_reg_r with (IZR K); [exact P|]. replace (IZR _ / IZR K * IZR K) with (IZR (Zceil (g * IZR K))) by (field; lra).
  rewrite Rmult_1_l. apply IZR_le. apply Zceil_glb. replace (IZR K) with (1 * IZR K) at 2 by ring. apply Rmult_le_compat_r; lra.
Qed.
Lemma step_exact K k : (0 < K)%Z -> next_step K (IZR k / IZR K) = IZR k / IZR K.
Proof.
  intros HK. unfold next_step. replace (IZR k / IZR K * IZR K) with (IZR k) by (field; apply IZR_neq; lia). rewrite Zceil_IZR. reflexivity.
Qed.
Lemma step_small K g : (0 < K)%Z -> 0 < g <= / IZR K -> next_step K g = / IZR K.
Proof.
  intros HK Hg. unfold next_step. assert (P : 0 < IZR K) by (apply IZR_lt; exact HK). replace (Zceil (g * IZR K)) with 1%Z; [unfold Rdiv; ring|]. symmetry. apply Zceil_imp.
  split; [cbn; apply Rmult_lt_0_compat; lra|]. replace 1 with (/ IZR K * IZR K) by (field; lra). apply Rmult_le_compat_r; lra.
Qed.
(** Of the K values, [g K] rounded up switch a mirror on. *)
Lemma step_count K g : 0 <= g <= 1 -> (0 < K)%nat ->
  INR (length (filter (fun k => if Rlt_dec (INR k / INR K) g then true else false) (seq 0 K))) = next_step (Z.of_nat K) g * INR K.
Proof.
  intros Hg HK. assert (P : 0 < INR K) by (apply lt_0_INR; exact HK). unfold next_step. rewrite <- INR_IZR_INZ.
  replace (IZR (Zceil (g * INR K)) / INR K * INR K) with (IZR (Zceil (g * INR K))) by (field; lra).
  assert (C1 := Zceil_ub (g * INR K)). assert (C2 := Zceil_lb (g * INR K)). set (b := Zceil (g * INR K)) in *.
  assert (B0 : (0 <= b)%Z). { apply le_IZR. assert (0 <= g * INR K) by (apply Rmult_le_pos; lra). lra. }
  assert (BK : (b <= Z.of_nat K)%Z). { apply Zlt_succ_le. apply lt_IZR. rewrite succ_IZR, <- INR_IZR_INZ. assert (g * INR K <= INR K) by (rewrite <- Rmult_1_l; apply Rmult_le_compat_r; lra). lra. }
  assert (EQ : forall n, (n <= K)%nat -> length (filter (fun k => if Rlt_dec (INR k / INR K) g then true else false) (seq 0 n)) = Nat.min n (Z.to_nat b)).
  { induction n as [|n IH]; intros Hn; [reflexivity|]. rewrite seq_S, filter_app, app_length, IH by lia. cbn [filter]. change (0 + n)%nat with n.
    assert (D : INR n / INR K < g <-> (n < Z.to_nat b)%nat).
    { assert (E1 : INR n / INR K < g <-> INR n < g * INR K).
      { split; intros H; [replace (INR n) with (INR n / INR K * INR K) by (field; lra); apply Rmult_lt_compat_r; lra|].
        apply Rmult_lt_reg_r with (INR K); [exact P|]. replace (INR n / INR K * INR K) with (INR n) by (field; lra). exact H. }
      rewrite E1. rewrite INR_IZR_INZ. split; intros H.
      - assert ((Z.of_nat n < b)%Z) by (apply lt_IZR; lra). lia.
      - assert (IZR (Z.of_nat n) <= IZR b - 1) by (rewrite <- minus_IZR; apply IZR_le; lia). lra. }
    destruct (Rlt_dec (INR n / INR K) g) as [H|H]; cbn [length].
    - apply D in H. rewrite !Nat.min_l by lia. lia.
    - assert (~ (n < Z.to_nat b)%nat) by tauto. rewrite !Nat.min_r by lia. lia. }
  rewrite EQ by lia. rewrite Nat.min_r by lia. rewrite INR_IZR_INZ, Z2Nat.id by lia. reflexivity.
Qed.

Section Mean.
Variables (h : heap) (dg : dmd) (m : sim) (a : parg) (F : nat -> nat -> C) (g : nat -> nat -> R) (K : Z).
Let s := d_slm dg.
Hypothesis (HF : full_input h (d_slm dg) a F) (HK : (0 < K)%Z) (Hnx : (0 < s_Nx (d_slm dg))%nat) (Hny : (0 < s_Ny (d_slm dg))%nat) (Hps : pixel_size (d_slm dg) <> 0).
(** The images of two grey patterns. *)
Lemma grey_distance g' n1 n2 I1 I2 e p q :
  propagate_to_image h (DevDmd (with_state dg (DFloat (s_Ny s) (s_Nx s) (fun i j => Fin (g i j))))) m a = (n1, Ok tt) -> field_is (f_image n1) (NY s m) (NX s m) I1 ->
  propagate_to_image h (DevDmd (with_state dg (DFloat (s_Ny s) (s_Nx s) (fun i j => Fin (g' i j))))) m a = (n2, Ok tt) -> field_is (f_image n2) (NY s m) (NX s m) I2 ->
  (forall i j, (i < s_Ny s)%nat -> (j < s_Nx s)%nat -> Rabs (g' i j - g i j) <= e) -> (p < NY s m)%nat -> (q < NX s m)%nat ->
  Cmod (I2 p q - I1 p q)%C <= pixel_size s ^ 2 / Rabs (scaling_factor s) * e * rsum2 (s_Ny s) (s_Nx s) (fun i j => Cmod (F i j)).
Proof.
  intros P1 E1 P2 E2 He Hp Hq.
  assert (exists X Y, grid_is (image_plane_padded_grid s m) (NY s m) (NX s m) X Y) as (X & Y & GX).
  { do 2 eexists. exact (image_grid_of_is (NX s m) (NY s m) (pixel_size s) (scaling_factor s) Hps). }
  assert (A : forall k n I, propagate_to_image h (DevDmd (with_state dg (DFloat (s_Ny s) (s_Nx s) (fun i j => Fin (k i j))))) m a = (n, Ok tt) -> field_is (f_image n) (NY s m) (NX s m) I ->
     I p q = csum2 (s_Ny s) (s_Nx s) (fun i j => (share s F (X p q) (Y p q) i j * RtoC (k i j))%C)).
  { intros k n I P E. assert (Sg := image_sampled h (DevDmd (with_state dg (DFloat (s_Ny s) (s_Nx s) (fun i j => Fin (k i j))))) m a F (fun i j => RtoC (k i j)) n X Y).
    specialize (Sg HF (state_float (with_state dg (DFloat (s_Ny s) (s_Nx s) (fun i j => Fin (k i j)))) k eq_refl) P Hnx Hny Hps GX).
    destruct (field_is_inj _ _ _ _ _ _ _ E Sg) as (_ & _ & ->); [|assumption|assumption]. cbn [dev_slm]. apply share_sum. }
  rewrite (A g n1 I1 P1 E1), (A g' n2 I2 P2 E2).
  assert (EQ : (csum2 (s_Ny s) (s_Nx s) (fun i j => share s F (X p q) (Y p q) i j * RtoC (g' i j)) - csum2 (s_Ny s) (s_Nx s) (fun i j => share s F (X p q) (Y p q) i j * RtoC (g i j)) =
    csum2 (s_Ny s) (s_Nx s) (fun i j => share s F (X p q) (Y p q) i j * RtoC (g' i j - g i j)))%C).
  { replace (csum2 (s_Ny s) (s_Nx s) (fun i j => (share s F (X p q) (Y p q) i j * RtoC (g' i j))%C)) with
      (csum2 (s_Ny s) (s_Nx s) (fun i j => (share s F (X p q) (Y p q) i j * RtoC (g' i j - g i j))%C) + csum2 (s_Ny s) (s_Nx s) (fun i j => (share s F (X p q) (Y p q) i j * RtoC (g i j))%C))%C; [ring|].
    rewrite <- csum2_plus. apply csum2_ext. intros i j _ _. rewrite RtoC_minus. ring. }
  rewrite EQ. eapply Rle_trans; [apply Cmod_csum2|]. rewrite <- rsum2_scal_l. apply rsum2_le. intros i j Hi Hj. rewrite Cmod_mult, Cmod_R.
  assert (M : Cmod (share s F (X p q) (Y p q) i j) = pixel_size s ^ 2 / Rabs (scaling_factor s) * Cmod (F i j)).
  { unfold share. rewrite !Cmod_mult, !Cmod_cis, Cmod_R. unfold Rdiv. rewrite Rabs_mult, Rabs_inv, (Rabs_pos_eq (pixel_size s ^ 2)) by apply pow2_ge_0. ring. }
  rewrite M. replace (pixel_size s ^ 2 / Rabs (scaling_factor s) * e * Cmod (F i j)) with (pixel_size s ^ 2 / Rabs (scaling_factor s) * Cmod (F i j) * e) by ring.
  apply Rmult_le_compat_l; [|apply He; assumption]. rewrite <- M. apply Cmod_ge_0.
Qed.
End Mean.
(** Instance: set_dmd_grating_state(method="random"). *)
Lemma quant_grating h d amp pin pout A Pi Po kw m input F :
  let s := d_slm d in
  reads h s amp A -> reads h s pin Pi -> reads h s pout Po -> d_p d <> 0 -> 0 < dflt (k_r kw) 10 -> (forall i j, in_array d i j -> 0 <= A i j <= 1) ->
  full_input h s input F -> (0 < s_Nx s)%nat -> (0 < s_Ny s)%nat -> pixel_size s <> 0 ->
  exists g, (forall i j, in_array d i j -> 0 <= g i j < 1 /\ exists q, folded (carrier d i j - signed (d_neg d) (Po i j - Pi i j)) q /\ g i j = duty (dflt (k_r kw) 10) q (A i j)) /\
  forall K N I n_g Ig n0 I0, (0 < K)%Z ->
  (forall u, propagate_to_image h (DevDmd (fst (set_dmd_grating_state h d amp pin pout MRandom kw (quantised K u)))) m input = (N u, Ok tt) /\ field_is (f_image (N u)) (NY s m) (NX s m) (I u)) ->
  propagate_to_image h (DevDmd (with_state d (DFloat (s_Ny s) (s_Nx s) (fun i j => Fin (next_step K (g i j)))))) m input = (n_g, Ok tt) -> field_is (f_image n_g) (NY s m) (NX s m) Ig ->
  propagate_to_image h (DevDmd (with_state d (DFloat (s_Ny s) (s_Nx s) (fun i j => Fin (g i j))))) m input = (n0, Ok tt) -> field_is (f_image n0) (NY s m) (NX s m) I0 ->
  forall p q, (p < NY s m)%nat -> (q < NX s m)%nat ->
  is_mean (mirrors (s_Ny s) (s_Nx s)) (fun u => fst (I u p q)) (fun _ => fst (Ig p q)) /\
  is_mean (mirrors (s_Ny s) (s_Nx s)) (fun u => snd (I u p q)) (fun _ => snd (Ig p q)) /\
  is_mean (mirrors (s_Ny s) (s_Nx s)) (fun u => Cmod (I u p q) ^ 2)
    (fun _ => Cmod (Ig p q) ^ 2 + (pixel_size s ^ 2 / (wavelength s * focal_length s)) ^ 2 *
       rsum2 (s_Ny s) (s_Nx s) (fun i j => next_step K (g i j) * (1 - next_step K (g i j)) * Cmod (F i j) ^ 2)) /\
  Cmod (Ig p q - I0 p q)%C <= pixel_size s ^ 2 / Rabs (wavelength s * focal_length s) * / IZR K * rsum2 (s_Ny s) (s_Nx s) (fun i j => Cmod (F i j)).
Proof.
  intros s HA HPi HPo Hp Hr HA1 HF Hnx Hny Hps.
  set (th := fun i j => carrier d i j - signed (d_neg d) (Po i j - Pi i j)).
  set (g := fun i j => duty (dflt (k_r kw) 10) (acos (cos (th i j))) (A i j)). exists g.
  assert (Hg : forall i j, in_array d i j -> 0 <= g i j < 1) by (intros i j Hij; apply duty_range; [exact Hr|apply HA1; exact Hij]).
  split.
  { intros i j Hij. split; [apply Hg; exact Hij|]. exists (acos (cos (th i j))). split; [apply folded_acos|reflexivity]. }
  intros K N I n_g Ig n0 I0 HK HP Pg HIg P0 HI0 p q Hpp Hq.
  set (dg := with_state d (DFloat (s_Ny s) (s_Nx s) (fun i j => Fin (next_step K (g i j))))) in *.
  set (D := fun u => fst (set_dmd_grating_state h d amp pin pout MRandom kw (quantised K u))).
  destruct (random_mean h dg m input F (fun i j => next_step K (g i j)) (fun u => bools (d_state (D u))) D N I n_g Ig) with (p := p) (q := q) as (M1 & M2 & M3); try assumption; try reflexivity.
  - intros i j Hi Hj. apply step_range; [exact HK|]. specialize (Hg i j (conj Hi Hj)). lra.
  - intros u. unfold D. destruct (random_spec h d amp pin pout A Pi Po kw (quantised K u) HA HPi HPo Hp Hr) as (f & E & _). rewrite E. split; reflexivity.
  - intros u i j Hi Hj. unfold D. destruct (random_spec h d amp pin pout A Pi Po kw (quantised K u) HA HPi HPo Hp Hr) as (f & E & V). rewrite E. cbn [fst with_state d_state bools].
    destruct (V i j (conj Hi Hj)) as (V1 & _). destruct (V1 (HA1 i j (conj Hi Hj))) as (q' & Fq & V2 & _). rewrite V2. rewrite <- quant_lt by exact HK. unfold g.
    rewrite (folded_unique _ _ _ Fq (folded_acos _)). reflexivity.
  - split; [exact M1|]. split; [exact M2|]. split; [exact M3|].
    apply (grey_distance h d m input F g HF Hnx Hny Hps (fun i j => next_step K (g i j)) n0 n_g I0 Ig (/ IZR K) p q P0 HI0 Pg HIg); try assumption.
    intros i j _ _. destruct (step_bounds K (g i j) HK). apply Rabs_le. assert (0 < / IZR K) by (apply Rinv_0_lt_compat, IZR_lt; exact HK). lra.
Qed.
(** Instance: calculate_dmd_state(method="random"). *)
Lemma quant_hologram h d input target w F T W kw m :
  let s := d_slm d in
  full_input h s input F -> full_target h s target T -> window_reads h s w W -> d_p d <> 0 ->
  (0 < s_Ny s)%nat -> (0 < s_Nx s)%nat -> scaling_factor s <> 0 -> pixel_size s <> 0 -> 0 < dflt (k_r kw) 10 ->
  (forall i j, in_array d i j -> F i j = RtoC 0 -> windowed d T W i j = RtoC 0) ->
  (exists i j, in_array d i j /\ windowed d T W i j <> RtoC 0) ->
  exists g M, 0 < M /\
  (forall i j, in_array d i j -> 0 <= g i j < 1 /\ exists q, folded (carrier d i j - signed (d_neg d) (phase_of (windowed d T W i j) - carg (F i j))) q /\
     g i j = duty (dflt (k_r kw) 10) q (Cmod (windowed d T W i j) / Cmod (F i j) / M)) /\
  forall K N I n_g Ig n0 I0, (0 < K)%Z ->
  (forall u, propagate_to_image h (DevDmd (fst (calculate_dmd_state h d input target MRandom w kw (quantised K u)))) m input = (N u, Ok tt) /\ field_is (f_image (N u)) (NY s m) (NX s m) (I u)) ->
  propagate_to_image h (DevDmd (with_state d (DFloat (s_Ny s) (s_Nx s) (fun i j => Fin (next_step K (g i j)))))) m input = (n_g, Ok tt) -> field_is (f_image n_g) (NY s m) (NX s m) Ig ->
  propagate_to_image h (DevDmd (with_state d (DFloat (s_Ny s) (s_Nx s) (fun i j => Fin (g i j))))) m input = (n0, Ok tt) -> field_is (f_image n0) (NY s m) (NX s m) I0 ->
  forall p q, (p < NY s m)%nat -> (q < NX s m)%nat ->
  is_mean (mirrors (s_Ny s) (s_Nx s)) (fun u => fst (I u p q)) (fun _ => fst (Ig p q)) /\
  is_mean (mirrors (s_Ny s) (s_Nx s)) (fun u => snd (I u p q)) (fun _ => snd (Ig p q)) /\
  is_mean (mirrors (s_Ny s) (s_Nx s)) (fun u => Cmod (I u p q) ^ 2)
    (fun _ => Cmod (Ig p q) ^ 2 + (pixel_size s ^ 2 / (wavelength s * focal_length s)) ^ 2 *
       rsum2 (s_Ny s) (s_Nx s) (fun i j => next_step K (g i j) * (1 - next_step K (g i j)) * Cmod (F i j) ^ 2)) /\
  Cmod (Ig p q - I0 p q)%C <= pixel_size s ^ 2 / Rabs (wavelength s * focal_length s) * / IZR K * rsum2 (s_Ny s) (s_Nx s) (fun i j => Cmod (F i j)).
Proof.
  intros s HF HT HW Hp Hny Hnx Hsf Hps Hr Hd Hl.
  assert (HS := fun u => hologram_spec h d input target w F T W kw u HF HT HW Hp Hny Hnx Hsf Hd Hl). cbv zeta in HS.
  destruct (HS (fun _ _ => 0)) as (M & HM & P1 & (i1 & j1 & Q1 & R1) & _).
  set (th := fun i j => carrier d i j - signed (d_neg d) (phase_of (windowed d T W i j) - carg (F i j))).
  set (A := fun i j => Cmod (windowed d T W i j) / Cmod (F i j) / M).
  set (g := fun i j => duty (dflt (k_r kw) 10) (acos (cos (th i j))) (A i j)).
  assert (HU : forall u, exists f, calculate_dmd_state h d input target MRandom w kw u = (with_state d (DBool (s_Ny s) (s_Nx s) f), Ok (Fin (eta_scale s / M))) /\
     forall i j, in_array d i j -> (f i j = true <-> u i j < g i j)).
  { intros u. destruct (HS u) as (M' & HM' & P1' & (i1' & j1' & Q1' & R1') & _ & _ & (f & E & V)).
    assert (EM := max_unique _ _ M M' HM HM' R1 R1' (proj2 (P1 i1' j1' Q1')) (proj2 (P1' i1 j1 Q1))). subst M'.
    exists f. split; [exact E|]. intros i j Hij. destruct (V i j Hij) as (q & Fq & Vq). rewrite Vq. unfold g, A. rewrite (folded_unique _ _ _ Fq (folded_acos _)). reflexivity. }
  assert (Hg : forall i j, in_array d i j -> 0 <= g i j < 1) by (intros i j Hij; apply duty_range; [exact Hr|apply P1; exact Hij]).
  exists g, M. split; [exact HM|]. split.
  { intros i j Hij. split; [apply Hg; exact Hij|]. exists (acos (cos (th i j))). split; [apply folded_acos|reflexivity]. }
  intros K N I n_g Ig n0 I0 HK HP Pg HIg P0 HI0 p q Hpp Hq.
  set (dg := with_state d (DFloat (s_Ny s) (s_Nx s) (fun i j => Fin (next_step K (g i j))))) in *.
  set (D := fun u => fst (calculate_dmd_state h d input target MRandom w kw (quantised K u))).
  destruct (random_mean h dg m input F (fun i j => next_step K (g i j)) (fun u => bools (d_state (D u))) D N I n_g Ig) with (p := p) (q := q) as (M1 & M2 & M3); try assumption; try reflexivity.
  - intros i j Hi Hj. apply step_range; [exact HK|]. specialize (Hg i j (conj Hi Hj)). lra.
  - intros u. unfold D. destruct (HU (quantised K u)) as (f & E & _). rewrite E. split; reflexivity.
  - intros u i j Hi Hj. unfold D. destruct (HU (quantised K u)) as (f & E & V). rewrite E. cbn [fst with_state d_state bools]. rewrite <- quant_lt by exact HK. apply V. split; assumption.
  - split; [exact M1|]. split; [exact M2|]. split; [exact M3|].
    apply (grey_distance h d m input F g HF Hnx Hny Hps (fun i j => next_step K (g i j)) n0 n_g I0 Ig (/ IZR K) p q P0 HI0 Pg HIg); try assumption.
    intros i j _ _. destruct (step_bounds K (g i j) HK). apply Rabs_le. assert (0 < / IZR K) by (apply Rinv_0_lt_compat, IZR_lt; exact HK). lra.
Qed.
