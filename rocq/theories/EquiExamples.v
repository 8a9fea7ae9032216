(** A concrete case for C100. *)
From Coq Require Import Reals Lra ZArith Arith List Bool Lia.
From Coquelicot Require Import Complex.
From Verif Require Import Cx Sums DFT PyBase ProfileModel SlmModel LibModel DmdModel SimModel SimSpec SimExamples DmdSpec DmdFacts2 DmdExamples HoloSpec HoloFacts2 HoloThms HoloExamples EquiSpec EquiFacts.
Open Scope R_scope.

(** Uniform beam, a spot on the axis, moved one pixel to the right. *)
Definition centre3 : parg := AConstR (T2 1 3 (spot 0 1)).
Definition right3 : parg := AConstR (T2 1 3 (moved_array slm3 1 0 (spot 0 1))).
Definition start3 (i j : nat) : R := - (INR j / 3 - 1 / 2).
Lemma wave_centre i j : wave 1 3 i j 0 1 = RtoC 1.
Proof.
  unfold wave, centred. change (Z.of_nat 0 - Z.of_nat (1 / 2))%Z with 0%Z. change (Z.of_nat 1 - Z.of_nat (3 / 2))%Z with 0%Z. rewrite !Z.mul_0_r.
  replace (2 * PI * (0 / INR 1 + 0 / INR 3)) with 0 by (unfold Rdiv; ring). apply cis_0.
Qed.
Lemma shift_case : full_input ex_heap slm3 flat3 (fun _ _ => RtoC 1) /\ real_target ex_heap slm3 centre3 (spot 0 1) /\ real_target ex_heap slm3 right3 (moved_array slm3 1 0 (spot 0 1)) /\
  (forall i j, in_slm slm3 i j -> cis (2 * PI * start3 i j) = cis (0 + 2 * PI * 0 - tilt slm3 1 0 i j)) /\
  (forall k p, (0 <= k < 1)%Z -> stores slm3 (calculate_hologram ex_heap (lcos_new slm3) flat3 centre3 MGs (gs_kwargs k) (fun _ _ => 0)) p -> no_zeros slm3 (fun _ _ => RtoC 1) (spot 0 1) (gs_field (spot 0 1)) p) /\
  moved_array slm3 1 0 (spot 0 1) 0%nat 2%nat = 1 /\ moved_array slm3 1 0 (spot 0 1) 0%nat 1%nat = 0.
Proof.
  split; [reflexivity|]. split; [reflexivity|]. split; [reflexivity|]. split; [|split; [|split; reflexivity]].
  - intros i j H. f_equal. unfold start3, tilt, slm3. cbn [s_Nx s_Ny INR]. field.
  - intros k p Hk [_ Hp]. assert (k = 0%Z) by lia. subst k.
    assert (Q := gs_stores ex_heap (lcos_new slm3) flat3 centre3 (fun _ _ => RtoC 1) (spot 0 1) eq_refl eq_refl (gs_kwargs 0) (fun _ _ => 0)). destruct Q as [_ Q].
    change (l_slm (lcos_new slm3)) with slm3 in Q. rewrite Hp in Q.
    assert (P0 : forall i j, p i j = 0) by (injection Q as ->; intros i j; cbn; ring). clear Q Hp.
    assert (E1 : image_of (s_Ny slm3) (s_Nx slm3) (modulated (fun _ _ => RtoC 1) p) 0 1 = RtoC 1).
    { unfold image_of, slm3. cbn [s_Ny s_Nx]. unfold csum2. cbn [csum]. rewrite !wave_centre. unfold modulated. rewrite !P0, !cis_0.
      change (INR (1 * 3)) with (2 + 1). apply injective_projections; cbn; field. }
    unfold no_zeros. cbv zeta. split.
    + intros u v Huv HT. destruct (in3 u v Huv) as [-> [-> | [-> | ->]]]; try (exfalso; apply HT; reflexivity). rewrite E1. intros A. injection A. lra.
    + intros i j Hij _. set (I := image_of _ _ _) in *. unfold spectrum_of, csum2. cbn [s_Ny s_Nx slm3 csum]. unfold gs_field. rewrite E1, wave_centre.
      change (spot 0 1 0 0) with 0. change (spot 0 1 0 1) with 1. change (spot 0 1 0 2) with 0. unfold unit_of at 2. 
      replace (carg (RtoC 1)) with 0 by (symmetry; apply carg_pos_real; lra). rewrite cis_0. intros A. apply (f_equal fst) in A. cbn in A. lra.
Qed.
