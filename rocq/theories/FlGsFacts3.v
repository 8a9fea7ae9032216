(** Gerchberg-Saxton with rounding: the error of the image never rises by more than a small step per iteration (C136). *)
From Coq Require Import Reals Lra Psatz ZArith Arith List Lia FunctionalExtensionality.
From Coquelicot Require Import Complex.
From Verif Require FlLcosFacts.
From Verif Require Import Cx Sums DFT PyBase ProfileModel SlmModel LibModel SimModel HoloSpec HoloFacts FloatModel FloatSpec FloatFacts FringeSpec FlSimModel FlSimSpec NormFacts FftFacts2 FlHoloModel FlHoloSpec FlHoloFacts FlGsModel FlGsFacts FlGsFacts2.
Open Scope R_scope.

Section Run.
Context (a : fpu) (u eta : R) (B : Z) (v o : R) (q : polar) (F G : transform) (e d e' d' : R) (ny nx : nat).
Hypothesis H : arithmetic u eta B (rnd a).
Hypothesis Hu : 0 <= u <= 1 / 8.
Hypothesis He : 0 <= eta.
Hypothesis HA : FringeSpec.accurate a v.
Hypothesis Huv : u <= v.
Hypothesis Hv : v <= / 16.
Hypothesis Q : accurate_polar q v o.
Hypothesis Hy : (0 < ny)%nat.
Hypothesis Hx : (0 < nx)%nat.
Hypothesis HF : FlSimSpec.accurate a e d ny nx (F ny nx).
Hypothesis HG : accurate_forward a e' d' ny nx (G ny nx).
Hypothesis Pe : 0 <= e <= / 16.
Hypothesis Pe' : 0 <= e' <= / 16.
Let rN := sqrt (INR (ny * nx)).
Let nrm := norm ny nx.

Lemma forward_half E ph : let V := ifft2 ny nx (fun i j => E i j * cis (ph i j))%C in let V' := F ny nx (fun i j => fl_cmul a (E i j) (fl_cis a (ph i j))) in
  nrm (fun i j => V' i j - V i j)%C <= (e + 7 * v * (1 + e)) * (nrm E / rN) + (1 + e) * (5 * eta) + d.
Proof.
  intros V V'. assert (RN : 0 < rN) by (unfold rN; apply sqrt_lt_R0, lt_0_INR; nia).
  set (U := fun i j => (E i j * cis (ph i j))%C). set (U' := fun i j => fl_cmul a (E i j) (fl_cis a (ph i j))).
  assert (Z : forall i, Cmod (cis i - cis i)%C <= v). { intros i. replace (cis i - cis i)%C with (RtoC 0) by ring. rewrite Cmod_0. lra. }
  assert (D1 : nrm (fun i j => U' i j - U i j)%C <= 7 * v * nrm E + rN * (5 * eta)).
  { apply norm_prop; [lra|lra|]. intros i j _ _. exact (modulation_near a u eta B v H Hu He HA Huv Hv (E i j) (ph i j) (cis (ph i j)) (Z _)). }
  assert (D2 := HF U' (fun i j _ _ => modulation_rep a u eta B H _ _)). fold V' in D2. fold nrm in D2.
  assert (NU : nrm U = nrm E) by (unfold nrm, norm; f_equal; apply rsum2_ext; intros i j _ _; unfold U; rewrite Cmod_mult, Cmod_cis, Rmult_1_r; reflexivity).
  assert (NI : forall f, nrm (ifft2 ny nx f) = nrm f / rN). { intros f. assert (W := ifft2_norm' ny nx f Hy Hx). fold nrm rN in W. rewrite <- W. field. lra. }
  assert (D3 : nrm (fun i j => ifft2 ny nx U' i j - V i j)%C = nrm (fun i j => U' i j - U i j)%C / rN).
  { rewrite <- NI. apply norm_ext. intros i j _ _. rewrite ifft2_minus. reflexivity. }
  assert (D4 := norm_diff ny nx V' (ifft2 ny nx U') V). fold nrm in D4. rewrite D3 in D4.
  assert (D5 : nrm (ifft2 ny nx U') <= nrm E / rN + nrm (fun i j => U' i j - U i j)%C / rN).
  { rewrite <- NU, <- !NI. rewrite Rplus_comm. apply norm_two. intros i j _ _. replace (ifft2 ny nx U' i j) with (ifft2 ny nx (fun i j => U' i j - U i j)%C i j + ifft2 ny nx U i j)%C by (rewrite ifft2_minus; ring). apply Cmod_triangle. }
  assert (D6 : nrm (fun i j => U' i j - U i j)%C / rN <= 7 * v * (nrm E / rN) + 5 * eta).
  { apply Rmult_le_reg_r with rN; [exact RN|]. replace (nrm (fun i j => U' i j - U i j)%C / rN * rN) with (nrm (fun i j => U' i j - U i j)%C) by (field; lra). eapply Rle_trans; [exact D1|]. right. field. lra. }
  set (x := nrm (fun i j => V' i j - V i j)%C) in *. set (w := nrm (fun i j => U' i j - U i j)%C / rN) in *. set (n := nrm E / rN) in *. set (t := nrm (ifft2 ny nx U')) in *. set (k := norm ny nx (fun i j => V' i j - ifft2 ny nx U' i j)%C) in *.
  change (x <= k + w) in D4. change (k <= e * t + d) in D2. clearbody x w n t k. clear - D2 D4 D5 D6 Pe.
  assert (e * t <= e * (n + (7 * v * n + 5 * eta))) by (apply Rmult_le_compat_l; lra).
  replace ((e + 7 * v * (1 + e)) * n + (1 + e) * (5 * eta) + d) with (e * (n + (7 * v * n + 5 * eta)) + d + (7 * v * n + 5 * eta)) by ring. lra.
Qed.
(** The error of the image as a norm. *)
Definition err (E : nat -> nat -> C) (Tc ph : nat -> nat -> R) : R := nrm (fun i j => RtoC (Cmod (ifft2 ny nx (fun i j => E i j * cis (ph i j))%C i j) - Tc i j)).
Definition step_loss (E : nat -> nat -> C) (T : nat -> nat -> R) : R :=
  (2 * e + 16 * v) * (nrm E / rN) + (2 * e' + 15 * v) * nrm (fun i j => RtoC (T i j)) + 11 * eta * (1 + rN) + 2 * d + 2 * (d' / rN).
Lemma gs_step_rounded E A c Tc ph : (forall i j, (i < ny)%nat -> (j < nx)%nat -> E i j = (RtoC (A i j) * cis c)%C /\ 0 <= A i j) -> (forall i j, (i < ny)%nat -> (j < nx)%nat -> 0 <= Tc i j) ->
  err E Tc (fl_gs_step a q F G ny nx E Tc ph) <= err E Tc ph + step_loss E Tc.
Proof.
  intros HE HT. assert (RN : 0 < rN) by (unfold rN; apply sqrt_lt_R0, lt_0_INR; nia). assert (V0 : 0 <= v) by lra.
  assert (FH := forward_half E ph). cbv zeta in FH. set (U := fun i j => (E i j * cis (ph i j))%C) in *. set (V := ifft2 ny nx U) in *. set (V' := F ny nx (fun i j => fl_cmul a (E i j) (fl_cis a (ph i j)))) in *.
  set (C0 := fun i j => (RtoC (Tc i j) * unit_of q (V' i j))%C). set (C' := fun i j => fl_cmul a (RtoC (Tc i j)) (fl_cis a (f_angle q (V' i j)))).
  set (ph' := fl_gs_step a q F G ny nx E Tc ph).
  assert (UA : forall i j, (i < ny)%nat -> (j < nx)%nat -> 0 <= A i j /\ Cmod (U i j) = A i j).
  { intros i j Hi Hj. destruct (HE i j Hi Hj) as (E1 & A0). split; [exact A0|]. unfold U. rewrite E1, !Cmod_mult, !Cmod_cis, Cmod_R, Rabs_pos_eq by exact A0. ring. }
  assert (BS := back_step a q v o G e' d' ny nx Hy Hx Q V0 HG A U C0 C' 1 ltac:(lra) (proj1 Pe') UA (fun i j _ _ => modulation_rep a u eta B H _ _)). cbv zeta in BS. fold rN in BS.
  change (fun i j => (RtoC (A i j) * cis (f_angle q (G ny nx C' i j)))%C) with (fun i j => (RtoC (A i j) * cis (ph' i j))%C) in BS. set (U2 := fun i j => (RtoC (A i j) * cis (ph' i j))%C) in *.
  fold nrm in BS. fold V in BS.
  assert (C0m : forall i j, (i < ny)%nat -> (j < nx)%nat -> Cmod (C0 i j) = Tc i j) by (intros i j Hi Hj; unfold C0; rewrite Cmod_mult, unit_Cmod, Cmod_R, Rabs_pos_eq by (apply HT; assumption); ring).
  assert (NC : nrm C0 = nrm (fun i j => RtoC (Tc i j))) by (unfold nrm, norm; f_equal; apply rsum2_ext; intros i j Hi Hj; rewrite C0m, Cmod_R, Rabs_pos_eq by (try apply HT; assumption); reflexivity).
  assert (NU : nrm U = nrm E) by (unfold nrm, norm; f_equal; apply rsum2_ext; intros i j _ _; unfold U; rewrite Cmod_mult, Cmod_cis, Rmult_1_r; reflexivity).
  (* the new error *)
  assert (S1 : err E Tc ph' <= nrm (fun i j => ifft2 ny nx U2 i j - C0 i j)%C).
  { unfold err, nrm. apply norm_le_pt. intros i j Hi Hj. rewrite Cmod_R, <- (C0m i j Hi Hj).
    replace (Cmod (ifft2 ny nx (fun i j => E i j * cis (ph' i j))%C i j)) with (Cmod (ifft2 ny nx U2 i j)); [apply Cmod_diff|].
    replace (ifft2 ny nx (fun i j => E i j * cis (ph' i j))%C i j) with (cis c * ifft2 ny nx U2 i j)%C; [rewrite Cmod_mult, Cmod_cis; ring|].
    rewrite <- ifft2_scal. apply ifft2_ext. intros k l Hk Hl. unfold U2. destruct (HE k l Hk Hl) as (-> & _). ring. }
  (* the computed image against the wanted one *)
  assert (S2 : nrm (fun i j => V i j - C0 i j)%C <= 2 * nrm (fun i j => V' i j - V i j)%C + err E Tc ph).
  { assert (T1 := norm_diff ny nx V V' C0). fold nrm in T1. unfold nrm in T1 at 2. rewrite (norm_sym ny nx V V') in T1. fold nrm in T1.
    assert (T2 : nrm (fun i j => V' i j - C0 i j)%C <= nrm (fun i j => V' i j - V i j)%C + err E Tc ph).
    { unfold nrm, err. apply norm_two. intros i j Hi Hj. unfold C0. rewrite unit_dist by (apply HT; assumption). fold U. fold V. rewrite Cmod_R. assert (D := Cmod_diff (V' i j) (V i j)). replace (Cmod (V' i j) - Tc i j) with ((Cmod (V' i j) - Cmod (V i j)) + (Cmod (V i j) - Tc i j)) by ring. eapply Rle_trans; [apply Rabs_triang|]. lra. }
    set (m := norm ny nx (fun i j => V' i j - V i j)%C) in *. change (nrm (fun i j => V' i j - V i j)%C) with m in *. lra. }
  assert (S3 : nrm (fun i j => C' i j - C0 i j * RtoC 1)%C <= 7 * v * nrm (fun i j => RtoC (Tc i j)) + rN * (5 * eta)).
  { apply norm_prop; [lra|lra|]. intros i j _ _. rewrite Cmult_1_r. exact (modulation_near a u eta B v H Hu He HA Huv Hv (RtoC (Tc i j)) (f_angle q (V' i j)) (unit_of q (V' i j)) (unit_near q v o _ Q V0)). }
  rewrite NC, NU in BS. set (nT := nrm (fun i j => RtoC (Tc i j))) in *. set (nE := nrm E / rN) in *.
  assert (NT0 : 0 <= nT) by apply norm_ge_0. assert (NE0 : 0 <= nE) by (apply Rmult_le_pos; [apply norm_ge_0|left; apply Rinv_0_lt_compat, RN]).
  unfold step_loss. fold nE nT. set (dr := d' / rN) in *. set (x := nrm (fun i j => ifft2 ny nx U2 i j - C0 i j)%C) in *. set (y := nrm (fun i j => V i j - C0 i j)%C) in *. set (r := nrm (fun i j => C' i j - C0 i j * RtoC 1)%C) in *. set (f := nrm (fun i j => V' i j - V i j)%C) in *. set (e1 := err E Tc ph) in *. set (e2 := err E Tc ph') in *.
  clearbody x y r f e1 e2 nT nE dr. clear - S1 BS S2 S3 FH Pe Pe' V0 Hv NT0 NE0 RN He.
  assert (R1 : (1 + e') * r <= (1 + e') * (7 * v * nT + rN * (5 * eta))) by (apply Rmult_le_compat_l; lra).
  assert (P1 : 0 <= v * nE) by (apply Rmult_le_pos; lra). assert (P2 : 0 <= v * nT) by (apply Rmult_le_pos; lra). assert (P3 : 0 <= rN * eta) by (apply Rmult_le_pos; lra).
  assert (Q1 : e * (v * nE) <= / 16 * (v * nE)) by (apply Rmult_le_compat_r; lra). assert (Q2 : e' * (v * nT) <= / 16 * (v * nT)) by (apply Rmult_le_compat_r; lra). assert (Q3 : e' * (rN * eta) <= / 16 * (rN * eta)) by (apply Rmult_le_compat_r; lra). assert (Q4 : e * eta <= / 16 * eta) by (apply Rmult_le_compat_r; lra).
  replace ((e + 7 * v * (1 + e)) * nE + (1 + e) * (5 * eta) + d) with (e * nE + 7 * (v * nE) + 7 * (e * (v * nE)) + 5 * eta + 5 * (e * eta) + d) in FH by ring.
  replace ((1 + e') * (7 * v * nT + rN * (5 * eta))) with (7 * (v * nT) + 7 * (e' * (v * nT)) + 5 * (rN * eta) + 5 * (e' * (rN * eta))) in R1 by ring.
  replace (2 / 1) with 2 in BS by lra. replace (e' * (1 * nT)) with (e' * nT) in BS by ring.
  replace ((2 * e + 16 * v) * nE + (2 * e' + 15 * v) * nT + 11 * eta * (1 + rN) + 2 * d + 2 * dr) with (2 * (e * nE) + 16 * (v * nE) + 2 * (e' * nT) + 15 * (v * nT) + 11 * eta + 11 * (rN * eta) + 2 * d + 2 * dr) by ring.
  set (t1 := e * nE) in *. set (t2 := e' * nT) in *. set (t3 := (1 + e') * r) in *. clearbody t1 t2 t3. lra.
Qed.
End Run.
