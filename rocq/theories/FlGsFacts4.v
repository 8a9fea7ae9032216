(** MRAF with rounding (C136). *)
From Coq Require Import Reals Lra Psatz ZArith Arith List Lia FunctionalExtensionality.
From Coquelicot Require Import Complex.
From Verif Require FlLcosFacts.
From Verif Require Import Cx Sums DFT PyBase ProfileModel SlmModel LibModel SimModel HoloSpec HoloFacts FloatModel FloatSpec FloatFacts FringeSpec FlSimModel FlSimSpec NormFacts FftModel FftFacts2 FlHoloModel FlHoloSpec FlHoloFacts FlGsModel FlGsFacts FlGsFacts2 FlGsFacts3.
Open Scope R_scope.

Section Run.
Context (a : fpu) (u eta : R) (B : Z) (v o : R) (q : polar) (F G : transform) (e d e' d' : R) (ny nx : nat).
Hypothesis H : arithmetic u eta B (rnd a).
Hypothesis HB : (1 <= B)%Z.
Hypothesis Hu : 0 <= u <= 1 / 8.
Hypothesis He : 0 <= eta.
Hypothesis HA : FringeSpec.accurate a v.
Hypothesis Huv : u <= v.
Hypothesis Hv : v <= / 16.
Hypothesis Q : accurate_polar q v o.
Hypothesis Hy : (0 < ny)%nat.
Hypothesis Hx : (0 < nx)%nat.
Hypothesis HF : FlSimSpec.accurate a e d ny nx (F ny nx).
Hypothesis HG : accurate_forward a e' d' ny nx (G ny nx).
Hypothesis Pe : 0 <= e <= / 16.
Hypothesis Pe' : 0 <= e' <= / 16.
Let rN := sqrt (INR (ny * nx)).
Let nrm := norm ny nx.

Lemma rnd0 : rnd a 0 = 0.
Proof. assert (E := ar_exact _ _ _ _ H 0 0 ltac:(lia) ltac:(lia)). replace (IZR 0 / 2 ^ 0) with 0 in E by (cbn [pow]; field). exact E. Qed.
Lemma rnd1 : rnd a 1 = 1.
Proof. assert (E := ar_exact _ _ _ _ H 1 0 ltac:(lia) ltac:(lia)). replace (IZR 1 / 2 ^ 0) with 1 in E by (cbn [pow]; field). exact E. Qed.
Lemma cmul_one z : representable (rnd a) z -> fl_cmul a z (RtoC 1) = z.
Proof.
  intros [R1 R2]. destruct z as [x y]. cbn [fst snd] in *. unfold fl_cmul, RtoC. cbn [fst snd]. rewrite !Rmult_1_r, !Rmult_0_r, rnd0, R1, R2, Rminus_0_r, Rplus_0_l, R1, R2. reflexivity.
Qed.
Lemma cmul_zero z : fl_cmul a z (RtoC 0) = RtoC 0.
Proof. unfold fl_cmul, RtoC. cbn [fst snd]. rewrite !Rmult_0_r, rnd0, Rminus_0_r, Rplus_0_r, rnd0. reflexivity. Qed.
Lemma cadd_zero z : representable (rnd a) z -> fl_cadd a z (RtoC 0) = z /\ fl_cadd a (RtoC 0) z = z.
Proof. intros [R1 R2]. destruct z as [x y]. cbn [fst snd] in *. unfold fl_cadd, RtoC. cbn [fst snd]. rewrite !Rplus_0_r, !Rplus_0_l, R1, R2. split; reflexivity. Qed.
Lemma cadd_rep z w : representable (rnd a) (fl_cadd a z w).
Proof. split; cbn [fst snd fl_cadd]; apply (ar_stable _ _ _ _ H). Qed.
(** One pixel of the wanted image, inside and outside the window. *)
Lemma mraf_pixel m1 m2 t z (w : bool) : 0 < m2 -> 0 <= m1 * t ->
  let W := if w then RtoC 1 else RtoC 0 in
  let C0 := if w then (RtoC (m1 / m2 * t) * unit_of q z)%C else z in
  Cmod (fl_cadd a (fl_cmul a (fl_cmul a (fl_cmul a (RtoC m1) (RtoC t)) (fl_cis a (f_angle q z))) W) (fl_cmul a (fl_cmul a (RtoC m2) z) (fl_cadd a (RtoC 1) (- W)%C)) - C0 * RtoC m2)%C
  <= 9 * v * m2 * Cmod C0 + 7 * eta.
Proof.
  intros Hm Ht W C0. assert (V0 : 0 <= v) by lra. destruct w; cbv zeta in W, C0.
  - assert (E1 : fl_cadd a (RtoC 1) (- W)%C = RtoC 0). { unfold W, fl_cadd, RtoC, Copp. cbn [fst snd]. rewrite Ropp_0, Rplus_0_r, Rplus_opp_r, rnd0. reflexivity. }
    rewrite E1, cmul_zero. assert (R1 := modulation_rep a u eta B H (fl_cmul a (RtoC m1) (RtoC t)) (fl_cis a (f_angle q z))). unfold W. rewrite (cmul_one _ R1). rewrite (proj1 (cadd_zero _ R1)).
    assert (E2 : fl_cmul a (RtoC m1) (RtoC t) = RtoC (rnd a (m1 * t))). { unfold fl_cmul, RtoC. cbn [fst snd]. rewrite !Rmult_0_r, !Rmult_0_l, rnd0, Rplus_0_r, rnd0, Rminus_0_r, (ar_stable _ _ _ _ H). reflexivity. }
    rewrite E2. assert (M := modulation_near a u eta B v H Hu He HA Huv Hv (RtoC (rnd a (m1 * t))) (f_angle q z) (unit_of q z) (unit_near q v o z Q V0)).
    assert (ER := ar_error _ _ _ _ H (m1 * t)). rewrite Cmod_R in M.
    assert (C0E : (C0 * RtoC m2)%C = (RtoC (m1 * t) * unit_of q z)%C). { unfold C0. replace (m1 * t) with (m1 / m2 * t * m2) by (field; lra). rewrite (RtoC_mult (m1 / m2 * t) m2). ring. }
    assert (C0M : m2 * Cmod C0 = m1 * t). { rewrite <- (Rabs_pos_eq m2) by lra. rewrite <- Cmod_R, Rmult_comm, <- Cmod_mult, C0E, Cmod_mult, unit_Cmod, Cmod_R, Rabs_pos_eq by exact Ht. ring. }
    rewrite C0E. replace (9 * v * m2 * Cmod C0) with (9 * v * (m2 * Cmod C0)) by ring. rewrite C0M.
    replace (fl_cmul a (RtoC (rnd a (m1 * t))) (fl_cis a (f_angle q z)) - RtoC (m1 * t) * unit_of q z)%C with ((fl_cmul a (RtoC (rnd a (m1 * t))) (fl_cis a (f_angle q z)) - RtoC (rnd a (m1 * t)) * unit_of q z) + RtoC (rnd a (m1 * t) - m1 * t) * unit_of q z)%C by (rewrite RtoC_minus; ring).
    eapply Rle_trans; [apply Cmod_triangle|]. rewrite Cmod_mult, unit_Cmod, Rmult_1_r, Cmod_R. rewrite (Rabs_pos_eq (m1 * t)) in ER by exact Ht.
    assert (K : Rabs (rnd a (m1 * t)) <= m1 * t + (u * (m1 * t) + eta)). { replace (rnd a (m1 * t)) with ((rnd a (m1 * t) - m1 * t) + m1 * t) by ring. eapply Rle_trans; [apply Rabs_triang|]. rewrite (Rabs_pos_eq (m1 * t)) by exact Ht. lra. }
    eapply Rle_trans; [apply Rplus_le_compat; [exact M|exact ER]|]. set (x := m1 * t) in *. set (y := Rabs (rnd a x)) in *. clearbody x y. clear - K V0 Hv Huv Ht He Hu.
    assert (u * x <= v * x) by (apply Rmult_le_compat_r; lra). assert (v * y <= v * (x + (v * x + eta))) by (apply Rmult_le_compat_l; lra). assert (0 <= v * x) by (apply Rmult_le_pos; lra).
    assert (v * (v * x) <= / 16 * (v * x)) by (apply Rmult_le_compat_r; lra). assert (v * eta <= / 16 * eta) by (apply Rmult_le_compat_r; lra). lra.
  - assert (E1 : fl_cadd a (RtoC 1) (- W)%C = RtoC 1). { unfold W, fl_cadd, RtoC, Copp. cbn [fst snd]. rewrite Ropp_0, !Rplus_0_r, rnd0, rnd1. reflexivity. }
    rewrite E1. unfold W. rewrite cmul_zero. assert (R1 := modulation_rep a u eta B H (RtoC m2) z). rewrite (cmul_one _ R1), (proj2 (cadd_zero _ R1)). unfold C0.
    assert (M := FlLcosFacts.cmul_near a u eta B H Hu He (RtoC m2) z). rewrite Cmod_R, Rabs_pos_eq in M by lra. rewrite (Cmult_comm z). eapply Rle_trans; [exact M|].
    assert (Z := Cmod_ge_0 z). assert (MZ : 0 <= m2 * Cmod z) by (apply Rmult_le_pos; lra). assert (u * (m2 * Cmod z) <= v * (m2 * Cmod z)) by (apply Rmult_le_compat_r; lra).
    assert (0 <= v * (m2 * Cmod z)) by (apply Rmult_le_pos; lra). replace (9 * v * m2 * Cmod z) with (9 * (v * (m2 * Cmod z))) by ring. lra.
Qed.
(** The error inside the window. *)
Definition werr (E : nat -> nat -> C) (w : nat -> nat -> bool) (Tc ph : nat -> nat -> R) : R :=
  nrm (fun i j => if w i j then RtoC (Cmod (ifft2 ny nx (fun i j => E i j * cis (ph i j))%C i j) - Tc i j) else RtoC 0).
Definition mraf_loss (k : R) (E : nat -> nat -> C) (T : nat -> nat -> R) : R :=
  (2 * e + 4 * e' + 47 * v) * (nrm E / rN) + (2 * e' + 20 * v) * nrm (fun i j => RtoC (T i j)) + 21 * eta + 4 * d + (15 * eta * rN + 2 * (d' / rN)) / k.
Lemma mraf_step_rounded E A c Tc W (w : nat -> nat -> bool) m ph : (forall i j, (i < ny)%nat -> (j < nx)%nat -> E i j = (RtoC (A i j) * cis c)%C /\ 0 <= A i j) -> (forall i j, (i < ny)%nat -> (j < nx)%nat -> 0 <= Tc i j) ->
  (forall i j, (i < ny)%nat -> (j < nx)%nat -> W i j = if w i j then RtoC 1 else RtoC 0) -> 0 <= d ->
  let m1 := fst (fl_mix a m) in let m2 := snd (fl_mix a m) in 0 <= m1 -> 0 < m2 -> let T' := fun i j => m1 / m2 * Tc i j in
  werr E w T' (fl_mraf_step a q F G ny nx E Tc W m ph) <= werr E w T' ph + mraf_loss m2 E T'.
Proof.
  intros HE HT HW Hd m1 m2 Hm1 Hm2 T'. assert (RN : 0 < rN) by (unfold rN; apply sqrt_lt_R0, lt_0_INR; nia). assert (V0 : 0 <= v) by lra. assert (IK : 0 < / m2) by (apply Rinv_0_lt_compat, Hm2).
  assert (FH := forward_half a u eta B v F e d ny nx H Hu He HA Huv Hv Hy Hx HF Pe E ph). cbv zeta in FH. fold rN nrm in FH.
  set (U := fun i j => (E i j * cis (ph i j))%C) in *. set (V := ifft2 ny nx U) in *. set (V' := F ny nx (fun i j => fl_cmul a (E i j) (fl_cis a (ph i j)))) in *.
  set (C0 := fun i j => if w i j then (RtoC (T' i j) * unit_of q (V' i j))%C else V' i j).
  set (C' := fun i j => fl_cadd a (fl_cmul a (fl_cmul a (fl_cmul a (RtoC m1) (RtoC (Tc i j))) (fl_cis a (f_angle q (V' i j)))) (W i j)) (fl_cmul a (fl_cmul a (RtoC m2) (V' i j)) (fl_cadd a (RtoC 1) (- W i j)%C))).
  set (ph' := fl_mraf_step a q F G ny nx E Tc W m ph).
  assert (UA : forall i j, (i < ny)%nat -> (j < nx)%nat -> 0 <= A i j /\ Cmod (U i j) = A i j).
  { intros i j Hi Hj. destruct (HE i j Hi Hj) as (E1 & A0). split; [exact A0|]. unfold U. rewrite E1, !Cmod_mult, !Cmod_cis, Cmod_R, Rabs_pos_eq by exact A0. ring. }
  assert (BS := back_step a q v o G e' d' ny nx Hy Hx Q V0 HG A U C0 C' m2 Hm2 (proj1 Pe') UA (fun i j _ _ => cadd_rep _ _)). cbv zeta in BS. fold rN in BS.
  change (fun i j => (RtoC (A i j) * cis (f_angle q (G ny nx C' i j)))%C) with (fun i j => (RtoC (A i j) * cis (ph' i j))%C) in BS. set (U2 := fun i j => (RtoC (A i j) * cis (ph' i j))%C) in *.
  fold nrm in BS. fold V in BS.
  assert (HT' : forall i j, (i < ny)%nat -> (j < nx)%nat -> 0 <= T' i j). { intros i j Hi Hj. unfold T'. apply Rmult_le_pos; [apply Rmult_le_pos; lra|apply HT; assumption]. }
  assert (NU : nrm U = nrm E) by (unfold nrm, norm; f_equal; apply rsum2_ext; intros i j _ _; unfold U; rewrite Cmod_mult, Cmod_cis, Rmult_1_r; reflexivity).
  assert (NI : forall f, nrm (ifft2 ny nx f) = nrm f / rN). { intros f. assert (W0 := ifft2_norm' ny nx f Hy Hx). fold nrm rN in W0. rewrite <- W0. field. lra. }
  assert (NV : nrm V = nrm E / rN) by (unfold V; rewrite NI, NU; reflexivity).
  assert (S1 : werr E w T' ph' <= nrm (fun i j => ifft2 ny nx U2 i j - C0 i j)%C).
  { unfold werr, nrm. apply norm_le_pt. intros i j Hi Hj. unfold C0. destruct (w i j); [|rewrite Cmod_0; apply Cmod_ge_0]. rewrite Cmod_R.
    replace (Cmod (ifft2 ny nx (fun i j => E i j * cis (ph' i j))%C i j)) with (Cmod (ifft2 ny nx U2 i j)).
    - assert (D := Cmod_diff (ifft2 ny nx U2 i j) (RtoC (T' i j) * unit_of q (V' i j))%C). rewrite (Cmod_mult (RtoC (T' i j))), unit_Cmod, Cmod_R, (Rabs_pos_eq (T' i j)), Rmult_1_r in D by (apply HT'; assumption). exact D.
    - replace (ifft2 ny nx (fun i j => E i j * cis (ph' i j))%C i j) with (cis c * ifft2 ny nx U2 i j)%C; [rewrite Cmod_mult, Cmod_cis; ring|].
      rewrite <- ifft2_scal. apply ifft2_ext. intros k l Hk Hl. unfold U2. destruct (HE k l Hk Hl) as (-> & _). ring. }
  assert (S2 : nrm (fun i j => V i j - C0 i j)%C <= 2 * nrm (fun i j => V' i j - V i j)%C + werr E w T' ph).
  { assert (T1 := norm_diff ny nx V V' C0). fold nrm in T1. unfold nrm in T1 at 2. rewrite (norm_sym ny nx V V') in T1. fold nrm in T1.
    assert (T2 : nrm (fun i j => V' i j - C0 i j)%C <= nrm (fun i j => V' i j - V i j)%C + werr E w T' ph).
    { unfold nrm, werr. apply norm_two. intros i j Hi Hj. unfold C0. destruct (w i j).
      - rewrite unit_dist by (apply HT'; assumption). fold U. fold V. rewrite Cmod_R. assert (D := Cmod_diff (V' i j) (V i j)). replace (Cmod (V' i j) - T' i j) with ((Cmod (V' i j) - Cmod (V i j)) + (Cmod (V i j) - T' i j)) by ring. eapply Rle_trans; [apply Rabs_triang|]. lra.
      - replace (V' i j - V' i j)%C with (RtoC 0) by ring. rewrite Cmod_0, Rplus_0_r. apply Cmod_ge_0. }
    set (k := norm ny nx (fun i j => V' i j - V i j)%C) in *. change (nrm (fun i j => V' i j - V i j)%C) with k in *. lra. }
  assert (S3 : nrm (fun i j => C' i j - C0 i j * RtoC m2)%C <= 9 * v * m2 * nrm C0 + rN * (7 * eta)).
  { apply norm_prop; [apply Rmult_le_pos; lra|lra|]. intros i j Hi Hj. assert (P := mraf_pixel m1 m2 (Tc i j) (V' i j) (w i j) Hm2 ltac:(apply Rmult_le_pos; [exact Hm1|apply HT; assumption])). cbv zeta in P. rewrite <- (HW i j Hi Hj) in P. exact P. }
  assert (S4 : nrm C0 <= nrm (fun i j => RtoC (T' i j)) + (nrm (fun i j => V' i j - V i j)%C + nrm V)).
  { assert (X : nrm V' <= nrm (fun i j => V' i j - V i j)%C + nrm V). { apply norm_two. intros i j _ _. replace (V' i j) with ((V' i j - V i j) + V i j)%C at 1 by ring. apply Cmod_triangle. }
    eapply Rle_trans; [|apply Rplus_le_compat_l, X]. apply norm_two. intros i j _ _. unfold C0. assert (Y := Cmod_ge_0 (RtoC (T' i j))). assert (Y' := Cmod_ge_0 (V' i j)). destruct (w i j); [rewrite Cmod_mult, unit_Cmod; lra|lra]. }
  rewrite NV in S4. rewrite NU in BS. unfold mraf_loss. set (nT := nrm (fun i j => RtoC (T' i j))) in *. set (nE := nrm E / rN) in *.
  assert (NT0 : 0 <= nT) by apply norm_ge_0. assert (NE0 : 0 <= nE) by (apply Rmult_le_pos; [apply norm_ge_0|left; apply Rinv_0_lt_compat, RN]). assert (NC0 : 0 <= nrm C0) by apply norm_ge_0.
  set (dr := d' / rN) in *. set (x := nrm (fun i j => ifft2 ny nx U2 i j - C0 i j)%C) in *. set (y := nrm (fun i j => V i j - C0 i j)%C) in *. set (r := nrm (fun i j => C' i j - C0 i j * RtoC m2)%C) in *. set (f := nrm (fun i j => V' i j - V i j)%C) in *. set (e1 := werr E w T' ph) in *. set (e2 := werr E w T' ph') in *. set (nC := nrm C0) in *.
  clearbody x y r f e1 e2 nT nE dr nC m2. clear - S1 BS S2 S3 S4 FH Pe Pe' V0 Hv NT0 NE0 NC0 RN He Hm2 IK Hd.
  assert (R1 : 2 / m2 * ((1 + e') * r + e' * (m2 * nC) + dr) <= 2 / m2 * ((1 + e') * (9 * v * m2 * nC + rN * (7 * eta)) + e' * (m2 * nC) + dr)).
  { apply Rmult_le_compat_l; [unfold Rdiv; lra|]. assert ((1 + e') * r <= (1 + e') * (9 * v * m2 * nC + rN * (7 * eta))) by (apply Rmult_le_compat_l; lra). lra. }
  replace (2 / m2 * ((1 + e') * (9 * v * m2 * nC + rN * (7 * eta)) + e' * (m2 * nC) + dr)) with ((18 * (1 + e') * v + 2 * e') * nC + (14 * (1 + e') * (rN * eta) + 2 * dr) / m2) in R1 by (field; lra).
  assert (P3 : 0 <= rN * eta) by (apply Rmult_le_pos; lra).
  assert (R2 : (14 * (1 + e') * (rN * eta) + 2 * dr) / m2 <= (15 * eta * rN + 2 * dr) / m2). { apply Rmult_le_compat_r; [lra|]. assert (e' * (rN * eta) <= / 16 * (rN * eta)) by (apply Rmult_le_compat_r; lra). lra. }
  assert (F1 : f <= (e + 7.5 * v) * nE + 6 * eta + d).
  { assert (0 <= v * nE) by (apply Rmult_le_pos; lra). assert (e * (v * nE) <= / 16 * (v * nE)) by (apply Rmult_le_compat_r; lra). assert (e * eta <= / 16 * eta) by (apply Rmult_le_compat_r; lra).
    replace ((e + 7 * v * (1 + e)) * nE + (1 + e) * (5 * eta) + d) with (e * nE + 7 * (v * nE) + 7 * (e * (v * nE)) + 5 * eta + 5 * (e * eta) + d) in FH by ring. replace ((e + 7.5 * v) * nE) with (e * nE + 7.5 * (v * nE)) by ring. lra. }
  assert (K1 : 0 <= 18 * (1 + e') * v + 2 * e' <= 20 * v + 2 * e'). { assert (0 <= e' * v) by (apply Rmult_le_pos; lra). assert (e' * v <= / 16 * v) by (apply Rmult_le_compat_r; lra). replace (18 * (1 + e') * v) with (18 * v + 18 * (e' * v)) by ring. lra. }
  assert (C1 : (18 * (1 + e') * v + 2 * e') * nC <= (20 * v + 2 * e') * (nT + (f + nE))) by (apply Rmult_le_compat; lra).
  (* f itself is small beside nE *)
  assert (F2 : f <= 0.54 * nE + 6 * eta + d). { assert ((e + 7.5 * v) * nE <= 0.54 * nE) by (apply Rmult_le_compat_r; lra). lra. }
  assert (C2 : (20 * v + 2 * e') * (nT + (f + nE)) <= (20 * v + 2 * e') * nT + (20 * v + 2 * e') * (1.54 * nE) + (20 * / 16 + 2 * / 16) * (6 * eta + d)).
  { assert ((20 * v + 2 * e') * (f + nE) <= (20 * v + 2 * e') * (1.54 * nE + (6 * eta + d))) by (apply Rmult_le_compat_l; lra). assert ((20 * v + 2 * e') * (6 * eta + d) <= (20 * / 16 + 2 * / 16) * (6 * eta + d)) by (apply Rmult_le_compat_r; lra). lra. }
  assert (P1 : 0 <= v * nE) by (apply Rmult_le_pos; lra). assert (P4 : 0 <= e' * nE) by (apply Rmult_le_pos; lra).
  set (Z := (15 * eta * rN + 2 * dr) / m2) in *. set (Z2 := (14 * (1 + e') * (rN * eta) + 2 * dr) / m2) in *. set (Y1 := (18 * (1 + e') * v + 2 * e') * nC) in *. set (Y2 := 2 / m2 * ((1 + e') * r + e' * (m2 * nC) + dr)) in *. clearbody Z Z2 Y1 Y2.
  replace ((2 * e + 4 * e' + 47 * v) * nE) with (2 * (e * nE) + 4 * (e' * nE) + 47 * (v * nE)) by ring. replace ((e + 7.5 * v) * nE) with (e * nE + 7.5 * (v * nE)) in F1 by ring.
  replace ((20 * v + 2 * e') * (1.54 * nE)) with (30.8 * (v * nE) + 3.08 * (e' * nE)) in C2 by lra. set (t1 := e * nE) in *. set (t2 := v * nE) in *. set (t3 := e' * nE) in *. set (t5 := (20 * v + 2 * e') * (nT + (f + nE))) in *.
  replace ((2 * e' + 20 * v) * nT) with ((20 * v + 2 * e') * nT) by ring. set (t4 := (20 * v + 2 * e') * nT) in *. clearbody t1 t2 t3 t4 t5. clear K1 FH. lra.
Qed.
End Run.
