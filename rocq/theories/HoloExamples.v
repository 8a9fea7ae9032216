(** Concrete cases for the iterative hologram properties. *)
From Coq Require Import Reals Lra ZArith Arith List Bool Lia.
From Coquelicot Require Import Complex.
From Verif Require Import Cx Sums DFT PyBase ProfileModel SlmModel LibModel DmdModel SimModel SimSpec SimExamples DmdSpec DmdFacts2 DmdExamples HoloSpec HoloFacts HoloThms IftaFacts.
Open Scope R_scope.

Lemma in3 i j : in_slm slm3 i j -> i = O /\ (j = 0 \/ j = 1 \/ j = 2)%nat.
Proof. unfold in_slm, slm3. cbn. lia. Qed.
(** Uniform beam, one bright spot off the axis, on a 3 x 1 SLM. *)
Lemma gs_case : full_input ex_heap (l_slm (lcos_new slm3)) flat3 (fun _ _ => RtoC 1) /\ real_target ex_heap (l_slm (lcos_new slm3)) spot3 (spot 0 2) /\
  (forall i j, in_slm slm3 i j -> RtoC 1 = (RtoC 1 * cis 0)%C /\ 0 <= 1 /\ 0 <= spot 0 2 i j) /\
  (exists i j, in_slm slm3 i j /\ spot 0 2 i j = 1) /\
  full_target ex_heap slm3 flat3 (fun _ _ => RtoC 1) /\ scaling_factor slm3 <> 0 /\ pad_x ex_sim0 = 0%Z /\ pad_y ex_sim0 = 0%Z.
Proof.
  repeat split; try reflexivity; try lra.
  - unfold cis. rewrite cos_0, sin_0. change (1, 0) with (RtoC 1). ring.
  - unfold spot. destruct (_ && _)%bool; lra.
  - exists O, 2%nat. unfold in_slm, slm3. cbn. repeat split; lia.
  - unfold scaling_factor, slm3. cbn [wavelength focal_length]. lra.
Qed.
(** A 2 x 1 DMD whose ideal pattern is exactly (off, on). *)
Definition dmd2 : dmd := dmd_new 1 1 2 0 2 1 1 false.
Definition one2 : parg := AConstR (T0 1).
Definition zero2 : parg := AConstR (T0 0).
(** Only the first image pixel is inside the signal window. *)
Definition V2 (u v : nat) : C := if Nat.eqb v 0 then RtoC 1 else RtoC 0.
Definition F2' (i j : nat) : C := (INR j + 1, 2).
Definition kw2 : kwargs := {| k_r := None; k_N := Some 5%Z; k_s := None; k_window := Some (AConstC (T2 1 2 V2)); k_input := Some (AConstC (T2 1 2 F2')) |}.
Lemma ifta_case : reads ex_heap (d_slm dmd2) one2 (fun _ _ => 1) /\ reads ex_heap (d_slm dmd2) zero2 (fun _ _ => 0) /\ d_p dmd2 <> 0 /\
  exists f, set_dmd_grating_state ex_heap dmd2 one2 zero2 zero2 MIfta kw2 (fun _ _ => 0) = (with_state dmd2 (DBool 1 2 f), Ok tt) /\
    f 0%nat 0%nat = false /\ f 0%nat 1%nat = true.
Proof.
  assert (R1 : reads ex_heap (d_slm dmd2) one2 (fun _ _ => 1)) by apply reads_const.
  assert (R0 : reads ex_heap (d_slm dmd2) zero2 (fun _ _ => 0)) by apply reads_const.
  assert (Hp : d_p dmd2 <> 0) by (cbn; lra).
  repeat (split; [assumption|]).
  destruct (ifta_grating ex_heap dmd2 one2 zero2 zero2 _ _ _ kw2 F2' V2 (fun _ _ => 0) R1 R0 R0 Hp (or_intror eq_refl) (or_intror eq_refl)) as (f & E & Hr).
  exists f. split; [exact E|]. change (s_Ny (d_slm dmd2)) with 1%nat in Hr. change (s_Nx (d_slm dmd2)) with 2%nat in Hr.
  destruct (run_consequences _ _ _ _ _ _ _ Hr) as (_ & _ & _ & HB). cbn [dflt k_s kw2] in HB.
  assert (Q : forall j, (j < 2)%nat -> 1 * (cos (carrier dmd2 0 j - signed (d_neg dmd2) (0 - 0)) / 2 + 1 / 2) * 1 = INR j).
  { intros j Hj. unfold carrier, mirror_x, mirror_y, signed, dmd2, dmd_new. cbn [d_slm d_p d_theta d_neg s_Nx s_Ny pixel_size].
    rewrite cos_0, sin_0. destruct j as [|[|]]; [| |lia].
    - match goal with |- context [cos ?x] => replace x with (- PI) by (cbn [INR]; field) end. rewrite cos_neg, cos_PI. cbn [INR]. lra.
    - match goal with |- context [cos ?x] => replace x with 0 by (cbn [INR]; field) end. rewrite cos_0. cbn [INR]. lra. }
  assert (FN : forall j, F2' 0 j <> RtoC 0) by (intros j H; apply (f_equal snd) in H; cbn in H; lra).
  assert (HQ : forall i j, (i < 1)%nat -> (j < 2)%nat -> 1 * (cos (carrier dmd2 i j - signed (d_neg dmd2) (0 - 0)) / 2 + 1 / 2) * 1 = 0 \/
       1 * (cos (carrier dmd2 i j - signed (d_neg dmd2) (0 - 0)) / 2 + 1 / 2) * 1 = 1).
  { intros i j Hi Hj. replace i with O by lia. rewrite Q by exact Hj. destruct j as [|[|]]; [left|right|lia]; reflexivity. }
  split.
  - destruct (f 0%nat 0%nat) eqn:Ef; [|reflexivity]. apply (HB HQ 0%nat 0%nat ltac:(lia) ltac:(lia) (FN _)) in Ef. rewrite Q in Ef by lia. cbn in Ef. lra.
  - apply (HB HQ 0%nat 1%nat ltac:(lia) ltac:(lia) (FN _)). rewrite Q by lia. reflexivity.
Qed.
Lemma ifta_hyps : full_input ex_heap (d_slm ex4) in4 F4 /\ full_target ex_heap (d_slm ex4) tg4 T4 /\ window_reads ex_heap (d_slm ex4) None (fun _ _ => RtoC 1) /\ d_p ex4 <> 0 /\
  k_window (ifta_kwargs 7 (1 / 2) tg4) = Some tg4.
Proof. destruct ex4_reads as (A & B & C & D & _). repeat (split; [assumption|]). reflexivity. Qed.
Lemma range_case : forall i j, in_slm slm3 i j -> 0 <= (fun _ _ : nat => 1 / 2) i j < 1.
Proof. intros; lra. Qed.
