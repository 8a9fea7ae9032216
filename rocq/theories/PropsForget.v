(** C148: a device shows what the last completed call gave it and nothing older; resetting an LCOS makes it transparent. *)
From Coq Require Import Reals Lra ZArith Arith List Bool Lia.
From Coquelicot Require Import Complex.
From Verif Require Import Cx PyBase ProfileModel SlmModel LibModel DmdModel SimModel SimSpec SimFacts SimExamples DmdSpec DmdFacts DmdFacts2 DmdThms DmdExamples ForgetSpec ForgetFacts.
Import ListNotations.
Open Scope R_scope.

(** ** C148 *)
(** Two DMDs of the same settings with any histories: once both have completed the same call writing every mirror, they are the same
    device, and every later call has the same outcome on both. *)
Theorem C148_dmd_forgets : forall d1 d2 pre c post d1' l1 d2' l2, same_settings d1 d2 -> writes_all c -> snd (do_call d2 c) = Ok tt ->
  do_calls d1 (pre ++ c :: post) = (d1', l1) -> do_calls d2 (c :: post) = (d2', l2) ->
  d1' = d2' /\ skipn (length pre) l1 = l2.
Proof. exact dmd_forgets. Qed.
Print Assumptions C148_dmd_forgets.
(** Whether such a call succeeds does not depend on what is displayed. *)
Theorem C148_dmd_outcome : forall d1 d2 c, same_settings d1 d2 -> writes_all c -> snd (do_call d1 c) = snd (do_call d2 c).
Proof. exact dmd_outcome. Qed.
Print Assumptions C148_dmd_outcome.
(** The two devices of the case: one all on, one all off; a grating is written on both. *)
Definition all_on : dmd := set_dmd_state_on ex_dmd.
Definition all_off : dmd := set_dmd_state_off ex_dmd.
Definition a_grating : call := CGrating ex_heap half zero_phase zero_phase MSimple no_kwargs (fun _ _ => 0).
Definition a_patch : call := CPatch ex_heap 0 0 half zero_phase zero_phase 1 MSimple no_kwargs (fun _ _ => 0).
Example C148_dmd_case : same_settings all_on all_off /\ d_state all_on <> d_state all_off /\ writes_all a_grating /\ snd (do_call all_off a_grating) = Ok tt.
Proof.
  split; [repeat split|]. split.
  - intros H. assert (K := f_equal (fun s => cell_at s 0 0) H). discriminate K.
  - split; [exact Logic.I|].
    assert (R1 := reads_const ex_heap (d_slm all_off) (3 / 4)). assert (R2 := reads_const ex_heap (d_slm all_off) 0).
    assert (Hp : d_p all_off <> 0) by (cbn; lra).
    destruct (set_simple ex_heap all_off half zero_phase zero_phase _ _ _ R1 R2 R2 Hp no_kwargs (fun _ _ => 0)) as (d2 & g & E & _ & _).
    unfold a_grating, do_call. rewrite E. reflexivity.
Qed.
(** A patch does remember: the same completed patch leaves the two devices different. *)
Theorem C148_patch_remembers : exists d1 d2 c d1' d2', same_settings d1 d2 /\ ~ writes_all c /\
  do_call d1 c = (d1', Ok tt) /\ do_call d2 c = (d2', Ok tt) /\ d_state d1' <> d_state d2'.
Proof.
  exists all_on, all_off, a_patch.
  assert (R1 := reads_const ex_heap (d_slm all_off) (3 / 4)). assert (R2 := reads_const ex_heap (d_slm all_off) 0).
  assert (Hp : d_p all_off <> 0) by (cbn; lra).
  assert (P1 : exists e, do_call all_on a_patch = (e, Ok tt)).
  { destruct (set_simple ex_heap all_on half zero_phase zero_phase _ _ _ R1 R2 R2 Hp no_kwargs (fun _ _ => 0)) as (e & g & E & -> & _).
    exact (patch_ok _ _ _ _ _ _ _ _ _ _ _ _ E eq_refl eq_refl). }
  assert (P2 : exists e, do_call all_off a_patch = (e, Ok tt)).
  { destruct (set_simple ex_heap all_off half zero_phase zero_phase _ _ _ R1 R2 R2 Hp no_kwargs (fun _ _ => 0)) as (e & g & E & -> & _).
    exact (patch_ok _ _ _ _ _ _ _ _ _ _ _ _ E eq_refl eq_refl). }
  destruct P1 as [d1' P1]. destruct P2 as [d2' P2]. exists d1', d2'.
  split; [repeat split|]. split; [intros H; exact H|]. split; [exact P1|]. split; [exact P2|].
  destruct (patch_spec _ _ _ _ _ _ _ _ _ _ _ _ P1) as (x1 & _ & _ & _ & _ & _ & Q1).
  destruct (patch_spec _ _ _ _ _ _ _ _ _ _ _ _ P2) as (x2 & _ & _ & _ & _ & _ & Q2).
  assert (D : Rabs 1 / 2 <= pixel_distance 0 0 1 2).
  { rewrite Rabs_pos_eq by lra. unfold pixel_distance. apply Rle_trans with (sqrt 1); [rewrite sqrt_1; lra|]. apply sqrt_le_1_alt. cbn. lra. }
  assert (A1 := proj2 (Q1 1%nat 2%nat ltac:(cbn; lia) ltac:(cbn; lia)) D). assert (A2 := proj2 (Q2 1%nat 2%nat ltac:(cbn; lia) ltac:(cbn; lia)) D).
  intros H. rewrite H, A2 in A1. discriminate A1.
Qed.
Print Assumptions C148_patch_remembers.

(** LCOS: whether the calls succeed does not depend on what is displayed. *)
Theorem C148_lcos_outcomes : forall cs l1 l2, l_slm l1 = l_slm l2 -> snd (do_lcalls l1 cs) = snd (do_lcalls l2 cs).
Proof. exact lcos_outcomes. Qed.
Print Assumptions C148_lcos_outcomes.
(** After any history the modulator is as the last completed call leaves any modulator of the same geometry. *)
Theorem C148_lcos_last : forall l1 l2 pre c post l1' os1 l2', l_slm l1 = l_slm l2 -> do_lcall l2 c = (l2', Ok tt) ->
  do_lcalls l1 (pre ++ c :: post) = (l1', os1) -> (forall co, In co (skipn (S (length pre)) os1) -> snd co <> Ok tt) -> l1' = l2'.
Proof. exact lcos_last. Qed.
Print Assumptions C148_lcos_last.
(** A call that fails leaves the modulator as it was. *)
Theorem C148_lcos_failed : forall l c l' e, do_lcall l c = (l', Err e) -> l' = l.
Proof. exact do_lcall_failed. Qed.
Print Assumptions C148_lcos_failed.
(** Resetting: complex zeros of the panel's shape. *)
Theorem C148_reset_state : forall l, l_slm (reset_slm_state l) = l_slm l /\
  l_state (reset_slm_state l) = LComplex (s_Ny (l_slm l)) (s_Nx (l_slm l)) (fun _ _ => RtoC 0).
Proof. exact reset_state. Qed.
Print Assumptions C148_reset_state.
(** A reset modulator is transparent: the simulated output field is the input field, whatever was displayed before. *)
Theorem C148_reset_transparent : forall h l m a F m',
  full_input h (l_slm l) a F -> propagate_to_image h (DevLcos (reset_slm_state l)) m a = (m', Ok tt) ->
  exists ny nx Ei Eo, field_is (f_input m') ny nx Ei /\ field_is (f_output m') ny nx Eo /\
    forall i j, (i < ny)%nat -> (j < nx)%nat -> Eo i j = Ei i j.
Proof. exact reset_transparent. Qed.
Print Assumptions C148_reset_transparent.
(** A modulator showing something; a hologram on it; then a failing call. *)
Definition a_lcos : lcos := {| l_slm := d_slm ex_dmd; l_state := LReal 2 3 (fun i j => INR i - INR j) |}.
Definition a_hologram (m : lmethod) : lcall :=
  LHolo ex_heap ex_input ex_input m {| lk_N := Some 1%Z; lk_window := None; lk_mix := None |} (fun _ _ => 0).
Example C148_lcos_case : exists l1 l2 e, do_lcall a_lcos (a_hologram MGs) = (l1, Ok tt) /\ l_state l1 <> l_state (lcos_new (l_slm a_lcos)) /\
  do_lcall l1 (a_hologram MMraf) = (l2, Err e) /\
  (exists m', propagate_to_image ex_heap (DevLcos (reset_slm_state l2)) ex_sim ex_input = (m', Ok tt)).
Proof.
  do 3 eexists. split; [reflexivity|]. split; [discriminate|]. split; [reflexivity|].
  match goal with |- exists m', propagate_to_image _ (DevLcos (reset_slm_state ?l)) _ _ = _ => exact (proj1 (proj2 (ex_runs (DevLcos (reset_slm_state l)) _ (reset_full l) eq_refl))) end.
Qed.
