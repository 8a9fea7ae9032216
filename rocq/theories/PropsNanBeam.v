(** Simulations of beams that are not finite (C159). *)
From Coq Require Import Reals Lra ZArith Arith List Bool Lia.
From Coquelicot Require Import Complex.
From Verif Require Import Cx PyBase ProfileModel SlmModel LibModel DmdModel SimModel SimSpec SimExamples DmdSpec NanModel NanSpec NanBeamModel NanBeamSpec NanBeamFacts.
Open Scope R_scope.

(** One sample that is infinite or NaN, on any device, whatever the device does there: the run returns, every pixel of the image and all
    three powers are lost, the field behind the device only where the beam is. *)
Theorem C159_one_bad_sample : forall dev m F K py px i0 j0,
  acts dev K -> (i0 < s_Ny (dev_slm dev))%nat -> (j0 < s_Nx (dev_slm dev))%nat -> F i0 j0 = None ->
  n_pad_y m = Z.of_nat py -> n_pad_x m = Z.of_nat px -> scaling_factor (dev_slm dev) <> 0 -> pixel_size (dev_slm dev) <> 0 ->
  exists m', b_propagate dev m (T2 (s_Ny (dev_slm dev)) (s_Nx (dev_slm dev)) F) = (m', Ok tt) /\ n_pad_x m' = n_pad_x m /\ n_pad_y m' = n_pad_y m /\ lost (dev_slm dev) py px F K m'.
Proof. exact bad_beam. Qed.
Print Assumptions C159_one_bad_sample.
(** Nothing is left of it in the next run. *)
Theorem C159_next_run : forall dev m F, snd (b_propagate dev (n_new (n_pad_x m) (n_pad_y m)) F) = Ok tt ->
  b_propagate dev m F = b_propagate dev (n_new (n_pad_x m) (n_pad_y m)) F.
Proof. exact beam_next_run. Qed.
Print Assumptions C159_next_run.
(** With a finite beam it is the simulation of C133 (and, with a finite state, of the other properties). *)
Theorem C159_finite_beams : forall h dev m input, n_propagate h dev m input =
  match profile_to_tensor_c h (dev_slm dev) input true with Err e => (m, Err e) | Ok inp => b_propagate dev m (tmap Some inp) end.
Proof. exact same_code. Qed.
Print Assumptions C159_finite_beams.
(** A beam with one bad sample, at a mirror that is off. *)
Example C159_case : let F := fun i j => if (Nat.eqb i 0 && Nat.eqb j 1)%bool then None else Some (ex_field i j) in
  let K := fun i j => Some (RtoC (if Nat.even (i + j) then 1 else 0)) in
  acts (DevDmd ex_dmd) K /\ F 0%nat 1%nat = None /\ K 0%nat 1%nat = Some (RtoC 0) /\ scaling_factor (d_slm ex_dmd) <> 0 /\ pixel_size (d_slm ex_dmd) <> 0 /\
  exists m', b_propagate (DevDmd ex_dmd) (n_new 1 2) (T2 2 3 F) = (m', Ok tt) /\ lost (d_slm ex_dmd) 2 1 F K m'.
Proof.
  cbv zeta. set (F := fun i j => if (Nat.eqb i 0 && Nat.eqb j 1)%bool then None else Some (ex_field i j)). set (K := fun i j => Some (RtoC (if Nat.even (i + j) then 1 else 0))).
  assert (A : acts (DevDmd ex_dmd) K) by (cbn; repeat split). assert (S0 : scaling_factor (d_slm ex_dmd) <> 0) by (unfold scaling_factor; cbn; lra).
  assert (P0 : pixel_size (d_slm ex_dmd) <> 0) by (cbn; lra).
  split; [exact A|]. split; [reflexivity|]. split; [reflexivity|]. split; [exact S0|]. split; [exact P0|].
  destruct (C159_one_bad_sample (DevDmd ex_dmd) (n_new 1 2) F K 2 1 0 1 A ltac:(cbn; lia) ltac:(cbn; lia) eq_refl eq_refl eq_refl S0 P0) as (m' & H & _ & _ & H').
  exists m'. split; [exact H|exact H'].
Qed.
