(** Concrete configurations: satisfiability of hypotheses, and counterexamples. *)
From Coq Require Import Reals Lra ZArith Arith List Bool Lia.
From Coquelicot Require Import Complex.
From Verif Require Import Cx Sums DFT PyBase ProfileModel SlmModel LibModel DmdModel SimModel SimSpec GridFacts SimFacts SimFacts2 SimFacts3 SimHist.
Import ListNotations.
Open Scope R_scope.

(** *** A concrete configuration meeting the hypotheses: a 3 x 2 DMD with a mixed mirror pattern, padding 1 and 2,
    a complex input field. *)
Definition ex_dmd : dmd := with_state (dmd_new 2 3 4 1 3 2 (/ 2) false) (DBool 2 3 (fun i j => Nat.even (i + j))).
Definition ex_sim : sim := {| pad_x := 1; pad_y := 2; f_input := None; f_output := None; f_image := None |}.
Definition ex_field (i j : nat) : C := (INR i + 1, INR j).
Definition ex_heap : heap := {| h_val := fun _ => VR 0; h_next := 0%nat |}.
Definition ex_input : parg := AConstC (T2 2 3 ex_field).
Lemma ex_runs (dev : device) (S : nat -> nat -> C) : full_state dev S -> dev_slm dev = d_slm ex_dmd ->
  full_input ex_heap (dev_slm dev) ex_input ex_field /\
  (exists m', propagate_to_image ex_heap dev ex_sim ex_input = (m', Ok tt)) /\
  (0 < s_Nx (dev_slm dev))%nat /\ (0 < s_Ny (dev_slm dev))%nat /\ pixel_size (dev_slm dev) <> 0.
Proof.
  intros HS E. assert (HF : full_input ex_heap (dev_slm dev) ex_input ex_field) by (rewrite E; reflexivity).
  split; [exact HF|]. split.
  - apply (propagate_succeeds _ _ _ _ _ _ HF HS); [cbn; lia|cbn; lia|]. rewrite E. unfold scaling_factor; cbn. lra.
  - rewrite E. cbn. repeat split; try lia; lra.
Qed.


Lemma ex_step_propagate w b : w_heap w = ex_heap -> w_dev w = DevDmd (with_state ex_dmd (DBool 2 3 b)) -> pad_x (w_sim w) = 1%Z -> pad_y (w_sim w) = 2%Z ->
  exists w', step w (Propagate ex_input) = (w', Ok tt) /\ w_heap w' = ex_heap /\ w_dev w' = w_dev w /\ pad_x (w_sim w') = 1%Z /\ pad_y (w_sim w') = 2%Z /\
    f_output (w_sim w') <> None /\ exists f, field_is (f_image (w_sim w')) 6 5 f.
Proof.
  intros Hh Hd Hx Hy. assert (HS := state_bool (with_state ex_dmd (DBool 2 3 b)) b eq_refl).
  destruct (propagate_succeeds ex_heap (DevDmd (with_state ex_dmd (DBool 2 3 b))) (w_sim w) ex_input ex_field _ eq_refl HS) as [m' H2];
    [lia|lia|unfold scaling_factor; cbn; lra|].
  destruct (propagate_inv ex_heap (DevDmd (with_state ex_dmd (DBool 2 3 b))) (w_sim w) ex_input _ _ m' eq_refl HS H2) as (_ & _ & _ & Ex & Ey & _ & Ho & Hi).
  unfold NY, NX in Hi, Ho. rewrite Hx, Hy in Hi, Ho. cbn in Hi, Ho.
  eexists. split; [cbn [step]; rewrite Hh, Hd, H2; reflexivity|]. cbn [w_heap w_dev w_sim]. rewrite Hd.
  split; [reflexivity|]. split; [reflexivity|]. split; [congruence|]. split; [congruence|].
  split; [destruct (f_output m'); [discriminate|contradiction]|]. eexists. exact Hi.
Qed.
Lemma ex_step_block w b r : w_heap w = ex_heap -> w_dev w = DevDmd (with_state ex_dmd (DBool 2 3 b)) -> pad_x (w_sim w) = 1%Z -> pad_y (w_sim w) = 2%Z ->
  f_output (w_sim w) <> None -> (exists f, field_is (f_image (w_sim w)) 6 5 f) ->
  exists w', step w (Block r) = (w', Ok tt) /\ w_heap w' = ex_heap /\ w_dev w' = w_dev w /\ pad_x (w_sim w') = 1%Z /\ pad_y (w_sim w') = 2%Z.
Proof.
  intros Hh Hd Hx Hy Ho [f Hf]. set (d := with_state ex_dmd (DBool 2 3 b)) in *.
  assert (P1 : d_p d <> 0) by (change (4 * / 2 <> 0); lra).
  assert (P2 : pixel_size (d_slm d) <> 0) by (change (/ 2 <> 0); lra).
  assert (E1 : NY (d_slm d) (w_sim w) = 6%nat) by (unfold NY; rewrite Hy; reflexivity).
  assert (E2 : NX (d_slm d) (w_sim w) = 5%nat) by (unfold NX; rewrite Hx; reflexivity).
  destruct (block_spec d (w_sim w) r f _ _ (fun _ => P1) Ho ltac:(rewrite E1, E2; exact Hf)
     (image_grid_of_is _ _ _ _ P2)) as (m' & H & _ & _ & Ex & Ey & _).
  eexists. split; [cbn [step]; rewrite Hd, H; reflexivity|]. cbn [w_heap w_dev w_sim]. rewrite Hh, Hd. repeat split; congruence.
Qed.
Lemma ex_history : exists w, run {| w_heap := ex_heap; w_dev := DevDmd ex_dmd; w_sim := ex_sim |}
  [Propagate ex_input; Block (Some 1); SetDmd (DBool 2 3 (fun _ _ => true)); Propagate ex_input; Clear; Propagate ex_input; Block None] = Some w.
Proof.
  set (w0 := {| w_heap := ex_heap; w_dev := DevDmd ex_dmd; w_sim := ex_sim |}).
  destruct (ex_step_propagate w0 (fun i j => Nat.even (i + j)) eq_refl eq_refl eq_refl eq_refl) as (w1 & S1 & A1 & A2 & A3 & A4 & A5 & A6).
  destruct (ex_step_block w1 (fun i j => Nat.even (i + j)) (Some 1) A1 A2 A3 A4 A5 A6) as (w2 & S2 & B1 & B2 & B3 & B4).
  set (w3 := {| w_heap := ex_heap; w_dev := DevDmd (with_state ex_dmd (DBool 2 3 (fun _ _ => true))); w_sim := w_sim w2 |}).
  assert (S3 : step w2 (SetDmd (DBool 2 3 (fun _ _ => true))) = (w3, Ok tt)).
  { cbn [step]. rewrite B2, A2, B1. reflexivity. }
  destruct (ex_step_propagate w3 (fun _ _ => true) eq_refl eq_refl B3 B4) as (w4 & S4 & C1 & C2 & C3 & C4 & _).
  set (w5 := {| w_heap := w_heap w4; w_dev := w_dev w4; w_sim := clear (w_sim w4) |}).
  destruct (ex_step_propagate w5 (fun _ _ => true) C1 C2 C3 C4) as (w6 & S6 & D1 & D2 & D3 & D4 & D5 & D6).
  destruct (ex_step_block w6 (fun _ _ => true) None D1 (eq_trans D2 C2) D3 D4 D5 D6) as (w7 & S7 & _).
  exists w7. cbn [run]. rewrite S1. rewrite S2. rewrite S3. rewrite S4. change (step w4 Clear) with (w5, Ok tt : res unit). cbv iota beta.
  rewrite S6. rewrite S7. reflexivity.
Qed.
Lemma propagate_not_atomic : exists h dev m0 a1 m1 a2 m2 e,
  propagate_to_image h dev m0 a1 = (m1, Ok tt) /\ propagate_to_image h dev m1 a2 = (m2, Err e) /\
  f_input m2 <> f_input m1 /\ f_output m2 = f_output m1 /\ f_image m2 = f_image m1.
Proof.
  assert (HS := state_bool ex_dmd _ eq_refl). destruct (ex_runs (DevDmd ex_dmd) _ HS eq_refl) as (H1 & (m1 & H2) & _).
  destruct (propagate_inv ex_heap (DevDmd ex_dmd) ex_sim ex_input _ _ m1 H1 HS H2) as (_ & _ & _ & Ex & Ey & Hi & _).
  exists ex_heap, (DevDmd ex_dmd), ex_sim, ex_input, m1, (AConstC (T2 4 4 (fun _ _ => RtoC 1))).
  do 2 eexists. split; [exact H2|]. split.
  - unfold propagate_to_image. cbn [profile_to_tensor_c]. rewrite tf_pad_pos by (rewrite ?Ex, ?Ey; cbn; lia).
    cbn [state_tensor ex_dmd with_state d_state rbind]. cbn. reflexivity.
  - rewrite Ex, Ey. cbn [with_fields f_input f_output f_image ex_sim pad_x pad_y]. repeat split.
    intros E. rewrite <- E in Hi. cbn in Hi. destruct Hi as [Hi _]. discriminate Hi.
Qed.
