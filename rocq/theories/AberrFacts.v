(** A beam that differs from the one the hologram was computed for; aberrations (C104). *)
From Coq Require Import Reals Lra ZArith Arith List Bool Lia.
From Coquelicot Require Import Complex.
From Verif Require Import Cx Sums DFT PyBase ProfileModel SlmModel LibModel DmdModel SimModel SimSpec GridFacts SimFacts SimFacts2 ProfSpec ProfFacts ProfFacts2 TensorThms DmdSpec DmdFacts DmdFacts2 DmdFacts3 RandomFacts AmpFacts AmpFacts2 AmpFacts3 AmpFacts4 AmpFacts5 DmdThms PhaseFacts.
Open Scope R_scope.

Definition three_orders (d : dmd) (M : R) (F S : nat -> nat -> C) (i j : nat) : C :=
  (RtoC (/ M / 2) * zeroth_order F S i j + RtoC (/ M / 4) * first_order d S i j + RtoC (/ M / 4) * conjugate_order d F S i j)%C.

Lemma hologram_field h d input target w F T W kw u :
  full_input h (d_slm d) input F -> full_target h (d_slm d) target T -> window_reads h (d_slm d) w W -> d_p d <> 0 ->
  (0 < s_Ny (d_slm d))%nat -> (0 < s_Nx (d_slm d))%nat -> scaling_factor (d_slm d) <> 0 ->
  (forall i j, in_array d i j -> F i j = RtoC 0 -> windowed d T W i j = RtoC 0) ->
  (exists i j, in_array d i j /\ windowed d T W i j <> RtoC 0) ->
  exists M g, 0 < M /\ (forall i j, in_array d i j -> Cmod (windowed d T W i j) / Cmod (F i j) / M <= 1) /\
    (exists i j, in_array d i j /\ Cmod (windowed d T W i j) / Cmod (F i j) / M = 1) /\
    calculate_dmd_state h d input target MIdeal w kw u = (with_state d (DFloat (s_Ny (d_slm d)) (s_Nx (d_slm d)) g), Ok (Fin (eta_scale (d_slm d) / M))) /\
    snd (calculate_dmd_state h d input target MSimple w kw u) = Ok (Fin (eta_scale (d_slm d) / M)) /\
    snd (calculate_dmd_state h d input target MRandom w kw u) = Ok (Fin (eta_scale (d_slm d) / M)) /\
    full_state (DevDmd (with_state d (DFloat (s_Ny (d_slm d)) (s_Nx (d_slm d)) g))) (fun i j => RtoC (xr_val (g i j))) /\
    forall i j, in_array d i j -> (F i j * RtoC (xr_val (g i j)))%C = three_orders d M F (windowed d T W) i j.
Proof.
  intros HF HT HW Hp Hy Hx Hs Hd Hl.
  destruct (hologram_spec h d input target w F T W kw u HF HT HW Hp Hy Hx Hs Hd Hl) as (M & HM & P & (i1 & j1 & Q & R) & (g & G & V) & (g2 & G2 & _) & (g3 & G3 & _)).
  cbv zeta in *. exists M, g. split; [exact HM|]. split; [intros i j Hij; apply (P i j Hij)|]. split; [exists i1, j1; auto|]. split; [exact G|].
  rewrite G2, G3. split; [reflexivity|]. split; [reflexivity|]. split.
  - apply (state_float_in (with_state d (DFloat (s_Ny (d_slm d)) (s_Nx (d_slm d)) g)) (s_Ny (d_slm d)) (s_Nx (d_slm d)) g (fun i j => xr_val (g i j)) eq_refl eq_refl eq_refl). intros i j Hi Hj.
    rewrite (V i j) by (split; assumption). reflexivity.
  - intros i j Hij. rewrite V by exact Hij. cbn [xr_val]. unfold three_orders, zeroth_order, first_order, conjugate_order.
    apply mirror_orders; [exact HM|apply Hd; exact Hij].
Qed.

Lemma wrong_beam h d input actual target w F G rho T W kw u m :
  full_input h (d_slm d) input F -> full_input h (d_slm d) actual G -> full_target h (d_slm d) target T -> window_reads h (d_slm d) w W -> d_p d <> 0 ->
  (0 < s_Ny (d_slm d))%nat -> (0 < s_Nx (d_slm d))%nat -> scaling_factor (d_slm d) <> 0 ->
  (forall i j, in_array d i j -> F i j = RtoC 0 -> windowed d T W i j = RtoC 0) ->
  (exists i j, in_array d i j /\ windowed d T W i j <> RtoC 0) ->
  (forall i j, in_array d i j -> G i j = (rho i j * F i j)%C) ->
  (0 <= pad_x m)%Z -> (0 <= pad_y m)%Z ->
  exists M d' m', 0 < M /\ calculate_dmd_state h d input target MIdeal w kw u = (d', Ok (Fin (eta_scale (d_slm d) / M))) /\
    propagate_to_image h (DevDmd d') m actual = (m', Ok tt) /\
    field_is (f_output m') (NY (d_slm d) m) (NX (d_slm d) m) (pad_of (d_slm d) m (fun i j => (rho i j * three_orders d M F (windowed d T W) i j)%C)).
Proof.
  intros HF HG HT HW Hp Hy Hx Hs Hd Hl HR Px Py.
  destruct (hologram_field h d input target w F T W kw u HF HT HW Hp Hy Hx Hs Hd Hl) as (M & g & HM & _ & _ & E & _ & _ & St & V).
  destruct (propagate_succeeds h (DevDmd (with_state d (DFloat (s_Ny (d_slm d)) (s_Nx (d_slm d)) g))) m actual G _ HG St Py Px Hs) as (m' & R).
  destruct (propagate_inv h (DevDmd (with_state d (DFloat (s_Ny (d_slm d)) (s_Nx (d_slm d)) g))) m actual G _ m' HG St R) as (_ & _ & _ & _ & _ & _ & Ho & _).
  exists M, (with_state d (DFloat (s_Ny (d_slm d)) (s_Nx (d_slm d)) g)), m'. split; [exact HM|]. split; [exact E|]. split; [exact R|].
  eapply field_is_ext; [|exact Ho]. intros i j _ _. apply pad_of_ext. intros i' j' Hi Hj. cbn [dev_slm d_slm with_state] in Hi, Hj.
  assert (Hij : in_array d i' j') by (split; assumption). rewrite (HR i' j' Hij), <- (V i' j' Hij). ring.
Qed.

Lemma unit_turn a z : z <> RtoC 0 -> unit_of (cis a * z)%C = (cis a * unit_of z)%C.
Proof. intros H. unfold unit_of. rewrite cis_carg_turn by exact H. apply cis_plus. Qed.

Lemma aberration h d input aware target w F G phi T W kw u m :
  full_input h (d_slm d) input F -> full_input h (d_slm d) aware G -> full_target h (d_slm d) target T -> window_reads h (d_slm d) w W -> d_p d <> 0 ->
  (0 < s_Ny (d_slm d))%nat -> (0 < s_Nx (d_slm d))%nat -> scaling_factor (d_slm d) <> 0 ->
  (forall i j, in_array d i j -> F i j = RtoC 0 -> windowed d T W i j = RtoC 0) ->
  (exists i j, in_array d i j /\ windowed d T W i j <> RtoC 0) ->
  (forall i j, in_array d i j -> G i j = (cis (phi i j) * F i j)%C) ->
  (0 <= pad_x m)%Z -> (0 <= pad_y m)%Z ->
  exists M, let eta := eta_scale (d_slm d) / M in let S := windowed d T W in 0 < M /\
    (forall me, me = MIdeal \/ me = MSimple \/ me = MRandom ->
       snd (calculate_dmd_state h d input target me w kw u) = Ok (Fin eta) /\ snd (calculate_dmd_state h d aware target me w kw u) = Ok (Fin eta)) /\
    (exists m', propagate_to_image h (DevDmd (fst (calculate_dmd_state h d input target MIdeal w kw u))) m aware = (m', Ok tt) /\
       field_is (f_output m') (NY (d_slm d) m) (NX (d_slm d) m) (pad_of (d_slm d) m (fun i j =>
         (cis (phi i j) * (RtoC (/ M / 2) * zeroth_order F S i j + RtoC (/ M / 4) * first_order d S i j + RtoC (/ M / 4) * conjugate_order d F S i j))%C))) /\
    (exists m', propagate_to_image h (DevDmd (fst (calculate_dmd_state h d aware target MIdeal w kw u))) m aware = (m', Ok tt) /\
       field_is (f_output m') (NY (d_slm d) m) (NX (d_slm d) m) (pad_of (d_slm d) m (fun i j =>
         (cis (phi i j) * (RtoC (/ M / 2) * zeroth_order F S i j) + RtoC (/ M / 4) * first_order d S i j
          + cis (2 * phi i j) * (RtoC (/ M / 4) * conjugate_order d F S i j))%C))).
Proof.
  intros HF HG HT HW Hp Hy Hx Hs Hd Hl HR Px Py.
  destruct (hologram_field h d input target w F T W kw u HF HT HW Hp Hy Hx Hs Hd Hl) as (M & g & HM & Lm & (i1 & j1 & Q1 & R1) & E & E2 & E3 & St & V).
  assert (Hd' : forall i j, in_array d i j -> G i j = RtoC 0 -> windowed d T W i j = RtoC 0).
  { intros i j Hij Hz. apply Hd; [exact Hij|]. rewrite (HR i j Hij) in Hz. apply turn_zero in Hz. exact Hz. }
  destruct (hologram_field h d aware target w G T W kw u HG HT HW Hp Hy Hx Hs Hd' Hl) as (M' & g' & HM' & Lm' & (i1' & j1' & Q1' & R1') & E' & E2' & E3' & St' & V').
  assert (AE : forall i j, in_array d i j -> Cmod (G i j) = Cmod (F i j)) by (intros i j Hij; rewrite (HR i j Hij); apply Cmod_turn).
  assert (EM : M' = M).
  { assert (U := Lm i1' j1' Q1'). assert (U' := Lm' i1 j1 Q1). rewrite (AE i1 j1 Q1) in U'. rewrite (AE i1' j1' Q1') in R1'. exact (max_unique _ _ M M' HM HM' R1 R1' U U'). }
  subst M'. exists M. cbv zeta. split; [exact HM|]. split; [|split].
  - intros me [->|[->| ->]]; [rewrite E, E'|rewrite E2, E2'|rewrite E3, E3']; split; reflexivity.
  - rewrite E. cbn [fst].
    destruct (propagate_succeeds h (DevDmd (with_state d (DFloat (s_Ny (d_slm d)) (s_Nx (d_slm d)) g))) m aware G _ HG St Py Px Hs) as (m' & R).
    destruct (propagate_inv h (DevDmd (with_state d (DFloat (s_Ny (d_slm d)) (s_Nx (d_slm d)) g))) m aware G _ m' HG St R) as (_ & _ & _ & _ & _ & _ & Ho & _).
    exists m'. split; [exact R|]. eapply field_is_ext; [|exact Ho]. intros i j _ _. apply pad_of_ext. intros i' j' Hi Hj. cbn [dev_slm d_slm with_state] in Hi, Hj.
    assert (Hij : in_array d i' j') by (split; assumption). rewrite (HR i' j' Hij). change (RtoC (/ M / 2) * zeroth_order F (windowed d T W) i' j' + RtoC (/ M / 4) * first_order d (windowed d T W) i' j' + RtoC (/ M / 4) * conjugate_order d F (windowed d T W) i' j')%C with (three_orders d M F (windowed d T W) i' j').
    rewrite <- (V i' j' Hij). ring.
  - rewrite E'. cbn [fst].
    destruct (propagate_succeeds h (DevDmd (with_state d (DFloat (s_Ny (d_slm d)) (s_Nx (d_slm d)) g'))) m aware G _ HG St' Py Px Hs) as (m' & R).
    destruct (propagate_inv h (DevDmd (with_state d (DFloat (s_Ny (d_slm d)) (s_Nx (d_slm d)) g'))) m aware G _ m' HG St' R) as (_ & _ & _ & _ & _ & _ & Ho & _).
    exists m'. split; [exact R|]. eapply field_is_ext; [|exact Ho]. intros i j _ _. apply pad_of_ext. intros i' j' Hi Hj. cbn [dev_slm d_slm with_state] in Hi, Hj.
    assert (Hij : in_array d i' j') by (split; assumption). rewrite (V' i' j' Hij). unfold three_orders, zeroth_order, first_order, conjugate_order.
    rewrite (HR i' j' Hij). destruct (C_dec0 (F i' j')) as [Z|Z].
    + rewrite (Hd i' j' Hij Z). rewrite cconj_RtoC, Cmod_0. ring.
    + rewrite !unit_turn by exact Z. replace (2 * phi i' j') with (phi i' j' + phi i' j') by ring. rewrite (cis_plus (phi i' j')). ring.
Qed.
(** The beam and the aberration as profile objects, as in examples/aberration_correction.py. *)
Lemma product_of_profiles h s p q X Y F phi k : ~ List.Forall constant_leaf (leaves p) -> grid_is (fourier_plane_grid s) (s_Ny s) (s_Nx s) X Y ->
  (forall i j, (i < s_Ny s)%nat -> (j < s_Nx s)%nat -> gives h p (X i j) (Y i j) (F i j) k /\ gives h q (X i j) (Y i j) (RtoC (phi i j)) false) ->
  exists F' G, full_input h s (AProf p) F' /\ full_input h s (AProf (PBin Omul p (p_as_complex q))) G /\
    forall i j, (i < s_Ny s)%nat -> (j < s_Nx s)%nat -> F' i j = F i j /\ G i j = (cis (phi i j) * F' i j)%C.
Proof.
  intros Hc HG H.
  destruct (to_tensor_full h s p true X Y F k Hc HG (fun i j Hi Hj => proj1 (H i j Hi Hj))) as ((t & E & Q) & _).
  destruct (to_tensor_full h s (PBin Omul p (p_as_complex q)) true X Y (fun i j => (F i j * cis (phi i j))%C) true) as ((t' & E' & Q') & _).
  - intros HA. apply Hc. cbn [leaves] in HA. apply List.Forall_app in HA. exact (proj1 HA).
  - exact HG.
  - intros i j Hi Hj. destruct (H i j Hi Hj) as [A B]. apply as_complex_real in B. destruct B as [B _].
    destruct (binop_profiles Omul h p (p_as_complex q) (X i j) (Y i j) _ _ _ _ A B) as (r & E1 & E2); [discriminate|].
    injection E1 as <-. rewrite Bool.orb_true_r in E2. exact E2.
  - destruct t as [|ny nx F']; [destruct Q|]. destruct Q as (-> & -> & Q). destruct t' as [|ny' nx' G]; [destruct Q'|]. destruct Q' as (-> & -> & Q').
    exists F', G. split; [exact E|]. split; [exact E'|]. intros i j Hi Hj. rewrite (Q i j Hi Hj), (Q' i j Hi Hj). split; [reflexivity|ring].
Qed.
