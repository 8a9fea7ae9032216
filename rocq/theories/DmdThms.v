(** Final forms of the DMD properties and the concrete cases for them. *)
From Coq Require Import Reals Lra ZArith Arith List Bool Lia.
From Coquelicot Require Import Complex Coquelicot.
From Verif Require Import Cx Sums DFT PyBase ProfileModel SlmModel LibModel DmdModel OriginFacts SimModel SimSpec GridFacts SimFacts SimFacts2 DmdSpec DmdFacts DmdFacts2 DmdFacts3 RandomFacts AmpFacts AmpFacts2 AmpFacts3 AmpFacts4.
Import ListNotations.
Open Scope R_scope.

Lemma norm_eta d M : scaling_factor (d_slm d) <> 0 -> M <> 0 -> norm_const d / M = eta_scale (d_slm d) / M.
Proof. intros H HM. unfold norm_const, eta_scale. field. auto. Qed.

Lemma hologram_spec h d input target w F T W kw u :
  full_input h (d_slm d) input F -> full_target h (d_slm d) target T -> window_reads h (d_slm d) w W -> d_p d <> 0 ->
  (0 < s_Ny (d_slm d))%nat -> (0 < s_Nx (d_slm d))%nat -> scaling_factor (d_slm d) <> 0 ->
  (forall i j, in_array d i j -> F i j = RtoC 0 -> windowed d T W i j = RtoC 0) ->
  (exists i j, in_array d i j /\ windowed d T W i j <> RtoC 0) ->
  exists M, 0 < M /\
  let A := fun i j => Cmod (windowed d T W i j) / Cmod (F i j) / M in
  let level := fun i j => A i j * (cos (carrier d i j - signed (d_neg d) (phase_of (windowed d T W i j) - carg (F i j))) / 2 + 1 / 2) in
  let eta := eta_scale (d_slm d) / M in
  (forall i j, in_array d i j -> 0 <= A i j <= 1) /\
  (exists i j, in_array d i j /\ A i j = 1) /\
  (exists g, calculate_dmd_state h d input target MIdeal w kw u = (with_state d (DFloat (s_Ny (d_slm d)) (s_Nx (d_slm d)) g), Ok (Fin eta)) /\
     forall i j, in_array d i j -> g i j = Fin (level i j)) /\
  (exists g, calculate_dmd_state h d input target MSimple w kw u = (with_state d (DBool (s_Ny (d_slm d)) (s_Nx (d_slm d)) g), Ok (Fin eta)) /\
     forall i j, in_array d i j -> (g i j = true <-> 1 / 2 < level i j)) /\
  (exists g, calculate_dmd_state h d input target MRandom w kw u = (with_state d (DBool (s_Ny (d_slm d)) (s_Nx (d_slm d)) g), Ok (Fin eta)) /\
     forall i j, in_array d i j -> exists q, folded (carrier d i j - signed (d_neg d) (phase_of (windowed d T W i j) - carg (F i j))) q /\
       (g i j = true <-> u i j < duty (dflt (k_r kw) 10) q (A i j))).
Proof.
  intros HF HT HW Hp Hy Hx Hs Hd (i0 & j0 & [I0 J0] & Hz).
  destruct (usable_hologram h d input target w F T W kw u HF HT HW Hp Hy Hx Hs) as (M & HM & H1 & (i1 & j1 & I1 & J1 & E1) & (g1 & G1 & V1) & (g2 & G2 & V2) & (g3 & G3 & V3)).
  { intros i j Hi Hj. apply Hd. split; assumption. }
  { exists i0, j0. auto. }
  rewrite norm_eta in G1, G2, G3 by lra. exists M. split; [exact HM|]. cbv zeta. split; [|split; [|split; [|split]]].
  - intros i j [Hi Hj]. exact (H1 i j Hi Hj).
  - exists i1, j1. split; [split; assumption|exact E1].
  - exists g1. split; [exact G1|]. intros i j [Hi Hj]. exact (V1 i j Hi Hj).
  - exists g2. split; [exact G2|]. intros i j [Hi Hj]. exact (V2 i j Hi Hj).
  - exists g3. split; [exact G3|]. intros i j [Hi Hj]. eexists. split; [apply folded_acos|]. exact (V3 i j Hi Hj).
Qed.
(** The hypotheses of [hologram_spec] for a bright input, any non-zero target and no window. *)
Lemma bright_ok d F T W : (forall i j, W i j = RtoC 1) ->
  (forall i j, in_array d i j -> F i j <> RtoC 0) -> (exists i j, in_array d i j /\ T i j <> RtoC 0) ->
  (forall i j, in_array d i j -> F i j = RtoC 0 -> windowed d T W i j = RtoC 0) /\
  (exists i j, in_array d i j /\ windowed d T W i j <> RtoC 0).
Proof.
  intros HW HF (u & v & [Hu Hv] & HT). split; [intros i j H E; destruct (HF i j H E)|].
  destruct (spectrum_nonzero _ _ T u v Hu Hv HT) as (i & j & Hi & Hj & E). exists i, j. split; [split; assumption|].
  unfold windowed. rewrite HW, Cmult_1_r. exact E.
Qed.
Lemma input_scaling h d input input' F target c m w kw u : 0 < c ->
  full_input h (d_slm d) input F -> full_input h (d_slm d) input' (fun i j => (RtoC c * F i j)%C) ->
  calculate_dmd_state h d input' target m w kw u =
  (fst (calculate_dmd_state h d input target m w kw u), rmap (fun eta => xscale eta c) (snd (calculate_dmd_state h d input target m w kw u))).
Proof. intros Hc H1 H2. exact (calc_input_scale h d input input' _ target c m w kw u Hc H1 H2). Qed.

Lemma fourier_orders h d input target w F T W kw u m :
  full_input h (d_slm d) input F -> full_target h (d_slm d) target T -> window_reads h (d_slm d) w W -> d_p d <> 0 ->
  (0 < s_Ny (d_slm d))%nat -> (0 < s_Nx (d_slm d))%nat -> scaling_factor (d_slm d) <> 0 ->
  (forall i j, in_array d i j -> F i j = RtoC 0 -> windowed d T W i j = RtoC 0) ->
  (exists i j, in_array d i j /\ windowed d T W i j <> RtoC 0) ->
  (0 <= pad_x m)%Z -> (0 <= pad_y m)%Z ->
  exists M d' m', let eta := eta_scale (d_slm d) / M in let S := windowed d T W in
    0 < M /\ calculate_dmd_state h d input target MIdeal w kw u = (d', Ok (Fin eta)) /\ d_slm d' = d_slm d /\
    propagate_to_image h (DevDmd d') m input = (m', Ok tt) /\
    field_is (f_output m') (NY (d_slm d) m) (NX (d_slm d) m) (pad_of (d_slm d) m (fun i j =>
      (RtoC (/ M / 2) * zeroth_order F S i j + RtoC (/ M / 4) * first_order d S i j + RtoC (/ M / 4) * conjugate_order d F S i j)%C)) /\
    (pad_x m = 0%Z -> pad_y m = 0%Z ->
     field_is (f_image m') (s_Ny (d_slm d)) (s_Nx (d_slm d)) (fun a b =>
       (RtoC (eta / 4) * image_of (s_Ny (d_slm d)) (s_Nx (d_slm d)) (first_order d S) a b
        + RtoC (eta / 2) * image_of (s_Ny (d_slm d)) (s_Nx (d_slm d)) (zeroth_order F S) a b
        + RtoC (eta / 4) * image_of (s_Ny (d_slm d)) (s_Nx (d_slm d)) (conjugate_order d F S) a b)%C)).
Proof.
  intros HF HT HW Hp Hy Hx Hs Hd (i0 & j0 & [I0 J0] & Hz) Px Py.
  destruct (ideal_simulated h d input target w F T W kw u HF HT HW Hp Hy Hx Hs) with (m := m) as (M & d' & m' & HM & E & Ed & R & Ho & Hi).
  { intros i j Hi Hj. apply Hd. split; assumption. }
  { exists i0, j0. auto. }
  { exact Px. } { exact Py. }
  exists M, d', m'. cbv zeta. split; [exact HM|]. rewrite <- norm_eta by lra. split; [exact E|]. split; [exact Ed|]. split; [exact R|]. split; [exact Ho|].
  intros Zx Zy. eapply field_is_ext; [|exact (Hi Zx Zy)]. intros a b _ _. cbv beta.
  change (zeroth d F T W) with (zeroth_order F (windowed d T W)). change (first d T W) with (first_order d (windowed d T W)).
  change (conj_order d F T W) with (conjugate_order d F (windowed d T W)). ring.
Qed.
(** Unpadded simulation, integer displacement. *)
Lemma image_orders h d input target w F T W kw u m a b :
  full_input h (d_slm d) input F -> full_target h (d_slm d) target T -> window_reads h (d_slm d) w W ->
  (0 < s_Ny (d_slm d))%nat -> (0 < s_Nx (d_slm d))%nat -> scaling_factor (d_slm d) <> 0 -> pixel_size (d_slm d) <> 0 ->
  (forall i j, in_array d i j -> F i j = RtoC 0 -> windowed d T W i j = RtoC 0) ->
  (exists i j, in_array d i j /\ windowed d T W i j <> RtoC 0) ->
  first_order_origin d = (Fin (IZR a * image_pitch_x (d_slm d)), Fin (IZR b * image_pitch_y (d_slm d))) ->
  pad_x m = 0%Z -> pad_y m = 0%Z ->
  exists M d' m', let eta := eta_scale (d_slm d) / M in let S := windowed d T W in
    let ny := s_Ny (d_slm d) in let nx := s_Nx (d_slm d) in
    let a' := if d_neg d then (- a)%Z else a in let b' := if d_neg d then (- b)%Z else b in
    0 < M /\ calculate_dmd_state h d input target MIdeal w kw u = (d', Ok (Fin eta)) /\
    propagate_to_image h (DevDmd d') m input = (m', Ok tt) /\
    field_is (f_image m') ny nx (fun p q =>
       (RtoC (eta / 4) * (half_pixel_phase ny nx a' b' * displaced ny nx a' b' (image_of ny nx S) p q)
        + RtoC (eta / 2) * image_of ny nx (zeroth_order F S) p q
        + RtoC (eta / 4) * image_of ny nx (conjugate_order d F S) p q)%C) /\
    (w = None -> forall p q, (p < ny)%nat -> (q < nx)%nat -> displaced ny nx a' b' (image_of ny nx S) p q = displaced ny nx a' b' T p q).
Proof.
  intros HF HT HW Hy Hx Hs Hps Hd Hz Ho Zx Zy. apply origin_inv in Ho. destruct Ho as [Hp Ho].
  destruct (fourier_orders h d input target w F T W kw u m HF HT HW Hp Hy Hx Hs Hd Hz ltac:(lia) ltac:(lia)) as (M & d' & m' & HM & E & Ed & R & _ & Hi).
  exists M, d', m'. cbv zeta. split; [exact HM|]. split; [exact E|]. split; [exact R|]. split.
  - eapply field_is_ext; [|exact (Hi Zx Zy)]. intros p q Hpp Hq. cbv beta.
    assert (D := first_displaced d T W Hp Hy Hx Hs a b Hps Ho p q Hpp Hq).
    change (first d T W) with (first_order d (windowed d T W)) in D. rewrite D. reflexivity.
  - intros -> p q _ _. cbn [window_reads] in HW. exact (displaced_target _ _ _ _ T W p q Hy Hx HW).
Qed.
Lemma dark_spec h d input target w F T W kw u :
  full_input h (d_slm d) input F -> full_target h (d_slm d) target T -> window_reads h (d_slm d) w W -> d_p d <> 0 ->
  scaling_factor (d_slm d) <> 0 ->
  (exists i j, in_array d i j /\ F i j = RtoC 0 /\ windowed d T W i j <> RtoC 0) ->
  (exists g, calculate_dmd_state h d input target MIdeal w kw u = (with_state d (DFloat (s_Ny (d_slm d)) (s_Nx (d_slm d)) g), Ok (Fin 0)) /\
     forall i j, in_array d i j -> g i j = Fin 0 \/ g i j = NaN) /\
  (exists g, calculate_dmd_state h d input target MSimple w kw u = (with_state d (DBool (s_Ny (d_slm d)) (s_Nx (d_slm d)) g), Ok (Fin 0)) /\
     forall i j, in_array d i j -> g i j = false) /\
  ((forall i j, 0 <= u i j) ->
   exists g, calculate_dmd_state h d input target MRandom w kw u = (with_state d (DBool (s_Ny (d_slm d)) (s_Nx (d_slm d)) g), Ok (Fin 0)) /\
     forall i j, in_array d i j -> g i j = false).
Proof.
  intros HF HT HW Hp Hs (i0 & j0 & [I0 J0] & E0 & Hz).
  destruct (dark_hologram h d input target w F T W kw u HF HT HW Hp Hs) as ((g1 & G1 & V1) & (g2 & G2 & V2) & H3).
  { exists i0, j0. auto. }
  split; [|split].
  - exists g1. split; [exact G1|]. intros i j [Hi Hj]. auto.
  - exists g2. split; [exact G2|]. intros i j [Hi Hj]. auto.
  - intros Hu. destruct (H3 Hu) as (g3 & G3 & V3). exists g3. split; [exact G3|]. intros i j [Hi Hj]. auto.
Qed.
Lemma zero_spec h d input target w F T W kw u :
  full_input h (d_slm d) input F -> full_target h (d_slm d) target T -> window_reads h (d_slm d) w W -> d_p d <> 0 ->
  (0 < s_Ny (d_slm d))%nat -> (0 < s_Nx (d_slm d))%nat ->
  (forall i j, in_array d i j -> T i j = RtoC 0) ->
  (exists g, calculate_dmd_state h d input target MIdeal w kw u = (with_state d (DFloat (s_Ny (d_slm d)) (s_Nx (d_slm d)) g), Err ZeroDivisionError) /\
     forall i j, in_array d i j -> g i j = NaN) /\
  (exists g, calculate_dmd_state h d input target MSimple w kw u = (with_state d (DBool (s_Ny (d_slm d)) (s_Nx (d_slm d)) g), Err ZeroDivisionError) /\
     forall i j, in_array d i j -> g i j = false) /\
  (exists g, calculate_dmd_state h d input target MRandom w kw u = (with_state d (DBool (s_Ny (d_slm d)) (s_Nx (d_slm d)) g), Err ZeroDivisionError) /\
     forall i j, in_array d i j -> g i j = false).
Proof.
  intros HF HT HW Hp Hy Hx HZ.
  destruct (zero_hologram h d input target w F T W kw u HF HT HW Hp Hy Hx) as ((g1 & G1 & V1) & (g2 & G2 & V2) & (g3 & G3 & V3)).
  { intros i j Hi Hj. unfold windowed. rewrite <- spectrum_fp by assumption.
    rewrite fp_zero by (try assumption; intros; apply HZ; split; assumption). ring. }
  split; [|split].
  - exists g1. split; [exact G1|]. intros i j [Hi Hj]. auto.
  - exists g2. split; [exact G2|]. intros i j [Hi Hj]. auto.
  - exists g3. split; [exact G3|]. intros i j [Hi Hj]. auto.
Qed.

(** ** Gratings *)
Lemma ideal_spec h d amp pin pout A Pi Po kw u :
  reads h (d_slm d) amp A -> reads h (d_slm d) pin Pi -> reads h (d_slm d) pout Po -> d_p d <> 0 ->
  exists g, set_dmd_grating_state h d amp pin pout MIdeal kw u
      = (with_state d (DFloat (s_Ny (d_slm d)) (s_Nx (d_slm d)) (fun i j => g i j)), Ok tt) /\
    forall i j, in_array d i j -> exists r, g i j = Fin r /\
      (0 <= A i j <= 1 -> 0 <= r <= A i j) /\
      (RtoC r * cis (Pi i j) = RtoC (A i j / 2) * cis (Pi i j)
        + RtoC (A i j / 4) * cis (Po i j) * cis (- signed (d_neg d) (carrier d i j))
        + RtoC (A i j / 4) * cis (2 * Pi i j - Po i j) * cis (signed (d_neg d) (carrier d i j)))%C.
Proof.
  intros HA HI HO Hp. destruct (set_ideal h d amp pin pout A Pi Po HA HI HO Hp kw u) as (d' & g & E & -> & V).
  exists g. split; [exact E|]. intros i j [Hi Hj]. eexists. split; [apply V; assumption|]. split; [apply ideal_range|].
  unfold signed. destruct (d_neg d); [rewrite ideal_orders_neg, Ropp_involutive; reflexivity|apply ideal_orders].
Qed.
Lemma negative_order_negates h d amp pin pout pin' pout' A Pi Po kw u :
  reads h (d_slm d) amp A -> reads h (d_slm d) pin Pi -> reads h (d_slm d) pout Po ->
  reads h (d_slm d) pin' (fun i j => - Pi i j) -> reads h (d_slm d) pout' (fun i j => - Po i j) -> d_p d <> 0 ->
  let other := {| d_slm := d_slm d; d_p := d_p d; d_theta := d_theta d; d_neg := negb (d_neg d); d_state := d_state d |} in
  exists g g', set_dmd_grating_state h d amp pin pout MIdeal kw u = (with_state d (DFloat (s_Ny (d_slm d)) (s_Nx (d_slm d)) g), Ok tt) /\
    set_dmd_grating_state h other amp pin' pout' MIdeal kw u = (with_state other (DFloat (s_Ny (d_slm d)) (s_Nx (d_slm d)) g'), Ok tt) /\
    forall i j, in_array d i j -> g i j = g' i j.
Proof.
  intros HA HI HO HI' HO' Hp other.
  destruct (set_ideal h d amp pin pout A Pi Po HA HI HO Hp kw u) as (d' & g & E & -> & V).
  destruct (set_ideal h other amp pin' pout' A _ _ HA HI' HO' Hp kw u) as (d' & g' & E' & -> & V').
  exists g, g'. split; [exact E|]. split; [exact E'|]. intros i j [Hi Hj]. rewrite V, V' by assumption.
  change (carrier other i j) with (carrier d i j). cbn [other d_neg]. unfold signed. destruct (d_neg d); cbn [negb]; do 6 f_equal; ring.
Qed.
Lemma simple_spec h d amp pin pout A Pi Po kw u :
  reads h (d_slm d) amp A -> reads h (d_slm d) pin Pi -> reads h (d_slm d) pout Po -> d_p d <> 0 ->
  exists f g, set_dmd_grating_state h d amp pin pout MSimple kw u = (with_state d (DBool (s_Ny (d_slm d)) (s_Nx (d_slm d)) f), Ok tt) /\
    set_dmd_grating_state h d amp pin pout MIdeal kw u = (with_state d (DFloat (s_Ny (d_slm d)) (s_Nx (d_slm d)) g), Ok tt) /\
    forall i j, in_array d i j ->
      (exists r, g i j = Fin r /\ (f i j = true <-> 1 / 2 < r)) /\
      (A i j <= 1 / 2 -> f i j = false) /\
      (A i j = 1 -> (f i j = true <-> 0 < cos (carrier d i j - signed (d_neg d) (Po i j - Pi i j)))).
Proof.
  intros HA HI HO Hp. destruct (set_ideal h d amp pin pout A Pi Po HA HI HO Hp kw u) as (d' & g & E & -> & V).
  destruct (set_simple h d amp pin pout A Pi Po HA HI HO Hp kw u) as (d' & f & E' & -> & V').
  exists f, g. split; [exact E'|]. split; [exact E|]. intros i j [Hi Hj]. specialize (V' i j Hi Hj). split; [|split].
  - eexists. split; [apply V; assumption|exact V'].
  - intros H. destruct (f i j); [|reflexivity]. destruct (simple_dark _ _ H (proj1 V' eq_refl)).
  - intros H. rewrite H in V'. rewrite V'. apply simple_full.
Qed.
(** Half a period around the carrier maximum. *)
Lemma half_period t q : folded t q -> (0 < cos t <-> q < PI / 2).
Proof.
  intros Hf. assert (E := folded_unique t q _ Hf (folded_acos t)). assert (B := COS_bound t). assert (Eq : cos q = cos t) by (rewrite E; apply cos_acos; lra).
  destruct Hf as [Hq _]. rewrite <- Eq. assert (P := PI_RGT_0). split; intros H.
  - destruct (Rlt_or_le q (PI / 2)) as [L|L]; [exact L|]. assert (cos q <= 0); [|lra]. apply cos_le_0; lra.
  - apply cos_gt_0; lra.
Qed.
Lemma random_spec h d amp pin pout A Pi Po kw u :
  reads h (d_slm d) amp A -> reads h (d_slm d) pin Pi -> reads h (d_slm d) pout Po -> d_p d <> 0 -> 0 < dflt (k_r kw) 10 ->
  exists f, set_dmd_grating_state h d amp pin pout MRandom kw u = (with_state d (DBool (s_Ny (d_slm d)) (s_Nx (d_slm d)) f), Ok tt) /\
   forall i j, in_array d i j ->
    (0 <= A i j <= 1 -> exists q, folded (carrier d i j - signed (d_neg d) (Po i j - Pi i j)) q /\
       let g := duty (dflt (k_r kw) 10) q (A i j) in
       (f i j = true <-> u i j < g) /\ 0 <= g < 1 /\ is_RInt (fun u => if Rlt_dec u g then 1 else 0) 0 1 g) /\
    (A i j = 0 -> 0 <= u i j -> f i j = false) /\
    (A i j < - (1) \/ 1 < A i j -> f i j = false).
Proof.
  intros HA HI HO Hp Hr. destruct (set_random_mirrors h d amp pin pout A Pi Po kw u HA HI HO Hp) as (f & E & V).
  exists f. split; [exact E|]. intros i j [Hi Hj]. destruct (V i j Hi Hj) as [V1 V2]. split; [|split; [|exact V2]].
  - intros Ha. destruct (V1 Ha) as (q & Hq & Hf). exists q. split; [exact Hq|]. cbv zeta.
    assert (D := duty_range (dflt (k_r kw) 10) q (A i j) Hr Ha). split; [exact Hf|]. split; [exact D|]. apply indicator_integral. lra.
  - intros Ha Hu. destruct (V1 ltac:(lra)) as (q & _ & Hf). rewrite Ha, duty_zero in Hf. destruct (f i j); [|reflexivity]. assert (L := proj1 Hf eq_refl). lra.
Qed.

(** ** Patches *)
Lemma ideal_patch_cells h d ci cj amp pin pout diam kw u A Pi Po :
  reads h (d_slm d) amp A -> reads h (d_slm d) pin Pi -> reads h (d_slm d) pout Po -> d_p d <> 0 ->
  state_shape (d_state d) = (s_Ny (d_slm d), s_Nx (d_slm d)) ->
  exists d', circular_patch h d ci cj amp pin pout diam MIdeal kw u = (d', Ok tt) /\
    forall i j, in_array d i j -> pixel_distance ci cj i j < Rabs diam / 2 ->
    let r := A i j * (cos (carrier d i j - signed (d_neg d) (Po i j - Pi i j)) / 2 + 1 / 2) in
    (is_bool_state (d_state d) = false -> cell_at (d_state d') i j = CFloat (Fin r)) /\
    (is_bool_state (d_state d) = true -> exists b, cell_at (d_state d') i j = CBool b /\ (b = true <-> r <> 0)).
Proof.
  intros HA HI HO Hp Hs. destruct (set_ideal h d amp pin pout A Pi Po HA HI HO Hp kw u) as (d2 & g & E & -> & V).
  destruct (patch_ok h d ci cj amp pin pout diam MIdeal kw u _ E Hs eq_refl) as (d' & P). exists d'. split; [exact P|].
  intros i j [Hi Hj] Hin r. destruct (patch_spec _ _ _ _ _ _ _ _ _ _ _ _ P) as (d3 & E3 & _ & _ & _ & _ & VP).
  destruct (VP i j Hi Hj) as [VP1 _]. specialize (VP1 Hin). rewrite E in E3. injection E3 as <-. cbn [d_state with_state cell_at] in VP1.
  rewrite V in VP1 by assumption. rewrite VP1. fold r. split; intros Hb; rewrite Hb; cbn [cell_as].
  - reflexivity.
  - eexists. split; [reflexivity|]. destruct (Req_EM_T r 0); split; congruence.
Qed.
