(** Moving the target and moving the first-order origin (C93). *)
From Coq Require Import Reals Lra ZArith Arith List Bool Lia.
From Coquelicot Require Import Complex.
From Verif Require Import Cx Sums DFT PyBase ProfileModel SlmModel LibModel DmdModel SimModel SimSpec DmdSpec DmdFacts DmdFacts2 DmdFacts3 RandomFacts OriginFacts AmpFacts AmpFacts2 AmpFacts3 AmpFacts4 AmpFacts5 DmdThms PhaseFacts IftaFacts SimFacts SimFacts2 SimFacts5.
Open Scope R_scope.

(** Phase of the spectrum caused by a displacement of the target. *)
Definition ramp (ny nx : nat) (a b : Z) (i j : nat) : R := 2 * PI * (IZR a * (INR j - INR nx / 2) / INR nx + IZR b * (INR ny / 2 - INR i) / INR ny).
Lemma spectrum_displaced ny nx T a b i j : (i < ny)%nat -> (j < nx)%nat ->
  spectrum_of ny nx (fun u v => (half_pixel_phase ny nx a b * displaced ny nx a b T u v)%C) i j = (cis (- ramp ny nx a b i j) * spectrum_of ny nx T i j)%C.
Proof.
  intros Hi Hj.
  rewrite (spectrum_of_ext ny nx _ (image_of ny nx (fun i j => (spectrum_of ny nx T i j * cis (- ramp ny nx a b i j))%C))).
  - rewrite spectrum_of_image by assumption. ring.
  - intros u v Hu Hv. rewrite (image_of_carrier ny nx _ (ramp ny nx a b) a b) by (assumption || reflexivity). f_equal. symmetry.
    unfold displaced. apply image_of_spectrum; apply Nat2Z.inj_lt; rewrite Z2Nat.id by (apply Z.mod_pos_bound; lia); apply Z.mod_pos_bound; lia.
Qed.
Lemma windowed_displaced d T W a b i j : in_array d i j ->
  windowed d (fun u v => (half_pixel_phase (s_Ny (d_slm d)) (s_Nx (d_slm d)) a b * displaced (s_Ny (d_slm d)) (s_Nx (d_slm d)) a b T u v)%C) W i j
  = (cis (- ramp (s_Ny (d_slm d)) (s_Nx (d_slm d)) a b i j) * windowed d T W i j)%C.
Proof. intros [Hi Hj]. unfold windowed. rewrite spectrum_displaced by assumption. ring. Qed.
Lemma carrier_moved d e a b : d_slm e = d_slm d -> d_neg e = d_neg d -> d_p d <> 0 -> d_p e <> 0 -> scaling_factor (d_slm d) <> 0 -> pixel_size (d_slm d) <> 0 ->
  (0 < s_Ny (d_slm d))%nat -> (0 < s_Nx (d_slm d))%nat ->
  origin_of e = (fst (origin_of d) + signed (d_neg d) (IZR a * image_pitch_x (d_slm d)), snd (origin_of d) + signed (d_neg d) (IZR b * image_pitch_y (d_slm d))) ->
  forall i j, carrier e i j = carrier d i j + signed (d_neg d) (ramp (s_Ny (d_slm d)) (s_Nx (d_slm d)) a b i j).
Proof.
  intros Es En Hp He Hs Hps Hy Hx H i j. unfold origin_of, image_pitch_x, image_pitch_y in H. cbn [fst snd] in H. rewrite Es in H.
  assert (Ny0 : INR (s_Ny (d_slm d)) <> 0) by (apply INR_neq_0; exact Hy). assert (Nx0 : INR (s_Nx (d_slm d)) <> 0) by (apply INR_neq_0; exact Hx).
  injection H as H1 H2. unfold carrier, mirror_x, mirror_y, ramp. rewrite Es.
  set (S := scaling_factor (d_slm d)) in *. set (ps := pixel_size (d_slm d)) in *. set (p := d_p d) in *. set (pe := d_p e) in *.
  set (X := INR (s_Nx (d_slm d))) in *. set (Y := INR (s_Ny (d_slm d))) in *.
  assert (E1 : cos (d_theta e) = (cos (d_theta d) / p + signed (d_neg d) (IZR a / (X * ps))) * pe).
  { transitivity (cos (d_theta e) * S / pe * pe / S); [field; auto|]. rewrite H1. unfold signed. destruct (d_neg d); field; auto. }
  assert (E2 : sin (d_theta e) = (sin (d_theta d) / p + signed (d_neg d) (IZR b / (Y * ps))) * pe).
  { transitivity (sin (d_theta e) * S / pe * pe / S); [field; auto|]. rewrite H2. unfold signed. destruct (d_neg d); field; auto. }
  rewrite E1, E2. unfold signed. destruct (d_neg d); field; auto.
Qed.

Section Move.
Variables (h : heap) (d e : dmd) (input target target' : parg) (w : option parg) (F T W : nat -> nat -> C) (kw : kwargs) (u : nat -> nat -> R) (a b : Z).
Let ny := s_Ny (d_slm d). Let nx := s_Nx (d_slm d).
Hypotheses (Es : d_slm e = d_slm d) (En : d_neg e = d_neg d) (HF : full_input h (d_slm d) input F) (HT : full_target h (d_slm d) target T)
  (HW : window_reads h (d_slm d) w W) (Hp : d_p d <> 0) (He : d_p e <> 0) (Hy : (0 < ny)%nat) (Hx : (0 < nx)%nat)
  (Hs : scaling_factor (d_slm d) <> 0) (Hps : pixel_size (d_slm d) <> 0)
  (Hd : forall i j, in_array d i j -> F i j = RtoC 0 -> windowed d T W i j = RtoC 0)
  (Hl : exists i j, in_array d i j /\ windowed d T W i j <> RtoC 0)
  (HO : origin_of e = (fst (origin_of d) + signed (d_neg d) (IZR a * image_pitch_x (d_slm d)), snd (origin_of d) + signed (d_neg d) (IZR b * image_pitch_y (d_slm d))))
  (HT' : full_target h (d_slm d) target' (fun i j => (half_pixel_phase ny nx a b * displaced ny nx a b T i j)%C)).
Let S := windowed d T W.
Let T' := fun i j => (half_pixel_phase ny nx a b * displaced ny nx a b T i j)%C.
Lemma moved_zero i j : in_array d i j -> windowed d T' W i j = RtoC 0 <-> S i j = RtoC 0.
Proof. intros Hij. unfold T', ny, nx. rewrite windowed_displaced by exact Hij. apply turn_zero. Qed.
Lemma moved_amp i j : in_array d i j -> Cmod (windowed d T' W i j) = Cmod (S i j).
Proof. intros Hij. unfold T', ny, nx. rewrite windowed_displaced by exact Hij. apply Cmod_turn. Qed.
Lemma moved_cos i j : in_array d i j -> S i j <> RtoC 0 ->
  cos (carrier d i j - signed (d_neg d) (phase_of (windowed d T' W i j) - carg (F i j))) = cos (carrier e i j - signed (d_neg e) (phase_of (S i j) - carg (F i j))).
Proof.
  intros Hij Hz. assert (Hf : F i j <> RtoC 0) by (intros E; apply Hz; apply Hd; assumption).
  rewrite (carrier_moved d e a b Es En Hp He Hs Hps Hy Hx HO), En. fold ny nx.
  assert (P := phase_turn 0 (- ramp ny nx a b i j) (S i j) (F i j) Hz Hf). rewrite cis_0, Cmult_1_l in P.
  unfold T', ny, nx. rewrite windowed_displaced by exact Hij. fold ny nx S.
  rewrite (cos_of_cis _ _ _ (cis_signed (d_neg d) _ _ P)). f_equal. unfold signed. destruct (d_neg d); ring.
Qed.
Lemma carrier_case : in_array e = in_array d /\ forall i j, windowed e T W i j = windowed d T W i j.
Proof. unfold windowed, in_array. rewrite Es. split; reflexivity. Qed.
Theorem moved :
  exists eta, (forall m, m = MIdeal \/ m = MSimple \/ m = MRandom ->
    snd (calculate_dmd_state h d input target' m w kw u) = Ok (Fin eta) /\ snd (calculate_dmd_state h e input target m w kw u) = Ok (Fin eta) /\
    same_state (d_state (fst (calculate_dmd_state h d input target' m w kw u))) (d_state (fst (calculate_dmd_state h e input target m w kw u)))) /\
  (forall wi V, k_window kw = Some wi -> full_target h (d_slm d) wi V ->
    snd (calculate_dmd_state h d input target' MIfta w kw u) = Ok (Fin eta) /\ snd (calculate_dmd_state h e input target MIfta w kw u) = Ok (Fin eta) /\
    same_state (d_state (fst (calculate_dmd_state h d input target' MIfta w kw u))) (d_state (fst (calculate_dmd_state h e input target MIfta w kw u)))).
Proof.
  destruct Hl as (i0 & j0 & Hij0 & L0). destruct carrier_case as [Ea Ew].
  assert (HFe : full_input h (d_slm e) input F) by (rewrite Es; exact HF). assert (HTe : full_target h (d_slm e) target T) by (rewrite Es; exact HT).
  assert (HWe : window_reads h (d_slm e) w W) by (rewrite Es; exact HW).
  destruct (hologram_spec h e input target w F T W kw u HFe HTe HWe He ltac:(rewrite Es; exact Hy) ltac:(rewrite Es; exact Hx) ltac:(rewrite Es; exact Hs)) as (M & HM & P1 & (i1 & j1 & Q1 & R1) & (g1 & G1 & V1) & (g2 & G2 & V2) & (g3 & G3 & V3)).
  { rewrite Ea. intros i j Hij E. rewrite Ew. apply Hd; assumption. }
  { rewrite Ea. exists i0, j0. rewrite Ew. auto. }
  destruct (hologram_spec h d input target' w F T' W kw u HF HT' HW Hp Hy Hx Hs) as (M' & HM' & P1' & (i1' & j1' & Q1' & R1') & (g1' & G1' & V1') & (g2' & G2' & V2') & (g3' & G3' & V3')).
  { intros i j Hij E. apply moved_zero; [exact Hij|]. apply Hd; assumption. }
  { exists i0, j0. split; [exact Hij0|]. intros E. apply moved_zero in E; [contradiction|exact Hij0]. }
  cbv zeta in *. rewrite Ea in P1, Q1, V1, V2, V3.
  assert (AE : forall i j, in_array d i j -> Cmod (windowed d T' W i j) / Cmod (F i j) = Cmod (S i j) / Cmod (F i j)).
  { intros i j Hij. rewrite moved_amp by exact Hij. reflexivity. }
  assert (EM : M' = M).
  { assert (U := P1 i1' j1' Q1'). assert (U' := P1' i1 j1 Q1). rewrite Ew in U, R1. fold (S i1 j1) in R1. fold (S i1' j1') in U. rewrite AE in U', R1' by assumption.
    exact (max_unique _ _ M M' HM HM' R1 R1' (proj2 U) (proj2 U')). }
  subst M'.
  assert (LV : forall i j, in_array d i j -> Cmod (windowed d T' W i j) / Cmod (F i j) / M * (cos (carrier d i j - signed (d_neg d) (phase_of (windowed d T' W i j) - carg (F i j))) / 2 + 1 / 2)
     = Cmod (windowed e T W i j) / Cmod (F i j) / M * (cos (carrier e i j - signed (d_neg e) (phase_of (windowed e T W i j) - carg (F i j))) / 2 + 1 / 2)).
  { intros i j Hij. rewrite (AE i j Hij), Ew. fold (S i j). destruct (C_dec0 (S i j)) as [Z|Z]; [rewrite Z, Cmod_0; unfold Rdiv; ring|]. rewrite moved_cos by assumption. reflexivity. }
  exists (eta_scale (d_slm d) / M). split.
  - intros m [->|[->| ->]].
    + rewrite G1, G1'. split; [reflexivity|]. rewrite Es. split; [reflexivity|]. split; [reflexivity|]. split; [reflexivity|].
      intros i j Hi Hj. cbn [fst d_state with_state cell_at]. cbn [state_shape fst snd d_state with_state] in Hi, Hj. assert (Hij : in_array d i j) by (split; assumption). f_equal.
      rewrite V1, V1' by exact Hij. f_equal. apply LV. exact Hij.
    + rewrite G2, G2'. split; [reflexivity|]. rewrite Es. split; [reflexivity|]. split; [reflexivity|]. split; [reflexivity|].
      intros i j Hi Hj. cbn [fst d_state with_state cell_at]. cbn [state_shape fst snd d_state with_state] in Hi, Hj. assert (Hij : in_array d i j) by (split; assumption). f_equal.
      apply eq_true_iff_eq. rewrite V2, V2' by exact Hij. rewrite LV by exact Hij. tauto.
    + rewrite G3, G3'. split; [reflexivity|]. rewrite Es. split; [reflexivity|]. split; [reflexivity|]. split; [reflexivity|].
      intros i j Hi Hj. cbn [fst d_state with_state cell_at]. cbn [state_shape fst snd d_state with_state] in Hi, Hj. assert (Hij : in_array d i j) by (split; assumption). f_equal.
      apply eq_true_iff_eq. destruct (V3 i j Hij) as (q & Fq & Vq). destruct (V3' i j Hij) as (q' & Fq' & Vq'). rewrite Vq, Vq', AE by exact Hij. rewrite Ew in Fq |- *. fold (S i j) in Fq |- *.
      destruct (C_dec0 (S i j)) as [Z|Z].
      * rewrite Z, Cmod_0. replace (0 / Cmod (F i j) / M) with 0 by (unfold Rdiv; ring). unfold duty. rewrite asin_0, !Rplus_0_r, !Rminus_0_r.
        replace (_ - _) with 0 by ring. replace (tanh (dflt (k_r kw) 10 * q) - tanh (dflt (k_r kw) 10 * q)) with 0 by ring. tauto.
      * rewrite (folded_cos _ _ q' q Fq' Fq); [tauto|]. apply moved_cos; assumption.
  - intros wi V Hk HV. assert (HVe : full_target h (d_slm e) wi V) by (rewrite Es; exact HV).
    destruct (calc_ifta h d input target' w F _ W V kw wi u HF HT' HW Hp Hk HV) as (g & r & C1 & C2).
    destruct (calc_ifta h e input target w F T W V kw wi u HFe HTe HWe He Hk HVe) as (g' & r' & C1' & C2').
    rewrite C2, C2'. rewrite G1' in C1. rewrite G1 in C1'. injection C1 as Eg Er. injection C1' as Eg' Er'. subst g g' r r'. rewrite Es.
    split; [reflexivity|]. split; [reflexivity|]. split; [reflexivity|]. split; [reflexivity|].
    intros i j Hi Hj. cbn [fst d_state with_state cell_at]. cbn [state_shape fst snd d_state with_state] in Hi, Hj. f_equal.
    apply eq_true_iff_eq.
    rewrite (array_some _ _ F V g1' _ _ _ i j (fun i j Hi Hj => V1' i j (conj Hi Hj)) Hi Hj).
    rewrite (array_some _ _ F V g1 (fun i j => Cmod (windowed d T' W i j) / Cmod (F i j) / M * (cos (carrier d i j - signed (d_neg d) (phase_of (windowed d T' W i j) - carg (F i j))) / 2 + 1 / 2)) _ _ i j); [tauto| |exact Hi|exact Hj].
    intros k l Hk' Hl'. rewrite V1 by (split; assumption). f_equal. symmetry. apply LV. split; assumption.
Qed.
End Move.

(** ** Grey states (C94) *)
Lemma shows_state d q : shows d q -> exists S, full_state (DevDmd d) S /\ forall i j, in_array d i j -> S i j = RtoC (q i j).
Proof.
  intros [HS HC]. destruct (d_state d) as [a b g|a b g] eqn:E; cbn [state_shape cell_at] in HS, HC; injection HS as -> ->.
  - exists (fun i j => RtoC (if g i j then 1 else 0)). split; [apply state_bool; exact E|]. intros i j Hij.
    destruct (HC i j Hij) as [K|(b & K & ->)]; [discriminate|]. injection K as ->. reflexivity.
  - exists (fun i j => RtoC (xr_val (g i j))).
    assert (V : forall i j, in_array d i j -> g i j = Fin (q i j)).
    { intros i j Hij. destruct (HC i j Hij) as [K|(c & K & _)]; [injection K as ->; reflexivity|discriminate]. }
    split.
    + apply (state_float_in d (s_Ny (d_slm d)) (s_Nx (d_slm d)) g q E eq_refl eq_refl). intros i j Hi Hj. apply V. split; assumption.
    + intros i j Hij. rewrite V by exact Hij. reflexivity.
Qed.
Lemma states_linear h d1 d2 d3 m input F q1 q2 q3 x y : let s := d_slm d3 in
  d_slm d1 = s -> d_slm d2 = s -> full_input h s input F -> shows d1 q1 -> shows d2 q2 -> shows d3 q3 ->
  (forall i j, in_array d3 i j -> q3 i j = x * q1 i j + y * q2 i j) ->
  (0 <= pad_x m)%Z -> (0 <= pad_y m)%Z -> scaling_factor s <> 0 ->
  exists n1 n2 n3 I1 I2 I3, propagate_to_image h (DevDmd d1) m input = (n1, Ok tt) /\ propagate_to_image h (DevDmd d2) m input = (n2, Ok tt) /\
    propagate_to_image h (DevDmd d3) m input = (n3, Ok tt) /\
    field_is (f_image n1) (NY s m) (NX s m) I1 /\ field_is (f_image n2) (NY s m) (NX s m) I2 /\ field_is (f_image n3) (NY s m) (NX s m) I3 /\
    forall u v, (u < NY s m)%nat -> (v < NX s m)%nat -> (I3 u v = RtoC x * I1 u v + RtoC y * I2 u v)%C.
Proof.
  intros s E1 E2 HF H1 H2 H3 HL Hx Hy Hs.
  destruct (shows_state d1 q1 H1) as (S1 & A1 & B1). destruct (shows_state d2 q2 H2) as (S2 & A2 & B2). destruct (shows_state d3 q3 H3) as (S3 & A3 & B3).
  assert (HF1 : full_input h (d_slm d1) input F) by (rewrite E1; exact HF). assert (HF2 : full_input h (d_slm d2) input F) by (rewrite E2; exact HF).
  destruct (propagate_succeeds h (DevDmd d1) m input F S1 HF1 A1 Hy Hx ltac:(cbn [dev_slm]; rewrite E1; exact Hs)) as (n1 & P1).
  destruct (propagate_succeeds h (DevDmd d2) m input F S2 HF2 A2 Hy Hx ltac:(cbn [dev_slm]; rewrite E2; exact Hs)) as (n2 & P2).
  destruct (propagate_succeeds h (DevDmd d3) m input F S3 HF A3 Hy Hx Hs) as (n3 & P3).
  destruct (propagate_inv h (DevDmd d1) m input F S1 n1 HF1 A1 P1) as (_ & _ & _ & _ & _ & _ & _ & Hi1). cbn [dev_slm] in Hi1. rewrite E1 in Hi1.
  destruct (propagate_inv h (DevDmd d2) m input F S2 n2 HF2 A2 P2) as (_ & _ & _ & _ & _ & _ & _ & Hi2). cbn [dev_slm] in Hi2. rewrite E2 in Hi2.
  destruct (propagate_inv h (DevDmd d3) m input F S3 n3 HF A3 P3) as (_ & _ & _ & _ & _ & _ & _ & Hi3). cbn [dev_slm] in Hi3. fold s in Hi3.
  exists n1, n2, n3. do 3 eexists. split; [exact P1|]. split; [exact P2|]. split; [exact P3|]. split; [exact Hi1|]. split; [exact Hi2|]. split; [exact Hi3|].
  intros u v Hu Hv.
  refine (states_combine h h h (DevDmd d1) (DevDmd d2) (DevDmd d3) m input input input F F F S1 S2 S3 (RtoC x) (RtoC y) n1 n2 n3 _ _ _ E1 E2 HF HF HF A1 A2 A3 _ P1 P2 P3 Hi1 Hi2 Hi3 u v Hu Hv).
  cbn [dev_slm]. fold s. intros i j Hi Hj. rewrite B1 by (unfold in_array; rewrite E1; split; assumption). rewrite B2 by (unfold in_array; rewrite E2; split; assumption).
  rewrite B3 by (split; assumption). rewrite HL by (split; assumption). rewrite RtoC_plus, !RtoC_mult. ring.
Qed.
Lemma dimmed h d m input F q c : full_input h (d_slm d) input F -> shows d q ->
  (0 <= pad_x m)%Z -> (0 <= pad_y m)%Z -> scaling_factor (d_slm d) <> 0 -> (0 < s_Nx (d_slm d))%nat -> (0 < s_Ny (d_slm d))%nat -> pixel_size (d_slm d) <> 0 ->
  let e := with_state d (DFloat (s_Ny (d_slm d)) (s_Nx (d_slm d)) (fun i j => Fin (c * q i j))) in
  exists n n' pin pout, propagate_to_image h (DevDmd d) m input = (n, Ok tt) /\ propagate_to_image h (DevDmd e) m input = (n', Ok tt) /\
    get_input_power (d_slm d) n = Ok pin /\ get_output_power (d_slm d) n = Ok pout /\ get_image_plane_power (d_slm d) n = Ok pout /\
    get_input_power (d_slm d) n' = Ok pin /\ get_output_power (d_slm d) n' = Ok (c ^ 2 * pout) /\ get_image_plane_power (d_slm d) n' = Ok (c ^ 2 * pout).
Proof.
  intros HF H Hx Hy Hs Nx Ny Hps e. destruct (shows_state d q H) as (S & A & B).
  assert (A' := state_float e (fun i j => c * q i j) eq_refl).
  destruct (propagate_succeeds h (DevDmd d) m input F S HF A Hy Hx Hs) as (n & P).
  destruct (propagate_succeeds h (DevDmd e) m input F _ HF A' Hy Hx Hs) as (n' & P').
  destruct (powers_after h (DevDmd d) m input F S n HF A P Nx Ny Hps) as (W1 & W2 & W3).
  destruct (powers_after h (DevDmd e) m input F _ n' HF A' P' Nx Ny Hps) as (W1' & W2' & W3').
  cbn [dev_slm] in W1, W2, W3. change (dev_slm (DevDmd e)) with (d_slm d) in W1', W2', W3'.
  assert (EQ : power_of (pixel_size (d_slm d) ^ 2) (s_Ny (d_slm d)) (s_Nx (d_slm d)) (fun i j => (F i j * RtoC (c * q i j))%C)
    = c ^ 2 * power_of (pixel_size (d_slm d) ^ 2) (s_Ny (d_slm d)) (s_Nx (d_slm d)) (fun i j => (F i j * S i j)%C)).
  { unfold power_of. rewrite !rsum2_Cmod. rewrite <- Rmult_assoc, (Rmult_comm (c ^ 2)), Rmult_assoc. f_equal. rewrite <- rsum2_scal_l. apply rsum2_ext. intros i j Hi Hj.
    rewrite B by (split; assumption). rewrite !cnorm2_mult, !cnorm2_RtoC. ring. }
  rewrite EQ in W2', W3'. exists n, n'. do 2 eexists. repeat split; eassumption.
Qed.
Lemma moved_origin h d e input target target' w F T W kw u a b x y :
  let ny := s_Ny (d_slm d) in let nx := s_Nx (d_slm d) in
  d_slm e = d_slm d -> d_neg e = d_neg d ->
  full_input h (d_slm d) input F -> full_target h (d_slm d) target T -> window_reads h (d_slm d) w W ->
  (0 < ny)%nat -> (0 < nx)%nat -> scaling_factor (d_slm d) <> 0 -> pixel_size (d_slm d) <> 0 ->
  (forall i j, in_array d i j -> F i j = RtoC 0 -> windowed d T W i j = RtoC 0) ->
  (exists i j, in_array d i j /\ windowed d T W i j <> RtoC 0) ->
  first_order_origin d = (Fin x, Fin y) ->
  first_order_origin e = (Fin (x + signed (d_neg d) (IZR a * image_pitch_x (d_slm d))), Fin (y + signed (d_neg d) (IZR b * image_pitch_y (d_slm d)))) ->
  full_target h (d_slm d) target' (fun i j => (half_pixel_phase ny nx a b * displaced ny nx a b T i j)%C) ->
  exists eta, (forall m, m = MIdeal \/ m = MSimple \/ m = MRandom ->
    snd (calculate_dmd_state h d input target' m w kw u) = Ok (Fin eta) /\ snd (calculate_dmd_state h e input target m w kw u) = Ok (Fin eta) /\
    same_state (d_state (fst (calculate_dmd_state h d input target' m w kw u))) (d_state (fst (calculate_dmd_state h e input target m w kw u)))) /\
  (forall wi V, k_window kw = Some wi -> full_target h (d_slm d) wi V ->
    snd (calculate_dmd_state h d input target' MIfta w kw u) = Ok (Fin eta) /\ snd (calculate_dmd_state h e input target MIfta w kw u) = Ok (Fin eta) /\
    same_state (d_state (fst (calculate_dmd_state h d input target' MIfta w kw u))) (d_state (fst (calculate_dmd_state h e input target MIfta w kw u)))).
Proof.
  intros ny nx Es En HF HT HW Hy Hx Hs Hps Hd Hl O1 O2 HT'. destruct (origin_inv d _ _ O1) as [Hp E1]. destruct (origin_inv e _ _ O2) as [He E2].
  refine (moved h d e input target target' w F T W kw u a b Es En HF HT HW Hp He Hy Hx Hs Hps Hd Hl _ HT').
  rewrite E2, E1. reflexivity.
Qed.
