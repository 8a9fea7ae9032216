(** The simulated field of an ideal hologram (C36). *)
From Coq Require Import Reals Lra ZArith Arith List Bool Lia FunctionalExtensionality.
From Coquelicot Require Import Complex.
From Verif Require Import Cx Sums DFT PyBase ProfileModel SlmModel LibModel DmdModel OriginFacts SimModel SimSpec GridFacts SimFacts SimFacts2 DmdSpec DmdFacts DmdFacts2 DmdFacts3 RandomFacts AmpFacts AmpFacts2 AmpFacts3.
Import ListNotations.
Open Scope R_scope.

Lemma phase_polar (z : C) : z = (RtoC (Cmod z) * cis (phase_of z))%C.
Proof. unfold phase_of. destruct (C_dec0 z) as [->|H]; [rewrite Cmod_0; ring|apply polar]. Qed.
Lemma conj_polar (z : C) : cconj z = (RtoC (Cmod z) * cis (- phase_of z))%C.
Proof. rewrite (phase_polar z) at 1. rewrite cconj_mult, cconj_RtoC, cis_neg. reflexivity. Qed.
(** One mirror: [z] spectrum, [f] input field, both orders. *)
Lemma mirror_orders (z f : C) M g neg : 0 < M -> (f = RtoC 0 -> z = RtoC 0) ->
  (f * RtoC (Cmod z / Cmod f / M * (cos (g - signed neg (phase_of z - carg f)) / 2 + 1 / 2)))%C =
  (RtoC (/ M / 2) * (RtoC (Cmod z) * unit_of f) + RtoC (/ M / 4) * (z * cis (- signed neg g))
   + RtoC (/ M / 4) * (cconj z * (unit_of f * unit_of f) * cis (signed neg g)))%C.
Proof.
  intros HM Hd. destruct (C_dec0 f) as [E|E].
  - rewrite (Hd E), E, cconj_RtoC, Cmod_0. unfold Rdiv. rewrite !Rmult_0_l. ring.
  - assert (Hf : Cmod f <> 0) by (intros H; apply E, Cmod_eq_0, H).
    set (A := Cmod z / Cmod f / M). rewrite (polar f) at 1. unfold unit_of. set (pi := carg f). set (po := phase_of z).
    assert (EA : Cmod f * A = Cmod z * / M) by (unfold A; field; split; lra).
    transitivity (RtoC (Cmod f) * (RtoC (A * (cos (g - signed neg (po - pi)) / 2 + 1 / 2)) * cis pi))%C; [ring|].
    assert (E3 : (RtoC (A * (cos (g - signed neg (po - pi)) / 2 + 1 / 2)) * cis pi)%C =
       (RtoC (A / 2) * cis pi + RtoC (A / 4) * cis po * cis (- signed neg g) + RtoC (A / 4) * cis (2 * pi - po) * cis (signed neg g))%C).
    { unfold signed. destruct neg; [rewrite ideal_orders_neg, Ropp_involutive; reflexivity|apply ideal_orders]. }
    rewrite E3. rewrite conj_polar. rewrite (phase_polar z) at 2. fold po.
    replace (2 * pi - po) with (pi + pi + - po) by ring. rewrite !cis_plus.
    transitivity (RtoC (Cmod f * A / 2) * cis pi + RtoC (Cmod f * A / 4) * cis po * cis (- signed neg g)
      + RtoC (Cmod f * A / 4) * (cis pi * cis pi * cis (- po)) * cis (signed neg g))%C.
    { unfold Rdiv. rewrite !RtoC_mult. ring. }
    rewrite EA. unfold Rdiv. rewrite !RtoC_mult. ring.
Qed.
Lemma image_of_lin3 ny nx (a b c : C) E1 E2 E3 u v :
  image_of ny nx (fun i j => (a * E1 i j + b * E2 i j + c * E3 i j)%C) u v =
  (a * image_of ny nx E1 u v + b * image_of ny nx E2 u v + c * image_of ny nx E3 u v)%C.
Proof.
  unfold image_of.
  rewrite (csum2_ext ny nx _ (fun i j => (a * (E1 i j * wave ny nx i j u v) + b * (E2 i j * wave ny nx i j u v)) + c * (E3 i j * wave ny nx i j u v))%C) by (intros; ring).
  rewrite !csum2_plus, !csum2_scal_l. unfold Cdiv. ring.
Qed.
Lemma state_float_in d ny nx g G : d_state d = DFloat ny nx g -> ny = s_Ny (d_slm d) -> nx = s_Nx (d_slm d) ->
  (forall i j, (i < ny)%nat -> (j < nx)%nat -> g i j = Fin (G i j)) -> full_state (DevDmd d) (fun i j => RtoC (xr_val (g i j))).
Proof.
  intros E Ey Ex V. unfold full_state, state_tensor. cbn [dev_slm]. rewrite E.
  rewrite allb2_true; [rewrite Ey, Ex; reflexivity|]. intros i j Hi Hj. rewrite V by assumption. reflexivity.
Qed.
Lemma pad_zero s m f i j : pad_x m = 0%Z -> pad_y m = 0%Z -> (i < s_Ny s)%nat -> (j < s_Nx s)%nat -> pad_of s m f i j = f i j.
Proof.
  intros Hx Hy Hi Hj. unfold pad_of, pad_fun. rewrite Hx, Hy. cbn [Z.to_nat].
  replace (Nat.leb 0 i && Nat.ltb i (0 + s_Ny s) && Nat.leb 0 j && Nat.ltb j (0 + s_Nx s))%bool with true.
  - rewrite !Nat.sub_0_r. reflexivity.
  - symmetry. rewrite !andb_true_iff, !Nat.leb_le, !Nat.ltb_lt. lia.
Qed.
Section Sim.
Variables (h : heap) (d : dmd) (input target : parg) (w : option parg) (F T W : nat -> nat -> C) (kw : kwargs) (u : nat -> nat -> R).
Let s := d_slm d. Let ny := s_Ny (d_slm d). Let nx := s_Nx (d_slm d).
Hypothesis (HF : full_input h (d_slm d) input F) (HT : full_target h (d_slm d) target T) (HW : window_reads h (d_slm d) w W) (Hp : d_p d <> 0).
Hypothesis (Hny : (0 < ny)%nat) (Hnx : (0 < nx)%nat) (Hsf : scaling_factor (d_slm d) <> 0).
Let S := windowed d T W.
Hypothesis (Hdark : forall i j, (i < ny)%nat -> (j < nx)%nat -> F i j = RtoC 0 -> S i j = RtoC 0).
Hypothesis (HS : exists i j, (i < ny)%nat /\ (j < nx)%nat /\ S i j <> RtoC 0).
(** Zeroth order, first order and conjugate order in the Fourier plane. *)
Definition zeroth (i j : nat) : C := (RtoC (Cmod (S i j)) * unit_of (F i j))%C.
Definition first (i j : nat) : C := (S i j * cis (- signed (d_neg d) (carrier d i j)))%C.
Definition conj_order (i j : nat) : C := (cconj (S i j) * (unit_of (F i j) * unit_of (F i j)) * cis (signed (d_neg d) (carrier d i j)))%C.
Lemma ideal_simulated m : (0 <= pad_x m)%Z -> (0 <= pad_y m)%Z ->
  exists M d' m', 0 < M /\ calculate_dmd_state h d input target MIdeal w kw u = (d', Ok (Fin (norm_const d / M))) /\
    d_slm d' = d_slm d /\
    propagate_to_image h (DevDmd d') m input = (m', Ok tt) /\
    field_is (f_output m') (NY (d_slm d) m) (NX (d_slm d) m) (pad_of (d_slm d) m (fun i j =>
      (RtoC (/ M / 2) * zeroth i j + RtoC (/ M / 4) * first i j + RtoC (/ M / 4) * conj_order i j)%C)) /\
    (pad_x m = 0%Z -> pad_y m = 0%Z ->
     field_is (f_image m') ny nx (fun a b => (RtoC (norm_const d / M / 2) * image_of ny nx zeroth a b + RtoC (norm_const d / M / 4) * image_of ny nx first a b
        + RtoC (norm_const d / M / 4) * image_of ny nx conj_order a b)%C)).
Proof.
  intros Px Py. destruct (usable_hologram h d input target w F T W kw u HF HT HW Hp Hny Hnx Hsf Hdark HS) as (M & HM & _ & _ & (g & E & V) & _ & _).
  set (d' := with_state d (DFloat ny nx g)) in *.
  assert (St : full_state (DevDmd d') (fun i j => RtoC (xr_val (g i j)))) by exact (state_float_in d' ny nx g _ eq_refl eq_refl eq_refl V).
  destruct (propagate_succeeds h (DevDmd d') m input F _ HF St Py Px Hsf) as (m' & R).
  destruct (propagate_inv h (DevDmd d') m input F _ m' HF St R) as (_ & _ & _ & _ & _ & _ & Ho & Hi).
  change (dev_slm (DevDmd d')) with (d_slm d) in *.
  assert (EQ : forall i j, (i < ny)%nat -> (j < nx)%nat -> (F i j * RtoC (xr_val (g i j)))%C =
     (RtoC (/ M / 2) * zeroth i j + RtoC (/ M / 4) * first i j + RtoC (/ M / 4) * conj_order i j)%C).
  { intros i j Hi' Hj'. rewrite V by assumption. cbn [xr_val]. unfold zeroth, first, conj_order, amp_at. fold S.
    apply mirror_orders; [exact HM|apply Hdark; assumption]. }
  exists M, d', m'. split; [exact HM|]. split; [exact E|]. split; [reflexivity|]. split; [exact R|]. split.
  - eapply field_is_ext; [|exact Ho]. intros i j _ _. apply pad_of_ext. exact EQ.
  - intros Zx Zy. assert (EY : NY (d_slm d) m = ny) by (unfold NY; rewrite Zy; unfold ny; lia).
    assert (EX : NX (d_slm d) m = nx) by (unfold NX; rewrite Zx; unfold nx; lia).
    rewrite EY, EX in Hi. eapply field_is_ext; [|exact Hi]. intros a b Ha Hb. cbv beta.
    rewrite image_of_to_image by assumption.
    rewrite (image_of_ext ny nx _ (fun i j => (RtoC (/ M / 2) * zeroth i j + RtoC (/ M / 4) * first i j + RtoC (/ M / 4) * conj_order i j)%C)).
    2:{ intros i j Hi' Hj'. rewrite pad_zero by assumption. apply EQ; assumption. }
    rewrite image_of_lin3.
    replace (norm_of (d_slm d) m) with (norm_const d).
    2:{ unfold norm_of, norm_const. unfold sim_Nx, sim_Ny. rewrite Zx, Zy, !Z.mul_0_r, !Z.add_0_r, mult_IZR, <- !INR_IZR_INZ. field. exact Hsf. }
    unfold Rdiv. rewrite !RtoC_mult. ring.
Qed.
Lemma first_displaced a b : pixel_size (d_slm d) <> 0 ->
  origin_of d = (IZR a * image_pitch_x (d_slm d), IZR b * image_pitch_y (d_slm d)) ->
  forall p q, (p < ny)%nat -> (q < nx)%nat ->
  image_of ny nx first p q = (half_pixel_phase ny nx (if d_neg d then - a else a) (if d_neg d then - b else b)
     * displaced ny nx (if d_neg d then - a else a) (if d_neg d then - b else b) (image_of ny nx S) p q)%C.
Proof.
  intros Hps Ho p q Hpp Hq. assert (C := carrier_integer d a b Hp Hsf Hps Hny Hnx Ho).
  unfold first. apply (image_of_carrier ny nx S (fun i j => signed (d_neg d) (carrier d i j))); [|assumption|assumption].
  intros i j _ _. unfold signed. rewrite C. destruct (d_neg d); [|reflexivity]. fold ny nx. rewrite !opp_IZR.
  field. split; apply INR_neq_0; assumption.
Qed.
End Sim.
(** Without a window the displaced image is the target itself. *)
Lemma displaced_target ny nx a b T (W : nat -> nat -> C) p q : (0 < ny)%nat -> (0 < nx)%nat -> (forall i j, W i j = RtoC 1) ->
  displaced ny nx a b (image_of ny nx (fun i j => (spectrum_of ny nx T i j * W i j)%C)) p q = displaced ny nx a b T p q.
Proof.
  intros Hy Hx HW. unfold displaced. rewrite (image_of_ext ny nx _ (spectrum_of ny nx T)) by (intros; rewrite HW; ring).
  apply image_of_spectrum; apply Nat2Z.inj_lt; rewrite Z2Nat.id by (apply Z.mod_pos_bound; lia); apply Z.mod_pos_bound; lia.
Qed.
