(** Superposition of device states, LCOS phase offsets, translations of the field (C73 - C75). *)
From Coq Require Import Reals Lra ZArith Arith List Bool Lia.
From Coquelicot Require Import Complex.
From Verif Require Import Cx Sums DFT PyBase ProfileModel SlmModel LibModel DmdModel SimModel SimSpec GridFacts GridFacts2 SimFacts SimFacts2 SimFacts4.
Open Scope R_scope.

(** A combination of fields behind the device gives the combination of images. *)
Lemma states_combine h1 h2 h3 dev1 dev2 dev3 m a1 a2 a3 F1 F2 F3 S1 S2 S3 (c1 c2 : C) n1 n2 n3 I1 I2 I3 :
  let s := dev_slm dev3 in
  dev_slm dev1 = s -> dev_slm dev2 = s ->
  full_input h1 s a1 F1 -> full_input h2 s a2 F2 -> full_input h3 s a3 F3 -> full_state dev1 S1 -> full_state dev2 S2 -> full_state dev3 S3 ->
  (forall i j, (i < s_Ny s)%nat -> (j < s_Nx s)%nat -> (F3 i j * S3 i j = c1 * (F1 i j * S1 i j) + c2 * (F2 i j * S2 i j))%C) ->
  propagate_to_image h1 dev1 m a1 = (n1, Ok tt) -> propagate_to_image h2 dev2 m a2 = (n2, Ok tt) -> propagate_to_image h3 dev3 m a3 = (n3, Ok tt) ->
  field_is (f_image n1) (NY s m) (NX s m) I1 -> field_is (f_image n2) (NY s m) (NX s m) I2 -> field_is (f_image n3) (NY s m) (NX s m) I3 ->
  forall u v, (u < NY s m)%nat -> (v < NX s m)%nat -> (I3 u v = c1 * I1 u v + c2 * I2 u v)%C.
Proof.
  intros s E1 E2 HF1 HF2 HF3 HS1 HS2 HS3 HE P1 P2 P3 HI1 HI2 HI3 u v Hu Hv.
  rewrite <- E1 in HF1. rewrite <- E2 in HF2.
  destruct (propagate_inv _ _ _ _ _ _ _ HF1 HS1 P1) as (_ & _ & _ & _ & _ & _ & _ & A1). rewrite E1 in A1.
  destruct (propagate_inv _ _ _ _ _ _ _ HF2 HS2 P2) as (_ & _ & _ & _ & _ & _ & _ & A2). rewrite E2 in A2.
  destruct (propagate_inv _ _ _ _ _ _ _ HF3 HS3 P3) as (_ & _ & _ & _ & _ & _ & _ & A3). fold s in A3.
  destruct (field_is_inj _ _ _ _ _ _ _ HI1 A1) as (_ & _ & ->); [|assumption|assumption].
  destruct (field_is_inj _ _ _ _ _ _ _ HI2 A2) as (_ & _ & ->); [|assumption|assumption].
  destruct (field_is_inj _ _ _ _ _ _ _ HI3 A3) as (_ & _ & ->); [|assumption|assumption].
  rewrite <- linear_image by assumption. f_equal. unfold fftshift2. apply ifft2_ext. intros i j Hi Hj. unfold ifftshift2.
  rewrite <- pad_of_lin. apply pad_of_ext. exact HE.
Qed.
(** Complementary mirror patterns. *)
Lemma babinet h d1 d2 d3 m a F b n1 n2 n3 I1 I2 I3 :
  let s := d_slm d3 in
  d_slm d1 = s -> d_slm d2 = s ->
  d_state d1 = DBool (s_Ny s) (s_Nx s) b -> d_state d2 = DBool (s_Ny s) (s_Nx s) (fun i j => negb (b i j)) -> d_state d3 = d_state (set_dmd_state_on d3) ->
  full_input h s a F ->
  propagate_to_image h (DevDmd d1) m a = (n1, Ok tt) -> propagate_to_image h (DevDmd d2) m a = (n2, Ok tt) -> propagate_to_image h (DevDmd d3) m a = (n3, Ok tt) ->
  field_is (f_image n1) (NY s m) (NX s m) I1 -> field_is (f_image n2) (NY s m) (NX s m) I2 -> field_is (f_image n3) (NY s m) (NX s m) I3 ->
  forall u v, (u < NY s m)%nat -> (v < NX s m)%nat -> (I3 u v = I1 u v + I2 u v)%C /\ (I3 u v = RtoC 0 -> Cmod (I1 u v) = Cmod (I2 u v)).
Proof.
  intros s E1 E2 D1 D2 D3 HF P1 P2 P3 HI1 HI2 HI3 u v Hu Hv.
  assert (HS1 := state_bool d1 b ltac:(rewrite E1; exact D1)). assert (HS2 := state_bool d2 _ ltac:(rewrite E2; exact D2)).
  assert (HS3 := state_bool d3 (fun _ _ => true) D3).
  assert (K : (I3 u v = RtoC 1 * I1 u v + RtoC 1 * I2 u v)%C).
  { apply (states_combine h h h (DevDmd d1) (DevDmd d2) (DevDmd d3) m a a a F F F _ _ _ (RtoC 1) (RtoC 1) n1 n2 n3 I1 I2 I3 E1 E2 HF HF HF HS1 HS2 HS3); try assumption.
    intros i j _ _. destruct (b i j); cbn [negb]; ring. }
  rewrite !Cmult_1_l in K. split; [exact K|]. intros Z. rewrite Z in K.
  replace (I1 u v) with (- I2 u v)%C; [apply Cmod_opp|]. replace (I1 u v) with (I1 u v + I2 u v - I2 u v)%C by ring. rewrite <- K. ring.
Qed.

(** LCOS: a common offset and multiples of 2 pi. *)
Lemma lcos_offset h l l' m a F ph ph' c (k : nat -> nat -> Z) n n' I I' :
  let s := l_slm l in l_slm l' = s ->
  l_state l = LReal (s_Ny s) (s_Nx s) ph -> l_state l' = LReal (s_Ny s) (s_Nx s) ph' ->
  (forall i j, (i < s_Ny s)%nat -> (j < s_Nx s)%nat -> ph' i j = ph i j + c + 2 * PI * IZR (k i j)) ->
  full_input h s a F -> propagate_to_image h (DevLcos l) m a = (n, Ok tt) -> propagate_to_image h (DevLcos l') m a = (n', Ok tt) ->
  field_is (f_image n) (NY s m) (NX s m) I -> field_is (f_image n') (NY s m) (NX s m) I' ->
  forall u v, (u < NY s m)%nat -> (v < NX s m)%nat -> I' u v = (cis (- c) * I u v)%C.
Proof.
  intros s E D D' H HF P P' HI HI' u v Hu Hv.
  assert (HS := state_phase l ph D). assert (HS' := state_phase l' ph' ltac:(rewrite E; exact D')).
  assert (E' : dev_slm (DevLcos l) = dev_slm (DevLcos l')) by (symmetry; exact E).
  assert (K : (I' u v = cis (- c) * I u v + RtoC 0 * I u v)%C).
  { assert (Es : l_slm l' = s) by exact E. 
    apply (states_combine h h h (DevLcos l) (DevLcos l) (DevLcos l') m a a a F F F (fun i j => cexp (- Ci * RtoC (ph i j))%C) (fun i j => cexp (- Ci * RtoC (ph i j))%C) (fun i j => cexp (- Ci * RtoC (ph' i j))%C) (cis (- c)) (RtoC 0) n n n' I I I'); cbn [dev_slm] in *; rewrite ?Es; try assumption; try reflexivity.
    intros i j Hi Hj. rewrite !cexp_mi, H by assumption.
    replace (- (ph i j + c + 2 * PI * IZR (k i j))) with ((- c + - ph i j) + 2 * PI * IZR (- k i j)) by (rewrite opp_IZR; ring).
    rewrite cis_period, cis_plus. ring. }
  rewrite K. ring.
Qed.
Lemma lcos_offset_intensity h l l' m a F ph ph' c (k : nat -> nat -> Z) n n' I I' :
  let s := l_slm l in l_slm l' = s ->
  l_state l = LReal (s_Ny s) (s_Nx s) ph -> l_state l' = LReal (s_Ny s) (s_Nx s) ph' ->
  (forall i j, (i < s_Ny s)%nat -> (j < s_Nx s)%nat -> ph' i j = ph i j + c + 2 * PI * IZR (k i j)) ->
  full_input h s a F -> propagate_to_image h (DevLcos l) m a = (n, Ok tt) -> propagate_to_image h (DevLcos l') m a = (n', Ok tt) ->
  field_is (f_image n) (NY s m) (NX s m) I -> field_is (f_image n') (NY s m) (NX s m) I' ->
  forall u v, (u < NY s m)%nat -> (v < NX s m)%nat -> Cmod (I' u v) = Cmod (I u v) /\ (c = 0 -> I' u v = I u v).
Proof.
  intros s E D D' H HF P P' HI HI' u v Hu Hv.
  rewrite (lcos_offset h l l' m a F ph ph' c k n n' I I' E D D' H HF P P' HI HI' u v Hu Hv). split.
  - rewrite Cmod_mult, Cmod_cis. ring.
  - intros ->. rewrite Ropp_0, cis_0. ring.
Qed.
(** A fresh LCOS panel acts like phase zero. *)
Lemma lcos_fresh h s m a F n n' I I' st :
  full_input h s a F -> propagate_to_image h (DevLcos (lcos_new s)) m a = (n, Ok tt) ->
  l_state st = LReal (s_Ny s) (s_Nx s) (fun _ _ => 0) -> l_slm st = s -> propagate_to_image h (DevLcos st) m a = (n', Ok tt) ->
  field_is (f_image n) (NY s m) (NX s m) I -> field_is (f_image n') (NY s m) (NX s m) I' ->
  forall u v, (u < NY s m)%nat -> (v < NX s m)%nat -> I' u v = I u v.
Proof.
  intros HF P D Es P' HI HI' u v Hu Hv.
  assert (HS : full_state (DevLcos (lcos_new s)) (fun i j => cexp (- Ci * RtoC 0)%C)) by reflexivity.
  assert (HS' := state_phase st _ ltac:(rewrite Es; exact D)).
  assert (K : (I' u v = RtoC 1 * I u v + RtoC 0 * I u v)%C).
  { apply (states_combine h h h (DevLcos (lcos_new s)) (DevLcos (lcos_new s)) (DevLcos st) m a a a F F F (fun i j => cexp (- Ci * RtoC 0)%C) (fun i j => cexp (- Ci * RtoC 0)%C) (fun i j => cexp (- Ci * RtoC 0)%C) (RtoC 1) (RtoC 0) n n n' I I I'); cbn [dev_slm lcos_new l_slm] in *; rewrite ?Es; try assumption; try reflexivity.
    intros i j Hi Hj. ring. }
  rewrite K. ring.
Qed.

(** ** Translations *)
Lemma csum_shift_up n (d : nat) (f g : nat -> C) (k : Z -> C) :
  (forall i, (i < n)%nat -> (i + d < n)%nat -> g (i + d)%nat = f i) ->
  (forall i, (i < n)%nat -> (n <= i + d)%nat -> f i = RtoC 0) -> (forall i, (i < n)%nat -> (i < d)%nat -> g i = RtoC 0) ->
  csum n (fun i => (g i * k (Z.of_nat i))%C) = csum n (fun i => (f i * k (Z.of_nat i + Z.of_nat d)%Z)%C).
Proof.
  intros H1 H2 H3. destruct (Nat.le_gt_cases d n) as [L|L].
  - transitivity (csum (n - d) (fun i => (f i * k (Z.of_nat i + Z.of_nat d)%Z)%C)).
    + replace n with (d + (n - d))%nat at 1 by lia. rewrite csum_app.
      rewrite (csum_ext d _ (fun _ => RtoC 0)) by (intros i Hi; rewrite H3 by lia; ring). rewrite csum_0, Cplus_0_l.
      apply csum_ext; intros i Hi. rewrite (Nat.add_comm d i), H1 by lia. rewrite Nat2Z.inj_add. reflexivity.
    + replace n with ((n - d) + d)%nat at 2 by lia. rewrite csum_app.
      rewrite (csum_ext d _ (fun _ => RtoC 0)) by (intros i Hi; rewrite H2 by lia; ring). rewrite csum_0. ring.
  - rewrite (csum_ext n _ (fun _ => RtoC 0)) by (intros i Hi; rewrite H3 by lia; ring).
    rewrite (csum_ext n (fun i => (f i * _)%C) (fun _ => RtoC 0)) by (intros i Hi; rewrite H2 by lia; ring). reflexivity.
Qed.
Lemma csum_shift n (d : Z) (f g : nat -> C) (k : Z -> C) :
  (forall i i', (i < n)%nat -> (i' < n)%nat -> Z.of_nat i' = (Z.of_nat i + d)%Z -> g i' = f i) ->
  (forall i, (i < n)%nat -> ~ inside n (Z.of_nat i + d) -> f i = RtoC 0) -> (forall i, (i < n)%nat -> ~ inside n (Z.of_nat i - d) -> g i = RtoC 0) ->
  csum n (fun i => (g i * k (Z.of_nat i))%C) = csum n (fun i => (f i * k (Z.of_nat i + d)%Z)%C).
Proof.
  intros H1 H2 H3. unfold inside in *. destruct (Z.le_gt_cases 0 d) as [L|L].
  - replace d with (Z.of_nat (Z.to_nat d)) by lia. apply (csum_shift_up n (Z.to_nat d) f g k).
    + intros i Hi Hd. apply H1; lia.
    + intros i Hi Hd. apply H2; lia.
    + intros i Hi Hd. apply H3; lia.
  - symmetry. rewrite (csum_shift_up n (Z.to_nat (- d)) g f (fun z => k (z + d)%Z)).
    + apply csum_ext; intros i Hi. do 2 f_equal. lia.
    + intros i Hi Hd. symmetry. apply H1; lia.
    + intros i Hi Hd. apply H3; lia.
    + intros i Hi Hd. apply H2; lia.
Qed.
Lemma image_function_moved s dy dx E E' X Y : scaling_factor s <> 0 -> moved s dy dx E E' ->
  image_function s E' X Y = (cis (2 * PI * (IZR dx * pixel_size s * X - IZR dy * pixel_size s * Y) / scaling_factor s) * image_function s E X Y)%C.
Proof.
  intros Hsf M. unfold image_function. set (k0 := cis (2 * PI * (half_offset _ * X - _) * _ / _)). set (k1 := RtoC (pixel_size s ^ 2 / _)).
  set (kx := fun z : Z => cis (2 * PI * ((IZR z - INR (s_Nx s) / 2) * pixel_size s * X) / scaling_factor s)).
  set (ky := fun z : Z => cis (2 * PI * ((INR (s_Ny s) / 2 - IZR z) * pixel_size s * Y) / scaling_factor s)).
  assert (R : forall E, csum2 (s_Ny s) (s_Nx s) (fun i j => (E i j * cis (2 * PI * ((INR j - INR (s_Nx s) / 2) * pixel_size s * X + (INR (s_Ny s) / 2 - INR i) * pixel_size s * Y) / scaling_factor s))%C)
    = csum (s_Ny s) (fun i => (csum (s_Nx s) (fun j => E i j * kx (Z.of_nat j)) * ky (Z.of_nat i))%C)).
  { intros E0. unfold csum2. apply csum_ext; intros i Hi. rewrite Cmult_comm, <- csum_scal_l. apply csum_ext; intros j Hj. unfold kx, ky. rewrite <- !INR_IZR_INZ.
    rewrite (Cmult_comm (cis _)), <- Cmult_assoc, <- cis_plus. do 2 f_equal. field. exact Hsf. }
  rewrite !R.
  assert (G : csum (s_Ny s) (fun i => (csum (s_Nx s) (fun j => E' i j * kx (Z.of_nat j)) * ky (Z.of_nat i))%C)
    = csum (s_Ny s) (fun i => (csum (s_Nx s) (fun j => E i j * kx (Z.of_nat j + dx)%Z) * ky (Z.of_nat i + dy)%Z)%C)).
  { apply (csum_shift (s_Ny s) dy (fun i => csum (s_Nx s) (fun j => (E i j * kx (Z.of_nat j + dx)%Z)%C)) (fun i => csum (s_Nx s) (fun j => (E' i j * kx (Z.of_nat j))%C))).
    - intros i i' Hi Hi' Ei. apply (csum_shift (s_Nx s) dx (E i) (E' i') kx).
      + intros j j' Hj Hj' Ej. destruct (M i j Hi Hj) as (A & _). apply A; assumption.
      + intros j Hj Hd. destruct (M i j Hi Hj) as (_ & A & _). apply A. tauto.
      + intros j Hj Hd. destruct (M i' j Hi' Hj) as (_ & _ & A). apply A. tauto.
    - intros i Hi Hd. transitivity (csum (s_Nx s) (fun _ => RtoC 0)); [|apply csum_0]. apply csum_ext; intros j Hj.
      destruct (M i j Hi Hj) as (_ & A & _). rewrite A by tauto. ring.
    - intros i Hi Hd. transitivity (csum (s_Nx s) (fun _ => RtoC 0)); [|apply csum_0]. apply csum_ext; intros j Hj.
      destruct (M i j Hi Hj) as (_ & _ & A). rewrite A by tauto. ring. }
  rewrite G. rewrite (csum_ext (s_Ny s) _ (fun i => (cis (2 * PI * (IZR dx * pixel_size s * X - IZR dy * pixel_size s * Y) / scaling_factor s) * (csum (s_Nx s) (fun j => E i j * kx (Z.of_nat j)) * ky (Z.of_nat i)))%C)).
  - rewrite csum_scal_l. ring.
  - intros i Hi. rewrite (csum_ext (s_Nx s) _ (fun j => (cis (2 * PI * (IZR dx * pixel_size s * X) / scaling_factor s) * (E i j * kx (Z.of_nat j)))%C)).
    + rewrite csum_scal_l.
      replace (ky (Z.of_nat i + dy)%Z) with (cis (2 * PI * (- (IZR dy * pixel_size s * Y)) / scaling_factor s) * ky (Z.of_nat i))%C.
      * replace (2 * PI * (IZR dx * pixel_size s * X - IZR dy * pixel_size s * Y) / scaling_factor s) with (2 * PI * (IZR dx * pixel_size s * X) / scaling_factor s + 2 * PI * (- (IZR dy * pixel_size s * Y)) / scaling_factor s) by (field; exact Hsf).
        rewrite cis_plus. ring.
      * unfold ky. rewrite <- cis_plus, plus_IZR. f_equal. field. exact Hsf.
    + intros j Hj. unfold kx. rewrite (Cmult_comm (cis (2 * PI * (IZR dx * _ * _) / _))), <- Cmult_assoc, <- cis_plus, plus_IZR. do 2 f_equal. field. exact Hsf.
Qed.
Lemma translation h h' dev dev' m m' a a' F F' S S' n n' I I' X Y dy dx :
  let s := dev_slm dev in dev_slm dev' = s -> pad_x m' = pad_x m -> pad_y m' = pad_y m ->
  full_input h s a F -> full_state dev S -> full_input h' s a' F' -> full_state dev' S' ->
  moved s dy dx (fun i j => (F i j * S i j)%C) (fun i j => (F' i j * S' i j)%C) ->
  propagate_to_image h dev m a = (n, Ok tt) -> propagate_to_image h' dev' m' a' = (n', Ok tt) ->
  (0 < s_Nx s)%nat -> (0 < s_Ny s)%nat -> pixel_size s <> 0 ->
  grid_is (image_plane_padded_grid s m) (NY s m) (NX s m) X Y ->
  field_is (f_image n) (NY s m) (NX s m) I -> field_is (f_image n') (NY s m) (NX s m) I' ->
  forall u v, (u < NY s m)%nat -> (v < NX s m)%nat ->
  I' u v = (cis (2 * PI * (IZR dx * pixel_size s * X u v - IZR dy * pixel_size s * Y u v) / (wavelength s * focal_length s)) * I u v)%C /\ Cmod (I' u v) = Cmod (I u v).
Proof.
  intros s Es Ex Ey HF HS HF' HS' M P P' Hnx Hny Hps G HI HI' u v Hu Hv.
  destruct (propagate_inv _ _ _ _ _ _ _ HF HS P) as (_ & _ & Hsf & _). fold s in Hsf.
  assert (S1 := image_sampled h dev m a F S n X Y HF HS P Hnx Hny Hps G).
  assert (EN : NY s m' = NY s m /\ NX s m' = NX s m) by (unfold NY, NX; rewrite Ex, Ey; auto). destruct EN as [EN1 EN2].
  assert (S2 : field_is (f_image n') (NY s m) (NX s m) (fun u v => image_function s (fun i j => (F' i j * S' i j)%C) (X u v) (Y u v))).
  { rewrite <- EN1, <- EN2. rewrite <- Es. apply (image_sampled h' dev' m' a' F' S' n' X Y); cbv zeta; rewrite ?Es; try assumption.
    rewrite EN1, EN2. replace (image_plane_padded_grid s m') with (image_plane_padded_grid s m); [exact G|].
    unfold image_plane_padded_grid, sim_Nx, sim_Ny. rewrite Ex, Ey. reflexivity. }
  destruct (field_is_inj _ _ _ _ _ _ _ HI S1) as (_ & _ & ->); [|assumption|assumption].
  destruct (field_is_inj _ _ _ _ _ _ _ HI' S2) as (_ & _ & ->); [|assumption|assumption]. fold s.
  rewrite (image_function_moved s dy dx _ _ (X u v) (Y u v) Hsf M). split; [reflexivity|].
  rewrite Cmod_mult, Cmod_cis. ring.
Qed.
