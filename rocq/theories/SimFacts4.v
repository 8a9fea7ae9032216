(** The image-plane field as samples of one function of position, independent of the padding. *)
From Coq Require Import Reals Lra ZArith Arith List Bool Lia.
From Coquelicot Require Import Complex.
From Verif Require Import Cx Sums DFT PyBase ProfileModel SlmModel LibModel DmdModel SimModel SimSpec GridFacts GridFacts2 SimFacts SimFacts2.
Open Scope R_scope.

Lemma csum_pad p n q f : (forall i, (i < p)%nat -> f i = RtoC 0) -> (forall i, (i < q)%nat -> f (p + n + i)%nat = RtoC 0) ->
  csum (p + n + q) f = csum n (fun i => f (p + i)%nat).
Proof.
  intros H1 H2. rewrite csum_app, csum_app.
  rewrite (csum_ext p f (fun _ => RtoC 0)) by exact H1. rewrite csum_0.
  rewrite (csum_ext q _ (fun _ => RtoC 0)) by exact H2. rewrite csum_0. ring.
Qed.
Lemma csum2_pad_kernel py px ny nx f (k : nat -> nat -> C) :
  csum2 (py + ny + py) (px + nx + px) (fun i j => (pad_fun py px ny nx f i j * k i j)%C)
  = csum2 ny nx (fun i j => (f i j * k (py + i)%nat (px + j)%nat)%C).
Proof.
  unfold csum2.
  transitivity (csum ny (fun i => csum (px + nx + px) (fun j => (pad_fun py px ny nx f (py + i) j * k (py + i)%nat j)%C))).
  - apply (csum_pad py ny py (fun i => csum (px + nx + px) (fun j => (pad_fun py px ny nx f i j * k i j)%C))).
    + intros i Hi. transitivity (csum (px + nx + px) (fun _ => RtoC 0)); [|apply csum_0].
      apply csum_ext; intros. rewrite pad_fun_out_row by lia. ring.
    + intros i Hi. transitivity (csum (px + nx + px) (fun _ => RtoC 0)); [|apply csum_0].
      apply csum_ext; intros. rewrite pad_fun_out_row by lia. ring.
  - apply csum_ext; intros i Hi.
    rewrite (csum_pad px nx px (fun j => (pad_fun py px ny nx f (py + i) j * k (py + i)%nat j)%C)).
    + apply csum_ext; intros j Hj. rewrite pad_fun_in by assumption. reflexivity.
    + intros j Hj. rewrite pad_fun_out_col by lia. ring.
    + intros j Hj. rewrite pad_fun_out_col by lia. ring.
Qed.

(** The offset of a grid from its centre pixel: 0 for even sizes, 1/2 for odd ones. *)
Definition half_offset (n : nat) : R := INR n / 2 - INR (n / 2).
Lemma half_offset_pad n k : half_offset (n + 2 * k) = half_offset n.
Proof.
  unfold half_offset. rewrite Nat.mul_comm, Nat.div_add by lia. rewrite !plus_INR, mult_INR. simpl. field.
Qed.
Definition image_function (s : slm) (E : nat -> nat -> C) (X Y : R) : C :=
  (cis (2 * PI * (half_offset (s_Nx s) * X - half_offset (s_Ny s) * Y) * pixel_size s / scaling_factor s) *
   (RtoC (pixel_size s ^ 2 / scaling_factor s) *
    csum2 (s_Ny s) (s_Nx s) (fun i j => (E i j * cis (2 * PI * ((INR j - INR (s_Nx s) / 2) * pixel_size s * X
                                                  + (INR (s_Ny s) / 2 - INR i) * pixel_size s * Y) / scaling_factor s))%C)))%C.

Lemma image_sampled h dev m a F S m' X Y :
  let s := dev_slm dev in
  full_input h s a F -> full_state dev S -> propagate_to_image h dev m a = (m', Ok tt) ->
  (0 < s_Nx s)%nat -> (0 < s_Ny s)%nat -> pixel_size s <> 0 ->
  grid_is (image_plane_padded_grid s m) (NY s m) (NX s m) X Y ->
  field_is (f_image m') (NY s m) (NX s m) (fun u v => image_function s (fun i j => (F i j * S i j)%C) (X u v) (Y u v)).
Proof.
  intros s HF HS H Hnx Hny Hps GX.
  destruct (propagate_inv _ _ _ _ _ _ _ HF HS H) as (Hy & Hx & Hsf & _ & _ & _ & Hout & _). fold s in Hsf, Hout.
  assert (Gx := fourier_plane_padded_grid_is s m Hy Hx).
  destruct (fraunhofer h dev m a F S m' _ _ X Y HF HS H Hnx Hny Hps Gx GX) as (E & HE & Him). fold s in HE, Him.
  destruct (field_is_inj _ _ _ _ _ _ _ Hout HE) as (_ & _ & EE).
  eapply field_is_ext; [|exact Him]. intros u v Hu Hv. cbv beta. unfold image_function.
  destruct (grid_is_get _ _ _ _ _ u v GX Hu Hv) as [E5 E6].
  destruct (grid_is_get _ _ _ _ _ u v (image_grid_of_is (NX s m) (NY s m) (pixel_size s) (scaling_factor s) Hps) Hu Hv) as [E7 E8].
  cbv beta in E7, E8.
  assert (EX : X u v = IZR (Z.of_nat v - Z.of_nat (NX s m / 2)) * scaling_factor s / (INR (NX s m) * pixel_size s)) by (rewrite <- E5; exact E7).
  assert (EY : Y u v = - (IZR (Z.of_nat u - Z.of_nat (NY s m / 2)) * scaling_factor s / (INR (NY s m) * pixel_size s))) by (rewrite <- E6; exact E8).
  assert (HNx : NX s m = (s_Nx s + 2 * Z.to_nat (pad_x m))%nat) by (rewrite <- NX_eq by assumption; lia).
  assert (HNy : NY s m = (s_Ny s + 2 * Z.to_nat (pad_y m))%nat) by (rewrite <- NY_eq by assumption; lia).
  f_equal.
  - unfold odd_phase. f_equal. fold (half_offset (NY s m)) (half_offset (NX s m)).
    rewrite <- (half_offset_pad (s_Nx s) (Z.to_nat (pad_x m))), <- HNx.
    rewrite <- (half_offset_pad (s_Ny s) (Z.to_nat (pad_y m))), <- HNy.
    rewrite EX, EY. field. repeat split; try assumption; apply INR_neq_0; lia.
  - f_equal.
    transitivity (csum2 (NY s m) (NX s m) (fun i j => (pad_of s m (fun i j => F i j * S i j) i j *
      cis (2 * PI * ((IZR (Z.of_nat j - pad_x m) - INR (s_Nx s) / 2) * pixel_size s * X u v
        + (INR (s_Ny s) / 2 - IZR (Z.of_nat i - pad_y m)) * pixel_size s * Y u v) / scaling_factor s))%C)).
    { apply csum2_ext; intros i j Hi Hj. rewrite EE by assumption. reflexivity. }
    rewrite <- (NY_eq s m Hy), <- (NX_eq s m Hx). unfold pad_of.
    rewrite (csum2_pad_kernel _ _ _ _ (fun i j => F i j * S i j)%C
      (fun i j => cis (2 * PI * ((IZR (Z.of_nat j - pad_x m) - INR (s_Nx s) / 2) * pixel_size s * X u v
        + (INR (s_Ny s) / 2 - IZR (Z.of_nat i - pad_y m)) * pixel_size s * Y u v) / scaling_factor s))).
    apply csum2_ext; intros i j Hi Hj. f_equal. f_equal.
    replace (Z.of_nat (Z.to_nat (pad_x m) + j) - pad_x m)%Z with (Z.of_nat j) by lia.
    replace (Z.of_nat (Z.to_nat (pad_y m) + i) - pad_y m)%Z with (Z.of_nat i) by lia.
    rewrite <- !INR_IZR_INZ. reflexivity.
Qed.

Lemma padding_keeps_field h dev a F S m1 m2 m1' m2' I1 I2 X1 Y1 X2 Y2 :
  let s := dev_slm dev in
  full_input h s a F -> full_state dev S ->
  propagate_to_image h dev m1 a = (m1', Ok tt) -> propagate_to_image h dev m2 a = (m2', Ok tt) ->
  (0 < s_Nx s)%nat -> (0 < s_Ny s)%nat -> pixel_size s <> 0 ->
  grid_is (image_plane_padded_grid s m1) (NY s m1) (NX s m1) X1 Y1 ->
  grid_is (image_plane_padded_grid s m2) (NY s m2) (NX s m2) X2 Y2 ->
  field_is (f_image m1') (NY s m1) (NX s m1) I1 -> field_is (f_image m2') (NY s m2) (NX s m2) I2 ->
  forall u v u' v', (u < NY s m1)%nat -> (v < NX s m1)%nat -> (u' < NY s m2)%nat -> (v' < NX s m2)%nat ->
  X1 u v = X2 u' v' -> Y1 u v = Y2 u' v' -> I1 u v = I2 u' v'.
Proof.
  intros s HF HS P1 P2 Hnx Hny Hps G1 G2 H1 H2 u v u' v' Hu Hv Hu' Hv' EX EY.
  assert (S1 := image_sampled h dev m1 a F S m1' X1 Y1 HF HS P1 Hnx Hny Hps G1).
  assert (S2 := image_sampled h dev m2 a F S m2' X2 Y2 HF HS P2 Hnx Hny Hps G2).
  destruct (field_is_inj _ _ _ _ _ _ _ H1 S1) as (_ & _ & ->); [|assumption|assumption].
  destruct (field_is_inj _ _ _ _ _ _ _ H2 S2) as (_ & _ & ->); [|assumption|assumption].
  fold s. rewrite EX, EY. reflexivity.
Qed.

(** A tilt moves the image. *)
Lemma image_function_ext s E E' X Y : (forall i j, (i < s_Ny s)%nat -> (j < s_Nx s)%nat -> E i j = E' i j) -> image_function s E X Y = image_function s E' X Y.
Proof. intros H. unfold image_function. do 2 f_equal. apply csum2_ext; intros i j Hi Hj. rewrite H by assumption. reflexivity. Qed.
Lemma image_function_tilt s E a b X Y : scaling_factor s <> 0 ->
  image_function s (fun i j => (cis (2 * PI * ((INR j - INR (s_Nx s) / 2) * pixel_size s * a + (INR (s_Ny s) / 2 - INR i) * pixel_size s * b) / scaling_factor s) * E i j)%C) X Y
  = (cis (2 * PI * (half_offset (s_Ny s) * b - half_offset (s_Nx s) * a) * pixel_size s / scaling_factor s) * image_function s E (X + a) (Y + b))%C.
Proof.
  intros Hsf. unfold image_function. rewrite !Cmult_assoc. f_equal.
  - f_equal. rewrite <- cis_plus. f_equal. field. exact Hsf.
  - apply csum2_ext; intros i j _ _.
    match goal with |- ((cis ?a * ?e) * cis ?b = ?e * cis ?c)%C => replace c with (a + b) by (field; exact Hsf); rewrite cis_plus; ring end.
Qed.
Lemma half_offset_even n : Nat.even n = true -> half_offset n = 0.
Proof.
  intros H. apply Nat.even_spec in H. destruct H as [k ->]. unfold half_offset.
  rewrite Nat.mul_comm, Nat.div_mul, mult_INR by lia. simpl. field.
Qed.
Definition tilt_constant (s : slm) (a b : R) : C :=
  cis (2 * PI * (half_offset (s_Ny s) * b - half_offset (s_Nx s) * a) * pixel_size s / scaling_factor s).
Lemma tilt_moves_image h1 h2 dev a1 a2 F1 F2 S m1 m2 m1' m2' I1 I2 x y X1 Y1 X2 Y2 a b :
  let s := dev_slm dev in
  full_input h1 s a1 F1 -> full_input h2 s a2 F2 -> full_state dev S ->
  (0 < s_Nx s)%nat -> (0 < s_Ny s)%nat -> pixel_size s <> 0 ->
  grid_is (fourier_plane_grid s) (s_Ny s) (s_Nx s) x y ->
  (forall i j, (i < s_Ny s)%nat -> (j < s_Nx s)%nat -> F2 i j = (cis (2 * PI * (x i j * a + y i j * b) / (wavelength s * focal_length s)) * F1 i j)%C) ->
  propagate_to_image h1 dev m1 a1 = (m1', Ok tt) -> propagate_to_image h2 dev m2 a2 = (m2', Ok tt) ->
  grid_is (image_plane_padded_grid s m1) (NY s m1) (NX s m1) X1 Y1 ->
  grid_is (image_plane_padded_grid s m2) (NY s m2) (NX s m2) X2 Y2 ->
  field_is (f_image m1') (NY s m1) (NX s m1) I1 -> field_is (f_image m2') (NY s m2) (NX s m2) I2 ->
  forall u v u' v', (u < NY s m1)%nat -> (v < NX s m1)%nat -> (u' < NY s m2)%nat -> (v' < NX s m2)%nat ->
  X2 u' v' = X1 u v - a -> Y2 u' v' = Y1 u v - b -> I2 u' v' = (tilt_constant s a b * I1 u v)%C.
Proof.
  intros s HF1 HF2 HS Hnx Hny Hps Gx Htilt P1 P2 G1 G2 H1 H2 u v u' v' Hu Hv Hu' Hv' EX EY.
  destruct (propagate_inv _ _ _ _ _ _ _ HF1 HS P1) as (_ & _ & Hsf & _). fold s in Hsf.
  assert (S1 := image_sampled h1 dev m1 a1 F1 S m1' X1 Y1 HF1 HS P1 Hnx Hny Hps G1).
  assert (S2 := image_sampled h2 dev m2 a2 F2 S m2' X2 Y2 HF2 HS P2 Hnx Hny Hps G2).
  destruct (field_is_inj _ _ _ _ _ _ _ H1 S1) as (_ & _ & ->); [|assumption|assumption].
  destruct (field_is_inj _ _ _ _ _ _ _ H2 S2) as (_ & _ & ->); [|assumption|assumption].
  fold s. replace (X1 u v) with (X2 u' v' + a) by lra. replace (Y1 u v) with (Y2 u' v' + b) by lra.
  unfold tilt_constant. rewrite <- image_function_tilt by exact Hsf. apply image_function_ext; intros i j Hi Hj.
  rewrite Htilt by assumption.
  destruct (grid_is_get _ _ _ _ _ i j Gx Hi Hj) as [A1 A2].
  destruct (grid_is_get _ _ _ _ _ i j (fourier_plane_grid_is s) Hi Hj) as [B1 B2].
  rewrite A1 in B1. rewrite A2 in B2. rewrite B1, B2. rewrite Cmult_assoc. reflexivity.
Qed.
Lemma tilt_constant_unit s a b : Cmod (tilt_constant s a b) = 1.
Proof. apply Cmod_cis. Qed.
Lemma tilt_constant_even s a b : Nat.even (s_Nx s) = true -> Nat.even (s_Ny s) = true -> tilt_constant s a b = RtoC 1.
Proof.
  intros H1 H2. unfold tilt_constant. rewrite !half_offset_even by assumption.
  replace (2 * PI * (0 * b - 0 * a) * pixel_size s / scaling_factor s) with 0 by (unfold Rdiv; ring). apply cis_0.
Qed.

(** A real output field gives a point-symmetric image. *)
Lemma image_function_real s (E : nat -> nat -> C) X Y : (forall i j, (i < s_Ny s)%nat -> (j < s_Nx s)%nat -> snd (E i j) = 0) ->
  image_function s E (- X) (- Y) = cconj (image_function s E X Y).
Proof.
  intros H. unfold image_function. rewrite !cconj_mult, csum2_conj, <- cis_neg. f_equal; [f_equal; unfold Rdiv; ring|].
  f_equal; [apply C_eq; cbn; lra|].
  apply csum2_ext; intros i j Hi Hj. rewrite cconj_mult, <- cis_neg. f_equal; [|f_equal; unfold Rdiv; ring].
  apply C_eq; cbn; [reflexivity|]. rewrite H by assumption. lra.
Qed.
Lemma real_field_symmetric h dev m a F S m' I X Y :
  let s := dev_slm dev in
  full_input h s a F -> full_state dev S -> propagate_to_image h dev m a = (m', Ok tt) ->
  (0 < s_Nx s)%nat -> (0 < s_Ny s)%nat -> pixel_size s <> 0 ->
  (forall i j, (i < s_Ny s)%nat -> (j < s_Nx s)%nat -> snd (F i j * S i j)%C = 0) ->
  grid_is (image_plane_padded_grid s m) (NY s m) (NX s m) X Y -> field_is (f_image m') (NY s m) (NX s m) I ->
  forall u v u' v', (u < NY s m)%nat -> (v < NX s m)%nat -> (u' < NY s m)%nat -> (v' < NX s m)%nat ->
  X u' v' = - X u v -> Y u' v' = - Y u v -> I u' v' = (fst (I u v), - snd (I u v)).
Proof.
  intros s HF HS P Hnx Hny Hps Hr G HI u v u' v' Hu Hv Hu' Hv' EX EY.
  assert (S1 := image_sampled h dev m a F S m' X Y HF HS P Hnx Hny Hps G).
  destruct (field_is_inj _ _ _ _ _ _ _ HI S1) as (_ & _ & E). rewrite !E by assumption.
  rewrite EX, EY. fold s. rewrite image_function_real by exact Hr. reflexivity.
Qed.

(** The optical axis carries the sum of the field; no point of the image can exceed the sum of the moduli. *)
Lemma Cmod_csum n f : Cmod (csum n f) <= rsum n (fun i => Cmod (f i)).
Proof.
  induction n as [|n IH]; [cbn; rewrite Cmod_0; lra|]. cbn [csum rsum].
  eapply Rle_trans; [apply Cmod_triangle|]. lra.
Qed.
Lemma Cmod_csum2 ny nx f : Cmod (csum2 ny nx f) <= rsum2 ny nx (fun i j => Cmod (f i j)).
Proof.
  unfold csum2, rsum2. eapply Rle_trans; [apply Cmod_csum|]. apply rsum_le; intros i _. apply Cmod_csum.
Qed.
Lemma image_function_axis s E : image_function s E 0 0 = (RtoC (pixel_size s ^ 2 / scaling_factor s) * csum2 (s_Ny s) (s_Nx s) E)%C.
Proof.
  unfold image_function.
  replace (2 * PI * (half_offset (s_Nx s) * 0 - half_offset (s_Ny s) * 0) * pixel_size s / scaling_factor s) with 0 by (unfold Rdiv; ring).
  rewrite cis_0, Cmult_1_l. f_equal. apply csum2_ext; intros i j _ _.
  match goal with |- (_ * cis ?a)%C = _ => replace a with 0 by (unfold Rdiv; ring) end. rewrite cis_0. ring.
Qed.
Lemma image_function_bound s E X Y : Cmod (image_function s E X Y) <= Rabs (pixel_size s ^ 2 / scaling_factor s) * rsum2 (s_Ny s) (s_Nx s) (fun i j => Cmod (E i j)).
Proof.
  unfold image_function. rewrite !Cmod_mult, Cmod_cis, Cmod_R, Rmult_1_l. apply Rmult_le_compat_l; [apply Rabs_pos|].
  eapply Rle_trans; [apply Cmod_csum2|]. unfold rsum2. apply rsum_le; intros i _. apply rsum_le; intros j _.
  rewrite Cmod_mult, Cmod_cis. lra.
Qed.
Lemma axis_value h dev m a F S m' I X Y :
  let s := dev_slm dev in
  full_input h s a F -> full_state dev S -> propagate_to_image h dev m a = (m', Ok tt) ->
  (0 < s_Nx s)%nat -> (0 < s_Ny s)%nat -> pixel_size s <> 0 ->
  grid_is (image_plane_padded_grid s m) (NY s m) (NX s m) X Y -> field_is (f_image m') (NY s m) (NX s m) I ->
  forall u v, (u < NY s m)%nat -> (v < NX s m)%nat ->
  Cmod (I u v) <= Rabs (pixel_size s ^ 2 / (wavelength s * focal_length s)) * rsum2 (s_Ny s) (s_Nx s) (fun i j => Cmod (F i j * S i j)%C) /\
  (X u v = 0 -> Y u v = 0 -> I u v = (RtoC (pixel_size s ^ 2 / (wavelength s * focal_length s)) * csum2 (s_Ny s) (s_Nx s) (fun i j => F i j * S i j))%C).
Proof.
  intros s HF HS P Hnx Hny Hps G HI u v Hu Hv.
  assert (S1 := image_sampled h dev m a F S m' X Y HF HS P Hnx Hny Hps G).
  destruct (field_is_inj _ _ _ _ _ _ _ HI S1) as (_ & _ & E). rewrite !E by assumption. fold s.
  split; [apply image_function_bound|]. intros -> ->. apply image_function_axis.
Qed.
Lemma tilt_moves h1 h2 dev a1 a2 F1 F2 S m1 m2 m1' m2' I1 I2 x y X1 Y1 X2 Y2 a b :
  let s := dev_slm dev in
  full_input h1 s a1 F1 -> full_input h2 s a2 F2 -> full_state dev S ->
  (0 < s_Nx s)%nat -> (0 < s_Ny s)%nat -> pixel_size s <> 0 ->
  grid_is (fourier_plane_grid s) (s_Ny s) (s_Nx s) x y ->
  (forall i j, (i < s_Ny s)%nat -> (j < s_Nx s)%nat -> F2 i j = (cis (2 * PI * (x i j * a + y i j * b) / (wavelength s * focal_length s)) * F1 i j)%C) ->
  propagate_to_image h1 dev m1 a1 = (m1', Ok tt) -> propagate_to_image h2 dev m2 a2 = (m2', Ok tt) ->
  grid_is (image_plane_padded_grid s m1) (NY s m1) (NX s m1) X1 Y1 ->
  grid_is (image_plane_padded_grid s m2) (NY s m2) (NX s m2) X2 Y2 ->
  field_is (f_image m1') (NY s m1) (NX s m1) I1 -> field_is (f_image m2') (NY s m2) (NX s m2) I2 ->
  exists k, Cmod k = 1 /\ (Nat.even (s_Nx s) = true -> Nat.even (s_Ny s) = true -> k = RtoC 1) /\
  forall u v u' v', (u < NY s m1)%nat -> (v < NX s m1)%nat -> (u' < NY s m2)%nat -> (v' < NX s m2)%nat ->
  X2 u' v' = X1 u v - a -> Y2 u' v' = Y1 u v - b -> I2 u' v' = (k * I1 u v)%C.
Proof.
  intros s HF1 HF2 HS Hnx Hny Hps Gx Htilt P1 P2 G1 G2 H1 H2. exists (tilt_constant s a b).
  split; [apply tilt_constant_unit|]. split; [apply tilt_constant_even|].
  exact (tilt_moves_image h1 h2 dev a1 a2 F1 F2 S m1 m2 m1' m2' I1 I2 x y X1 Y1 X2 Y2 a b HF1 HF2 HS Hnx Hny Hps Gx Htilt P1 P2 G1 G2 H1 H2).
Qed.
Lemma dmd_orders_symmetric h d m a F b m' I X Y :
  full_input h (d_slm d) a (fun i j => RtoC (F i j)) -> d_state d = DBool (s_Ny (d_slm d)) (s_Nx (d_slm d)) b ->
  propagate_to_image h (DevDmd d) m a = (m', Ok tt) ->
  (0 < s_Nx (d_slm d))%nat -> (0 < s_Ny (d_slm d))%nat -> pixel_size (d_slm d) <> 0 ->
  grid_is (image_plane_padded_grid (d_slm d) m) (NY (d_slm d) m) (NX (d_slm d) m) X Y -> field_is (f_image m') (NY (d_slm d) m) (NX (d_slm d) m) I ->
  forall u v u' v', (u < NY (d_slm d) m)%nat -> (v < NX (d_slm d) m)%nat -> (u' < NY (d_slm d) m)%nat -> (v' < NX (d_slm d) m)%nat ->
  X u' v' = - X u v -> Y u' v' = - Y u v -> Cmod (I u' v') = Cmod (I u v).
Proof.
  intros HF Hst P Hnx Hny Hps G HI u v u' v' Hu Hv Hu' Hv' EX EY.
  assert (HS := state_bool d b Hst).
  rewrite (real_field_symmetric h (DevDmd d) m a _ _ m' I X Y HF HS P Hnx Hny Hps) with (u := u) (v := v); try assumption.
  - exact (Cmod_cconj (I u v)).
  - intros i j _ _. cbn. destruct (b i j); cbn; lra.
Qed.
Lemma axis_sampled s m X Y : pixel_size s <> 0 -> (0 < s_Nx s)%nat -> (0 < s_Ny s)%nat -> (0 <= pad_x m)%Z -> (0 <= pad_y m)%Z ->
  grid_is (image_plane_padded_grid s m) (NY s m) (NX s m) X Y ->
  exists u v, (u < NY s m)%nat /\ (v < NX s m)%nat /\ X u v = 0 /\ Y u v = 0.
Proof.
  intros Hps Hnx Hny Hx Hy G. exists (NY s m / 2)%nat, (NX s m / 2)%nat.
  assert (H1 : (0 < NY s m)%nat) by (rewrite <- NY_eq by assumption; lia).
  assert (H2 : (0 < NX s m)%nat) by (rewrite <- NX_eq by assumption; lia).
  assert (Hu : (NY s m / 2 < NY s m)%nat) by (apply Nat.div_lt; lia). assert (Hv : (NX s m / 2 < NX s m)%nat) by (apply Nat.div_lt; lia).
  destruct (grid_is_get _ _ _ _ _ _ _ G Hu Hv) as [E5 E6].
  destruct (grid_is_get _ _ _ _ _ _ _ (image_grid_of_is (NX s m) (NY s m) (pixel_size s) (scaling_factor s) Hps) Hu Hv) as [E7 E8].
  cbv beta in E7, E8. repeat split; [assumption|assumption| |].
  - rewrite <- E5. refine (eq_trans E7 _). rewrite Z.sub_diag. unfold Rdiv; ring.
  - rewrite <- E6. refine (eq_trans E8 _). rewrite Z.sub_diag. unfold Rdiv; ring.
Qed.
