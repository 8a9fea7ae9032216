(** Facts about the simulation. *)
From Coq Require Import Reals Lra ZArith Arith List Bool Lia.
From Coquelicot Require Import Complex.
From Verif Require Import Cx Sums DFT PyBase ProfileModel SlmModel LibModel DmdModel SimModel SimSpec GridFacts.
Import ListNotations.
Open Scope R_scope.

(** ** Sums over padded and shifted arrays *)
Lemma rsum2_fftshift ny nx f : rsum2 ny nx (fftshift2 ny nx f) = rsum2 ny nx f.
Proof.
  destruct ny as [|ny]; [reflexivity|]. destruct nx as [|nx]; [rewrite !rsum2_nx0; reflexivity|].
  unfold fftshift2, shift_idx. apply (rsum2_rot (S ny) (S nx)); lia.
Qed.
Lemma rsum2_ifftshift ny nx f : rsum2 ny nx (ifftshift2 ny nx f) = rsum2 ny nx f.
Proof.
  destruct ny as [|ny]; [reflexivity|]. destruct nx as [|nx]; [rewrite !rsum2_nx0; reflexivity|].
  unfold ifftshift2, ishift_idx. apply (rsum2_rot (S ny) (S nx)); lia.
Qed.
Lemma csum2_fftshift ny nx f : csum2 ny nx (fftshift2 ny nx f) = csum2 ny nx f.
Proof.
  destruct ny as [|ny]; [reflexivity|]. destruct nx as [|nx]; [rewrite !csum2_nx0; reflexivity|].
  unfold fftshift2, shift_idx. apply (csum2_rot (S ny) (S nx)); lia.
Qed.
Lemma pad_fun_in py px ny nx f i j : (i < ny)%nat -> (j < nx)%nat -> pad_fun py px ny nx f (py + i) (px + j) = f i j.
Proof.
  intros Hi Hj. unfold pad_fun.
  replace (Nat.leb py (py + i)) with true by (symmetry; apply Nat.leb_le; lia).
  replace (Nat.leb px (px + j)) with true by (symmetry; apply Nat.leb_le; lia).
  replace (Nat.ltb (py + i) (py + ny)) with true by (symmetry; apply Nat.ltb_lt; lia).
  replace (Nat.ltb (px + j) (px + nx)) with true by (symmetry; apply Nat.ltb_lt; lia).
  cbn [andb]. f_equal; lia.
Qed.
Lemma pad_fun_out_row py px ny nx f i j : (i < py)%nat \/ (py + ny <= i)%nat -> pad_fun py px ny nx f i j = RtoC 0.
Proof.
  intros H. unfold pad_fun.
  destruct (Nat.leb_spec py i); destruct (Nat.ltb_spec i (py + ny)); try reflexivity; lia.
Qed.
Lemma pad_fun_out_col py px ny nx f i j : (j < px)%nat \/ (px + nx <= j)%nat -> pad_fun py px ny nx f i j = RtoC 0.
Proof.
  intros H. unfold pad_fun.
  destruct (Nat.leb_spec px j); destruct (Nat.ltb_spec j (px + nx)); rewrite ?andb_false_r, ?andb_true_r; try reflexivity; lia.
Qed.
Lemma pad_fun_ext py px ny nx f g i j : (forall i j, (i < ny)%nat -> (j < nx)%nat -> f i j = g i j) ->
  pad_fun py px ny nx f i j = pad_fun py px ny nx g i j.
Proof.
  intros H. unfold pad_fun. destruct (Nat.leb_spec py i); destruct (Nat.ltb_spec i (py + ny));
  destruct (Nat.leb_spec px j); destruct (Nat.ltb_spec j (px + nx)); cbn [andb]; try reflexivity. apply H; lia.
Qed.
(** A sum of g(f) over the padded array is the sum over the device when g 0 = 0. *)
Lemma rsum2_pad py px ny nx f (g : C -> R) : g (RtoC 0) = 0 ->
  rsum2 (py + ny + py) (px + nx + px) (fun i j => g (pad_fun py px ny nx f i j)) = rsum2 ny nx (fun i j => g (f i j)).
Proof.
  intros Hg. unfold rsum2.
  transitivity (rsum ny (fun i => rsum (px + nx + px) (fun j => g (pad_fun py px ny nx f (py + i) j)))).
  - apply (rsum_pad py ny py (fun i => rsum (px + nx + px) (fun j => g (pad_fun py px ny nx f i j)))).
    + intros i Hi. transitivity (rsum (px + nx + px) (fun _ => 0)); [|apply rsum_0].
      apply rsum_ext; intros. rewrite pad_fun_out_row by lia. exact Hg.
    + intros i Hi. transitivity (rsum (px + nx + px) (fun _ => 0)); [|apply rsum_0].
      apply rsum_ext; intros. rewrite pad_fun_out_row by lia. exact Hg.
  - apply rsum_ext; intros i Hi.
    rewrite (rsum_pad px nx px (fun j => g (pad_fun py px ny nx f (py + i) j))).
    + apply rsum_ext; intros j Hj. rewrite pad_fun_in by assumption. reflexivity.
    + intros j Hj. rewrite pad_fun_out_col by lia. exact Hg.
    + intros j Hj. rewrite pad_fun_out_col by lia. exact Hg.
Qed.

(** ** The centred inverse transform *)
Definition kern (ny nx i j u v : nat) : C :=
  cis (2 * PI * (IZR ((Z.of_nat i - Z.of_nat (ny / 2)) * (Z.of_nat u - Z.of_nat (ny / 2))) / INR ny
               + IZR ((Z.of_nat j - Z.of_nat (nx / 2)) * (Z.of_nat v - Z.of_nat (nx / 2))) / INR nx)).
Lemma shift_idx_Z n i : (i < n)%nat -> exists k : Z, Z.of_nat (shift_idx n i) = (Z.of_nat i - Z.of_nat (n / 2) + k * Z.of_nat n)%Z.
Proof.
  intros H. unfold shift_idx. assert (Hh := half_le n).
  assert (E := Nat.div_mod (i + (n - n / 2)) n ltac:(lia)).
  exists (1 - Z.of_nat ((i + (n - n / 2)) / n))%Z. nia.
Qed.
Lemma shift_kernel n i u : (i < n)%nat -> (u < n)%nat -> exists k : Z,
  INR (shift_idx n i * shift_idx n u) / INR n
  = IZR ((Z.of_nat i - Z.of_nat (n / 2)) * (Z.of_nat u - Z.of_nat (n / 2))) / INR n + IZR k.
Proof.
  intros Hi Hu. destruct (shift_idx_Z n i Hi) as [a Ha]. destruct (shift_idx_Z n u Hu) as [b Hb].
  set (x := (Z.of_nat i - Z.of_nat (n / 2))%Z) in *. set (y := (Z.of_nat u - Z.of_nat (n / 2))%Z) in *.
  exists (x * b + a * y + a * b * Z.of_nat n)%Z.
  rewrite INR_IZR_INZ, Nat2Z.inj_mul, Ha, Hb, (INR_IZR_INZ n).
  assert (HN : IZR (Z.of_nat n) <> 0) by (rewrite <- INR_IZR_INZ; apply INR_neq_0; lia).
  rewrite !mult_IZR, !plus_IZR, !mult_IZR. field. exact HN.
Qed.
Lemma to_image_centred ny nx f u v : (u < ny)%nat -> (v < nx)%nat ->
  fftshift2 ny nx (ifft2 ny nx (ifftshift2 ny nx f)) u v
  = (csum2 ny nx (fun i j => (f i j * kern ny nx i j u v)%C) / RtoC (INR (ny * nx)))%C.
Proof.
  intros Hu Hv. unfold fftshift2 at 1. unfold ifft2. f_equal.
  rewrite <- csum2_fftshift. apply csum2_ext; intros i j Hi Hj. unfold fftshift2, ifftshift2.
  rewrite !ishift_shift by assumption. f_equal. unfold kern.
  destruct (shift_kernel ny i u Hi Hu) as [a Ha]. destruct (shift_kernel nx j v Hj Hv) as [b Hb].
  apply cis_int_shift. exists (a + b)%Z. rewrite Ha, Hb, plus_IZR. ring.
Qed.

(** ** What a successful propagation stores *)
Lemma NY_eq s m : (0 <= pad_y m)%Z -> (Z.to_nat (pad_y m) + s_Ny s + Z.to_nat (pad_y m))%nat = NY s m.
Proof. intros. unfold NY, sim_Ny. lia. Qed.
Lemma NX_eq s m : (0 <= pad_x m)%Z -> (Z.to_nat (pad_x m) + s_Nx s + Z.to_nat (pad_x m))%nat = NX s m.
Proof. intros. unfold NX, sim_Nx. lia. Qed.
Definition norm_of (s : slm) (m : sim) : R := IZR (sim_Nx s m * sim_Ny s m) * pixel_size s ^ 2 / scaling_factor s.
Definition pad_of (s : slm) (m : sim) (f : nat -> nat -> C) : nat -> nat -> C :=
  pad_fun (Z.to_nat (pad_y m)) (Z.to_nat (pad_x m)) (s_Ny s) (s_Nx s) f.

Lemma tf_pad_ok py px ny nx f t : tf_pad py px (T2 ny nx f) = Ok t ->
  (0 <= py)%Z /\ (0 <= px)%Z /\
  t = T2 (Z.to_nat py + ny + Z.to_nat py) (Z.to_nat px + nx + Z.to_nat px) (pad_fun (Z.to_nat py) (Z.to_nat px) ny nx f).
Proof.
  unfold tf_pad. destruct (Z.ltb_spec py 0); [discriminate|]. destruct (Z.ltb_spec px 0); [discriminate|].
  intros E; injection E as <-. auto.
Qed.
Lemma tf_pad_pos py px ny nx f : (0 <= py)%Z -> (0 <= px)%Z -> tf_pad py px (T2 ny nx f) =
  Ok (T2 (Z.to_nat py + ny + Z.to_nat py) (Z.to_nat px + nx + Z.to_nat px) (pad_fun (Z.to_nat py) (Z.to_nat px) ny nx f)).
Proof. intros. unfold tf_pad. destruct (Z.ltb_spec py 0); [lia|]. destruct (Z.ltb_spec px 0); [lia|]. reflexivity. Qed.
Lemma tmap2_same {A B D} (g : A -> B -> D) ny nx f k :
  tmap2 g (T2 ny nx f) (T2 ny nx k) = Ok (T2 ny nx (fun i j => g (tget (T2 ny nx f) i j) (tget (T2 ny nx k) i j))).
Proof. unfold tmap2, bc2. cbn [tshape bshape]. rewrite !bdim_refl. reflexivity. Qed.

Lemma propagate_inv h dev m a F S m' :
  full_input h (dev_slm dev) a F -> full_state dev S -> propagate_to_image h dev m a = (m', Ok tt) ->
  let s := dev_slm dev in
  (0 <= pad_y m)%Z /\ (0 <= pad_x m)%Z /\ scaling_factor s <> 0 /\ pad_x m' = pad_x m /\ pad_y m' = pad_y m /\
  field_is (f_input m') (NY s m) (NX s m) (pad_of s m F) /\
  field_is (f_output m') (NY s m) (NX s m) (pad_of s m (fun i j => (F i j * S i j)%C)) /\
  field_is (f_image m') (NY s m) (NX s m)
    (fun u v => (fftshift2 (NY s m) (NX s m) (ifft2 (NY s m) (NX s m) (ifftshift2 (NY s m) (NX s m)
       (pad_of s m (fun i j => (F i j * S i j)%C)))) u v * RtoC (norm_of s m))%C).
Proof.
  intros HF HS H s. unfold propagate_to_image in H. fold s in H. unfold full_input in HF. fold s in HF. rewrite HF in H.
  destruct (tf_pad (pad_y m) (pad_x m) (T2 (s_Ny s) (s_Nx s) F)) as [fin|e] eqn:E1; [|discriminate].
  unfold full_state in HS. fold s in HS. rewrite HS in H. cbn [rbind] in H.
  rewrite tmap2_same in H. set (P := fun i j => _) in H.
  assert (EP : forall i j, (i < s_Ny s)%nat -> (j < s_Nx s)%nat -> P i j = (F i j * S i j)%C).
  { intros i j Hi Hj. unfold P. rewrite !tget_T2 by assumption. reflexivity. }
  destruct (tf_pad (pad_y m) (pad_x m) (T2 (s_Ny s) (s_Nx s) P)) as [fout|e] eqn:E2; [|discriminate].
  destruct (Req_EM_T (scaling_factor s) 0) as [E|Hsf]; [discriminate|]. injection H as <-.
  apply tf_pad_ok in E1. destruct E1 as (Hy & Hx & ->). apply tf_pad_ok in E2. destruct E2 as (_ & _ & ->).
  rewrite (NY_eq s m Hy), (NX_eq s m Hx).
  cbn [f_input f_output f_image with_fields field_is to_image tmap teq pad_x pad_y].
  assert (EQ : forall i j, pad_fun (Z.to_nat (pad_y m)) (Z.to_nat (pad_x m)) (s_Ny s) (s_Nx s) P i j
                           = pad_of s m (fun i j => (F i j * S i j)%C) i j).
  { intros. unfold pad_of. apply pad_fun_ext. exact EP. }
  repeat split; auto.
  intros i j Hi Hj. f_equal. unfold fftshift2, ifft2. f_equal. apply csum2_ext; intros i' j' Hi' Hj'.
  f_equal. unfold ifftshift2. apply EQ.
Qed.
(** and it succeeds exactly under the natural conditions. *)
Lemma propagate_succeeds h dev m a F S :
  full_input h (dev_slm dev) a F -> full_state dev S -> (0 <= pad_y m)%Z -> (0 <= pad_x m)%Z -> scaling_factor (dev_slm dev) <> 0 ->
  exists m', propagate_to_image h dev m a = (m', Ok tt).
Proof.
  intros HF HS Hy Hx Hsf. unfold propagate_to_image. unfold full_input in HF. rewrite HF.
  rewrite tf_pad_pos by assumption. unfold full_state in HS. rewrite HS. cbn [rbind]. rewrite tmap2_same.
  rewrite tf_pad_pos by assumption. destruct (Req_EM_T (scaling_factor (dev_slm dev)) 0) as [E|_]; [contradiction|]. eauto.
Qed.

(** ** Powers *)
Lemma teq_tsum t ny nx (f : nat -> nat -> C) : teq t (T2 ny nx f) ->
  tsum (intensity t) = rsum2 ny nx (fun i j => cnorm2 (f i j)).
Proof.
  destruct t as [|ny' nx' g]; cbn [teq]; [contradiction|]. intros (-> & -> & H). cbn [intensity tmap tsum].
  apply rsum2_ext; intros. rewrite H by assumption. reflexivity.
Qed.
Lemma input_power_eq s m ny nx f : field_is (f_input m) ny nx f ->
  get_input_power s m = Ok (pixel_size s ^ 2 * rsum2 ny nx (fun i j => cnorm2 (f i j))).
Proof.
  unfold get_input_power, power, input_intensity. destruct (f_input m) as [t|]; [|contradiction]. cbn [field_is option_map rbind].
  intros H. rewrite (teq_tsum _ _ _ _ H). unfold fourier_plane_pixel_area. f_equal. ring.
Qed.
Lemma output_power_eq s m ny nx f : field_is (f_output m) ny nx f ->
  get_output_power s m = Ok (pixel_size s ^ 2 * rsum2 ny nx (fun i j => cnorm2 (f i j))).
Proof.
  unfold get_output_power, power, output_intensity. destruct (f_output m) as [t|]; [|contradiction]. cbn [field_is option_map rbind].
  intros H. rewrite (teq_tsum _ _ _ _ H). unfold fourier_plane_pixel_area. f_equal. ring.
Qed.
Lemma image_power_eq s m ny nx f : field_is (f_image m) ny nx f -> (0 < sim_Nx s m)%Z -> (0 < sim_Ny s m)%Z -> pixel_size s <> 0 ->
  get_image_plane_power s m
  = Ok (scaling_factor s ^ 2 / IZR (sim_Nx s m * sim_Ny s m) / pixel_size s ^ 2 * rsum2 ny nx (fun i j => cnorm2 (f i j))).
Proof.
  unfold get_image_plane_power, power, image_plane_intensity, image_plane_pixel_area.
  destruct (f_image m) as [t|]; [|contradiction]. cbn [field_is option_map].
  intros H Hx Hy Hps. destruct (Z.eqb_spec (sim_Nx s m * sim_Ny s m) 0) as [E|_]; [nia|].
  destruct (Req_EM_T (pixel_size s) 0) as [E|_]; [contradiction|]. cbn [rbind].
  rewrite (teq_tsum _ _ _ _ H). f_equal. ring.
Qed.
Lemma rsum2_Cmod ny nx f : rsum2 ny nx (fun i j => Cmod (f i j) ^ 2) = rsum2 ny nx (fun i j => cnorm2 (f i j)).
Proof. apply rsum2_ext; intros. symmetry. apply cnorm2_Cmod. Qed.

Lemma power_pad s m f : (0 <= pad_y m)%Z -> (0 <= pad_x m)%Z ->
  rsum2 (NY s m) (NX s m) (fun i j => cnorm2 (pad_of s m f i j)) = rsum2 (s_Ny s) (s_Nx s) (fun i j => cnorm2 (f i j)).
Proof.
  intros Hy Hx. rewrite <- (NY_eq s m Hy), <- (NX_eq s m Hx). unfold pad_of. apply (rsum2_pad _ _ _ _ f cnorm2). apply cnorm2_0.
Qed.
Lemma image_energy ny nx f c : (0 < ny)%nat -> (0 < nx)%nat ->
  rsum2 ny nx (fun u v => cnorm2 (fftshift2 ny nx (ifft2 ny nx (ifftshift2 ny nx f)) u v * RtoC c)%C)
  = c ^ 2 / INR (ny * nx) * rsum2 ny nx (fun i j => cnorm2 (f i j)).
Proof.
  intros Hy Hx. assert (HN : INR (ny * nx) <> 0) by (apply INR_neq_0; nia).
  set (g := fun u v => cnorm2 (ifft2 ny nx (ifftshift2 ny nx f) u v)).
  transitivity (c ^ 2 * rsum2 ny nx (fftshift2 ny nx g)).
  { rewrite <- rsum2_scal_l. apply rsum2_ext; intros. rewrite cnorm2_mult, cnorm2_RtoC. unfold g, fftshift2. ring. }
  rewrite rsum2_fftshift. unfold g. assert (HP := ifft2_parseval ny nx (ifftshift2 ny nx f)).
  assert (HS : rsum2 ny nx (fun i j => cnorm2 (ifftshift2 ny nx f i j)) = rsum2 ny nx (fun i j => cnorm2 (f i j))).
  { apply (rsum2_ifftshift ny nx (fun i j => cnorm2 (f i j))). }
  rewrite HS in HP. rewrite <- HP. field. exact HN.
Qed.

Lemma powers_after h dev m a F S m' :
  let s := dev_slm dev in
  full_input h s a F -> full_state dev S -> propagate_to_image h dev m a = (m', Ok tt) ->
  (0 < s_Nx s)%nat -> (0 < s_Ny s)%nat -> pixel_size s <> 0 ->
  get_input_power s m' = Ok (power_of (pixel_size s ^ 2) (s_Ny s) (s_Nx s) F) /\
  get_output_power s m' = Ok (power_of (pixel_size s ^ 2) (s_Ny s) (s_Nx s) (fun i j => (F i j * S i j)%C)) /\
  get_image_plane_power s m' = Ok (power_of (pixel_size s ^ 2) (s_Ny s) (s_Nx s) (fun i j => (F i j * S i j)%C)).
Proof.
  intros s HF HS H Hnx Hny Hps. destruct (propagate_inv _ _ _ _ _ _ _ HF HS H) as (Hy & Hx & Hsf & Epx & Epy & Hin & Hout & Him).
  fold s in Hsf, Hin, Hout, Him. unfold power_of. rewrite !rsum2_Cmod.
  assert (Px : (0 < sim_Nx s m)%Z) by (unfold sim_Nx; lia). assert (Py : (0 < sim_Ny s m)%Z) by (unfold sim_Ny; lia).
  split; [|split].
  - rewrite (input_power_eq _ _ _ _ _ Hin). rewrite power_pad by assumption. reflexivity.
  - rewrite (output_power_eq _ _ _ _ _ Hout). rewrite power_pad by assumption. reflexivity.
  - assert (Qx : sim_Nx s m' = sim_Nx s m) by (unfold sim_Nx; rewrite Epx; reflexivity).
    assert (Qy : sim_Ny s m' = sim_Ny s m) by (unfold sim_Ny; rewrite Epy; reflexivity).
    rewrite (image_power_eq _ _ _ _ _ Him) by (rewrite ?Qx, ?Qy; assumption). rewrite Qx, Qy. f_equal.
    rewrite image_energy by (unfold NX, NY, sim_Nx, sim_Ny in *; lia). rewrite power_pad by assumption.
    assert (EN : INR (NY s m * NX s m) = IZR (sim_Nx s m * sim_Ny s m)).
    { rewrite INR_IZR_INZ. f_equal. unfold NY, NX, sim_Nx, sim_Ny in *. rewrite Nat2Z.inj_mul, !Z2Nat.id by lia. ring. }
    rewrite EN. unfold norm_of. field. repeat split; try assumption. apply not_0_IZR. nia.
Qed.
