(** More facts about the simulation: passivity, linearity, Fraunhofer form, blocking, histories. *)
From Coq Require Import Reals Lra ZArith Arith List Bool Lia.
From Coquelicot Require Import Complex.
From Verif Require Import Cx Sums DFT PyBase ProfileModel SlmModel LibModel DmdModel SimModel SimSpec GridFacts SimFacts.
Import ListNotations.
Open Scope R_scope.

(** ** DMD and LCOS states as transmissions *)
Lemma state_bool d b : d_state d = DBool (s_Ny (d_slm d)) (s_Nx (d_slm d)) b ->
  full_state (DevDmd d) (fun i j => RtoC (if b i j then 1 else 0)).
Proof. intros H. unfold full_state, state_tensor. cbn [dev_slm]. rewrite H. reflexivity. Qed.
Lemma allb_true f n : (forall i, (i < n)%nat -> f i = true) -> allb f n = true.
Proof. induction n as [|n IH]; intros H; [reflexivity|]. cbn [allb]. rewrite IH, H by auto. reflexivity. Qed.
Lemma allb2_true f ny nx : (forall i j, (i < ny)%nat -> (j < nx)%nat -> f i j = true) -> allb2 f ny nx = true.
Proof. induction ny as [|ny IH]; intros H; [reflexivity|]. cbn [allb2]. rewrite IH, allb_true by auto. reflexivity. Qed.
Lemma allb_inv f n : allb f n = true -> forall i, (i < n)%nat -> f i = true.
Proof.
  induction n as [|n IH]; cbn [allb]; intros H i Hi; [lia|]. apply andb_prop in H as [H1 H2].
  destruct (Nat.eq_dec i n) as [->|]; [exact H2|apply IH; [exact H1|lia]].
Qed.
Lemma allb2_inv f ny nx : allb2 f ny nx = true -> forall i j, (i < ny)%nat -> (j < nx)%nat -> f i j = true.
Proof.
  induction ny as [|n IH]; cbn [allb2]; intros H i j Hi Hj; [lia|]. apply andb_prop in H as [H1 H2].
  destruct (Nat.eq_dec i n) as [->|]; [apply (allb_inv _ _ H2); exact Hj|apply IH; [exact H1|lia|exact Hj]].
Qed.
Lemma state_float d g : d_state d = DFloat (s_Ny (d_slm d)) (s_Nx (d_slm d)) (fun i j => Fin (g i j)) ->
  full_state (DevDmd d) (fun i j => RtoC (g i j)).
Proof.
  intros H. unfold full_state, state_tensor. cbn [dev_slm]. rewrite H.
  rewrite allb2_true by reflexivity. reflexivity.
Qed.
Lemma state_phase l ph : l_state l = LReal (s_Ny (l_slm l)) (s_Nx (l_slm l)) ph ->
  full_state (DevLcos l) (fun i j => cexp (- Ci * RtoC (ph i j))%C).
Proof. intros H. unfold full_state, state_tensor. cbn [dev_slm]. rewrite H. reflexivity. Qed.
Lemma cexp_mi r : cexp (- Ci * RtoC r)%C = cis (- r).
Proof.
  unfold cexp, cis, Ci, Cmult, Copp, RtoC. cbn [fst snd].
  assert (E1 : - (0) * r - - (1) * 0 = 0) by ring. assert (E2 : - (0) * 0 + - (1) * r = - r) by ring.
  rewrite E1, E2, exp_0. f_equal; ring.
Qed.
Lemma power_le a ny nx f g : 0 <= a -> (forall i j, (i < ny)%nat -> (j < nx)%nat -> Cmod (f i j) <= Cmod (g i j)) ->
  power_of a ny nx f <= power_of a ny nx g.
Proof.
  intros Ha H. unfold power_of. apply Rmult_le_compat_l; [exact Ha|]. apply rsum2_le; intros i j Hi Hj.
  apply pow_incr. split; [apply Cmod_ge_0|auto].
Qed.
Lemma power_ext a ny nx f g : (forall i j, (i < ny)%nat -> (j < nx)%nat -> Cmod (f i j) = Cmod (g i j)) ->
  power_of a ny nx f = power_of a ny nx g.
Proof. intros H. unfold power_of. f_equal. apply rsum2_ext; intros. rewrite H by assumption. reflexivity. Qed.
Lemma power_zero a ny nx f : (forall i j, (i < ny)%nat -> (j < nx)%nat -> f i j = RtoC 0) -> power_of a ny nx f = 0.
Proof.
  intros H. unfold power_of. rewrite (rsum2_ext ny nx _ (fun _ _ => 0)).
  - rewrite rsum2_0. ring.
  - intros. rewrite H by assumption. rewrite Cmod_0. ring.
Qed.
Lemma field_is_ext o ny nx f g : (forall i j, (i < ny)%nat -> (j < nx)%nat -> f i j = g i j) -> field_is o ny nx f -> field_is o ny nx g.
Proof.
  intros H. destruct o as [[|ny' nx' k]|]; cbn [field_is teq]; auto. intros (-> & -> & E). repeat split; auto.
  intros. rewrite E, H by assumption. reflexivity.
Qed.
Lemma pad_of_ext s m f g i j : (forall i j, (i < s_Ny s)%nat -> (j < s_Nx s)%nat -> f i j = g i j) -> pad_of s m f i j = pad_of s m g i j.
Proof. apply pad_fun_ext. Qed.
Lemma field_is_inj o ny nx f ny' nx' g : field_is o ny nx f -> field_is o ny' nx' g ->
  ny = ny' /\ nx = nx' /\ forall i j, (i < ny)%nat -> (j < nx)%nat -> f i j = g i j.
Proof.
  destruct o as [[|a b k]|]; cbn [field_is teq]; try contradiction. intros (-> & -> & H) (-> & -> & H').
  repeat split; auto. intros. rewrite <- H, <- H' by assumption. reflexivity.
Qed.
Lemma field_is_self o ny nx f g : field_is o ny nx f -> (exists t, o = Some t /\ forall i j, (i < ny)%nat -> (j < nx)%nat -> tget t i j = g i j) ->
  field_is o ny nx g.
Proof.
  destruct o as [[|a b k]|]; cbn [field_is teq]; try contradiction. intros (-> & -> & H) (t & E & H'). injection E as <-.
  repeat split; auto. intros. rewrite <- H' by assumption. rewrite tget_T2 by assumption. reflexivity.
Qed.

(** ** Fraunhofer form *)
(** Normalised image as a centred sum. *)
Lemma norm_sum s m : (0 < s_Nx s)%nat -> (0 < s_Ny s)%nat -> (0 <= pad_y m)%Z -> (0 <= pad_x m)%Z -> scaling_factor s <> 0 -> forall z : C,
  (z / RtoC (INR (NY s m * NX s m)) * RtoC (norm_of s m) = RtoC (pixel_size s ^ 2 / scaling_factor s) * z)%C.
Proof.
  intros Hnx Hny Hy Hx Hsf z.
  assert (EN : IZR (sim_Nx s m * sim_Ny s m) = INR (NY s m * NX s m)).
  { rewrite INR_IZR_INZ. f_equal. unfold NY, NX, sim_Nx, sim_Ny in *. rewrite Nat2Z.inj_mul, !Z2Nat.id by (unfold sim_Nx, sim_Ny; lia). ring. }
  assert (HN : INR (NY s m * NX s m) <> 0) by (apply INR_neq_0; unfold NY, NX, sim_Nx, sim_Ny; nia).
  unfold norm_of. rewrite EN.
  replace (INR (NY s m * NX s m) * pixel_size s ^ 2 / scaling_factor s)
     with (INR (NY s m * NX s m) * (pixel_size s ^ 2 / scaling_factor s)) by (field; exact Hsf).
  rewrite RtoC_mult. field. apply RtoC_neq_0. exact HN.
Qed.
Lemma kernel_phys n p N (j v : nat) : (0 < n)%nat -> INR n = INR N + 2 * IZR p ->
  exists c, IZR ((Z.of_nat j - Z.of_nat (n / 2)) * (Z.of_nat v - Z.of_nat (n / 2))) / INR n
    = (IZR (Z.of_nat j - p) - INR N / 2) * (IZR (Z.of_nat v - Z.of_nat (n / 2)) / INR n) + c * IZR (Z.of_nat v - Z.of_nat (n / 2)) / INR n
    /\ c = INR n / 2 - INR (n / 2).
Proof.
  intros Hn E. eexists. split; [|reflexivity]. assert (INR n <> 0) by (apply INR_neq_0; exact Hn).
  rewrite mult_IZR, !minus_IZR, <- !INR_IZR_INZ. replace (INR N) with (INR n - 2 * IZR p) by lra. field. assumption.
Qed.
Lemma even_half n : Nat.even n = true -> INR n / 2 - INR (n / 2) = 0.
Proof.
  intros H. apply Nat.even_spec in H. destruct H as [k ->]. rewrite Nat.mul_comm, Nat.div_mul by lia. rewrite mult_INR. simpl. field.
Qed.
Lemma odd_phase_even ny nx u v : Nat.even ny = true -> Nat.even nx = true -> odd_phase ny nx u v = RtoC 1.
Proof.
  intros Hy Hx. unfold odd_phase. rewrite (even_half ny Hy), (even_half nx Hx).
  replace (2 * PI * _) with 0 by (unfold Rdiv; ring). apply cis_0.
Qed.
Lemma fraunhofer h dev m a F S m' x y X Y :
  let s := dev_slm dev in
  full_input h s a F -> full_state dev S -> propagate_to_image h dev m a = (m', Ok tt) ->
  (0 < s_Nx s)%nat -> (0 < s_Ny s)%nat -> pixel_size s <> 0 ->
  grid_is (fourier_plane_padded_grid s m) (NY s m) (NX s m) x y ->
  grid_is (image_plane_padded_grid s m) (NY s m) (NX s m) X Y ->
  exists E, field_is (f_output m') (NY s m) (NX s m) E /\
  field_is (f_image m') (NY s m) (NX s m) (fun u v =>
    (odd_phase (NY s m) (NX s m) u v * (RtoC (pixel_size s ^ 2 / scaling_factor s) *
      csum2 (NY s m) (NX s m) (fun i j => (E i j * cis (2 * PI * (x i j * X u v + y i j * Y u v) / scaling_factor s))%C)))%C).
Proof.
  intros s HF HS H Hnx Hny Hps Gx GX.
  destruct (propagate_inv _ _ _ _ _ _ _ HF HS H) as (Hy & Hx & Hsf & Epx & Epy & Hin & Hout & Him).
  fold s in Hsf, Hin, Hout, Him. set (E := pad_of s m (fun i j => (F i j * S i j)%C)) in *. exists E. split; [exact Hout|].
  eapply field_is_ext; [|exact Him]. intros u v Hu Hv. cbv beta.
  rewrite to_image_centred by assumption. rewrite norm_sum by assumption.
  rewrite Cmult_assoc, (Cmult_comm (odd_phase _ _ _ _)), <- Cmult_assoc. f_equal.
  rewrite <- csum2_scal_l. apply csum2_ext; intros i j Hi Hj.
  rewrite Cmult_assoc, (Cmult_comm (odd_phase _ _ _ _)), <- Cmult_assoc. f_equal.
  unfold odd_phase, kern. rewrite <- cis_plus. f_equal.
  destruct (grid_is_get _ _ _ _ _ i j Gx Hi Hj) as [E1 E2].
  destruct (grid_is_get _ _ _ _ _ i j (fourier_plane_padded_grid_is s m Hy Hx) Hi Hj) as [E3 E4].
  destruct (grid_is_get _ _ _ _ _ u v GX Hu Hv) as [E5 E6].
  destruct (grid_is_get _ _ _ _ _ u v (image_grid_of_is (NX s m) (NY s m) (pixel_size s) (scaling_factor s) Hps) Hu Hv) as [E7 E8].
  cbv beta in *. rewrite <- E1, <- E2, <- E5, <- E6. unfold image_plane_padded_grid, NX, NY, sim_Nx, sim_Ny in *.
  rewrite E3, E4, E7, E8. fold (NX s m) (NY s m) in *.
  assert (HNy : INR (NY s m) = INR (s_Ny s) + 2 * IZR (pad_y m)).
  { rewrite !INR_IZR_INZ. unfold NY, sim_Ny. rewrite Z2Nat.id by lia. rewrite plus_IZR, mult_IZR. reflexivity. }
  assert (HNx : INR (NX s m) = INR (s_Nx s) + 2 * IZR (pad_x m)).
  { rewrite !INR_IZR_INZ. unfold NX, sim_Nx. rewrite Z2Nat.id by lia. rewrite plus_IZR, mult_IZR. reflexivity. }
  assert (P1 : (0 < NY s m)%nat) by lia. assert (P2 : (0 < NX s m)%nat) by lia.
  destruct (kernel_phys _ _ (s_Ny s) i u P1 HNy) as (cy & -> & ->).
  destruct (kernel_phys _ _ (s_Nx s) j v P2 HNx) as (cx & -> & ->).
  field. repeat split; try assumption; apply INR_neq_0; assumption.
Qed.

(** ** Linearity *)
Lemma linear_image ny nx (E1 E2 : nat -> nat -> C) (a b c : C) u v : (u < ny)%nat -> (v < nx)%nat ->
  (fftshift2 ny nx (ifft2 ny nx (ifftshift2 ny nx (fun i j => a * E1 i j + b * E2 i j))) u v * c
  = a * (fftshift2 ny nx (ifft2 ny nx (ifftshift2 ny nx E1)) u v * c) + b * (fftshift2 ny nx (ifft2 ny nx (ifftshift2 ny nx E2)) u v * c))%C.
Proof.
  intros Hu Hv. unfold fftshift2, ifftshift2.
  rewrite (ifft2_plus ny nx (fun i j => a * E1 (ishift_idx ny i) (ishift_idx nx j))%C (fun i j => b * E2 (ishift_idx ny i) (ishift_idx nx j))%C).
  rewrite (ifft2_scal ny nx a (fun i j => E1 (ishift_idx ny i) (ishift_idx nx j))).
  rewrite (ifft2_scal ny nx b (fun i j => E2 (ishift_idx ny i) (ishift_idx nx j))). ring.
Qed.
Lemma pad_of_lin s m (a b : C) f g i j :
  pad_of s m (fun i j => (a * f i j + b * g i j)%C) i j = (a * pad_of s m f i j + b * pad_of s m g i j)%C.
Proof.
  unfold pad_of, pad_fun.
  destruct (Nat.leb _ i && Nat.ltb i _ && Nat.leb _ j && Nat.ltb j _)%bool; [reflexivity|ring].
Qed.
Lemma propagate_linear h dev m a1 a2 a3 F1 F2 S m1 m2 (a b : C) :
  let s := dev_slm dev in
  full_input h s a1 F1 -> full_input h s a2 F2 -> full_input h s a3 (fun i j => (a * F1 i j + b * F2 i j)%C) -> full_state dev S ->
  propagate_to_image h dev m a1 = (m1, Ok tt) -> propagate_to_image h dev m a2 = (m2, Ok tt) ->
  exists m3 g1 g2 o1 o2, propagate_to_image h dev m a3 = (m3, Ok tt) /\
    field_is (f_image m1) (NY s m) (NX s m) g1 /\ field_is (f_image m2) (NY s m) (NX s m) g2 /\
    field_is (f_image m3) (NY s m) (NX s m) (fun u v => (a * g1 u v + b * g2 u v)%C) /\
    field_is (f_output m1) (NY s m) (NX s m) o1 /\ field_is (f_output m2) (NY s m) (NX s m) o2 /\
    field_is (f_output m3) (NY s m) (NX s m) (fun u v => (a * o1 u v + b * o2 u v)%C).
Proof.
  intros s H1 H2 H3 HS P1 P2.
  destruct (propagate_inv _ _ _ _ _ _ _ H1 HS P1) as (Hy & Hx & Hsf & _ & _ & _ & Ho1 & Hi1).
  destruct (propagate_inv _ _ _ _ _ _ _ H2 HS P2) as (_ & _ & _ & _ & _ & _ & Ho2 & Hi2).
  destruct (propagate_succeeds h dev m a3 _ S H3 HS Hy Hx Hsf) as [m3 P3].
  destruct (propagate_inv _ _ _ _ _ _ _ H3 HS P3) as (_ & _ & _ & _ & _ & _ & Ho3 & Hi3).
  fold s in Hsf, Ho1, Hi1, Ho2, Hi2, Ho3, Hi3. exists m3. do 4 eexists. split; [exact P3|]. split; [exact Hi1|]. split; [exact Hi2|].
  assert (EP : forall i j, pad_of s m (fun i j => ((a * F1 i j + b * F2 i j) * S i j)%C) i j
     = (a * pad_of s m (fun i j => (F1 i j * S i j)%C) i j + b * pad_of s m (fun i j => (F2 i j * S i j)%C) i j)%C).
  { intros. rewrite <- pad_of_lin. apply pad_of_ext. intros; ring. }
  split; [|split; [exact Ho1|split; [exact Ho2|]]].
  - eapply field_is_ext; [|exact Hi3]. intros u v Hu Hv. cbv beta. rewrite <- linear_image by assumption.
    f_equal. unfold fftshift2. apply ifft2_ext. intros i j Hi Hj. unfold ifftshift2. apply EP.
  - eapply field_is_ext; [|exact Ho3]. intros u v Hu Hv. apply EP.
Qed.

(** ** Blocking the zeroth order *)
Lemma block_spec d m r f X Y : (r = None -> d_p d <> 0) -> f_output m <> None ->
  field_is (f_image m) (NY (d_slm d) m) (NX (d_slm d) m) f ->
  grid_is (image_plane_padded_grid (d_slm d) m) (NY (d_slm d) m) (NX (d_slm d) m) X Y ->
  exists m', block_zeroth_order d m r = (m', Ok tt) /\ f_input m' = f_input m /\ f_output m' = f_output m /\
    pad_x m' = pad_x m /\ pad_y m' = pad_y m /\
    field_is (f_image m') (NY (d_slm d) m) (NX (d_slm d) m) (fun u v => blanked (X u v) (Y u v) (block_radius d r) (f u v)).
Proof.
  intros Hp Ho Hf Hg. unfold block_zeroth_order. destruct (f_output m) as [o|]; [|congruence].
  assert (ER : match r with Some r => Fin r | None => xdiv (xdiv (Fin (scaling_factor (d_slm d))) (Fin (d_p d))) (Fin 2) end = Fin (block_radius d r)).
  { destruct r as [r|]; [reflexivity|]. cbn [xdiv]. destruct (Req_EM_T (d_p d) 0); [exfalso; apply (Hp eq_refl); assumption|]. cbn [xdiv]. destruct (Req_EM_T 2 0); [lra|]. reflexivity. }
  rewrite ER. set (R0 := block_radius d r).
  destruct (grid_is_shape _ _ _ _ _ Hg) as (gx & gy & EG). rewrite EG.
  destruct (f_image m) as [t|]; [|contradiction]. destruct t as [|ny nx k]; [contradiction|].
  destruct Hf as (-> & -> & Hk). rewrite tmap2_same. eexists. split; [reflexivity|].
  cbn [with_fields f_input f_output f_image pad_x pad_y]. repeat (split; [reflexivity|]).
  cbn [field_is teq]. repeat (split; [reflexivity|]). intros u v Hu Hv.
  destruct (grid_is_get _ _ _ _ _ u v Hg Hu Hv) as [E1 E2]. rewrite EG in E1, E2. cbn [fst snd] in E1, E2.
  rewrite !tget_T2 by assumption. rewrite Hk by assumption. unfold blanked. cbn [fst snd below].
  rewrite tget_T2 in E1, E2 by assumption. rewrite E1, E2. fold R0. destruct (Rlt_dec _ _); reflexivity.
Qed.
Lemma blanked_idem x y r z : blanked x y r (blanked x y r z) = blanked x y r z.
Proof. unfold blanked. destruct Rlt_dec; reflexivity. Qed.
Lemma blanked_le x y r z : cnorm2 (blanked x y r z) <= cnorm2 z.
Proof. unfold blanked. destruct Rlt_dec; [rewrite cnorm2_0; apply cnorm2_ge_0|lra]. Qed.
