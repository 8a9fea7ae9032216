(** Property-level facts about the simulation. *)
From Coq Require Import Reals Lra ZArith Arith List Bool Lia.
From Coquelicot Require Import Complex.
From Verif Require Import Cx Sums DFT PyBase ProfileModel SlmModel LibModel DmdModel OriginFacts SimModel SimSpec GridFacts SimFacts SimFacts2.
Import ListNotations.
Open Scope R_scope.

Section One.
Variables (h : heap) (dev : device) (m m' : sim) (a : parg) (F : nat -> nat -> C).
Let s := dev_slm dev.
Hypothesis Hin : full_input h s a F.
Hypothesis Hrun : propagate_to_image h dev m a = (m', Ok tt).
Hypothesis Hnx : (0 < s_Nx s)%nat.
Hypothesis Hny : (0 < s_Ny s)%nat.
Hypothesis Hps : pixel_size s <> 0.

Lemma image_power_is_output_power S : full_state dev S ->
  exists P, get_output_power s m' = Ok P /\ get_image_plane_power s m' = Ok P /\
            P = power_of (pixel_size s ^ 2) (s_Ny s) (s_Nx s) (fun i j => (F i j * S i j)%C).
Proof.
  intros HS. destruct (powers_after _ _ _ _ _ _ _ Hin HS Hrun Hnx Hny Hps) as (_ & H1 & H2). eauto.
Qed.
Lemma three_powers S : full_state dev S ->
  get_input_power s m' = Ok (power_of (pixel_size s ^ 2) (s_Ny s) (s_Nx s) F) /\
  get_output_power s m' = Ok (power_of (pixel_size s ^ 2) (s_Ny s) (s_Nx s) (fun i j => (F i j * S i j)%C)) /\
  get_image_plane_power s m' = get_output_power s m'.
Proof.
  intros HS. destruct (powers_after _ _ _ _ _ _ _ Hin HS Hrun Hnx Hny Hps) as (H0 & H1 & H2).
  fold s in H0, H1, H2.
  split; [exact H0|]. split; [exact H1|]. rewrite H1, H2. reflexivity.
Qed.
End One.

Lemma padding_invariant h dev m1 m2 a F S m1' m2' :
  let s := dev_slm dev in
  full_input h s a F -> full_state dev S -> (0 < s_Nx s)%nat -> (0 < s_Ny s)%nat -> pixel_size s <> 0 ->
  propagate_to_image h dev m1 a = (m1', Ok tt) -> propagate_to_image h dev m2 a = (m2', Ok tt) ->
  get_input_power s m1' = get_input_power s m2' /\ get_output_power s m1' = get_output_power s m2' /\
  get_image_plane_power s m1' = get_image_plane_power s m2'.
Proof.
  intros s HF HS Hx Hy Hp P1 P2.
  destruct (powers_after _ _ _ _ _ _ _ HF HS P1 Hx Hy Hp) as (A1 & A2 & A3).
  destruct (powers_after _ _ _ _ _ _ _ HF HS P2 Hx Hy Hp) as (B1 & B2 & B3).
  subst s. rewrite A1, A2, A3, B1, B2, B3. auto.
Qed.

Lemma Cmod_real_scale (z : C) g : 0 <= g <= 1 -> Cmod (z * RtoC g)%C <= Cmod z.
Proof.
  intros Hg. rewrite Cmod_mult, Cmod_R, Rabs_pos_eq by lra. rewrite <- (Rmult_1_r (Cmod z)) at 2.
  apply Rmult_le_compat_l; [apply Cmod_ge_0|lra].
Qed.
Lemma grey_passive h d m a F g m' :
  let s := d_slm d in
  full_input h s a F -> d_state d = DFloat (s_Ny s) (s_Nx s) (fun i j => Fin (g i j)) ->
  (forall i j, (i < s_Ny s)%nat -> (j < s_Nx s)%nat -> 0 <= g i j <= 1) ->
  propagate_to_image h (DevDmd d) m a = (m', Ok tt) -> (0 < s_Nx s)%nat -> (0 < s_Ny s)%nat -> pixel_size s <> 0 ->
  exists Pin Pout, get_input_power s m' = Ok Pin /\ get_output_power s m' = Ok Pout /\ Pout <= Pin /\
    get_image_plane_power s m' = Ok Pout.
Proof.
  intros s HF Hd Hg HP Hx Hy Hp. assert (HS := state_float d g Hd).
  destruct (powers_after h (DevDmd d) m a F _ m' HF HS HP Hx Hy Hp) as (A1 & A2 & A3).
  do 2 eexists. split; [exact A1|]. split; [exact A2|]. split; [|exact A3].
  apply power_le; [apply pow2_ge_0|]. intros i j Hi Hj. apply Cmod_real_scale. auto.
Qed.
Lemma binary_power h d m a F b m' :
  let s := d_slm d in
  full_input h s a F -> d_state d = DBool (s_Ny s) (s_Nx s) b ->
  propagate_to_image h (DevDmd d) m a = (m', Ok tt) -> (0 < s_Nx s)%nat -> (0 < s_Ny s)%nat -> pixel_size s <> 0 ->
  get_input_power s m' = Ok (power_of (pixel_size s ^ 2) (s_Ny s) (s_Nx s) F) /\
  get_output_power s m' = Ok (power_of (pixel_size s ^ 2) (s_Ny s) (s_Nx s) (fun i j => if b i j then F i j else RtoC 0)) /\
  get_image_plane_power s m' = get_output_power s m' /\
  power_of (pixel_size s ^ 2) (s_Ny s) (s_Nx s) (fun i j => if b i j then F i j else RtoC 0)
    <= power_of (pixel_size s ^ 2) (s_Ny s) (s_Nx s) F.
Proof.
  intros s HF Hd HP Hx Hy Hp. assert (HS := state_bool d b Hd).
  destruct (powers_after h (DevDmd d) m a F _ m' HF HS HP Hx Hy Hp) as (A1 & A2 & A3). cbn [dev_slm] in *. fold s in A1, A2, A3.
  rewrite A3. split; [exact A1|].
  assert (E : power_of (pixel_size s ^ 2) (s_Ny s) (s_Nx s) (fun i j => (F i j * RtoC (if b i j then 1 else 0))%C)
     = power_of (pixel_size s ^ 2) (s_Ny s) (s_Nx s) (fun i j => if b i j then F i j else RtoC 0)).
  { apply power_ext. intros i j _ _. destruct (b i j); [rewrite Cmult_1_r|rewrite Cmult_0_r]; reflexivity. }
  rewrite A2, E. split; [reflexivity|]. split; [reflexivity|].
  apply power_le; [apply pow2_ge_0|]. intros i j _ _. destruct (b i j); [lra|rewrite Cmod_0; apply Cmod_ge_0].
Qed.
Lemma mirrors_on h d m a F m' :
  let s := d_slm d in
  full_input h s a F -> propagate_to_image h (DevDmd (set_dmd_state_on d)) m a = (m', Ok tt) ->
  exists ny nx E, field_is (f_input m') ny nx E /\ field_is (f_output m') ny nx E.
Proof.
  intros s HF HP. assert (HS := state_bool (set_dmd_state_on d) (fun _ _ => true) eq_refl).
  destruct (propagate_inv h (DevDmd (set_dmd_state_on d)) m a F _ m' HF HS HP) as (_ & _ & _ & _ & _ & H1 & H2 & _).
  do 3 eexists. split; [exact H1|]. eapply field_is_ext; [|exact H2]. intros. apply pad_of_ext. intros. apply Cmult_1_r.
Qed.
Lemma mirrors_off h d m a F m' :
  let s := d_slm d in
  full_input h s a F -> propagate_to_image h (DevDmd (set_dmd_state_off d)) m a = (m', Ok tt) ->
  (0 < s_Nx s)%nat -> (0 < s_Ny s)%nat -> pixel_size s <> 0 ->
  get_output_power s m' = Ok 0 /\ get_image_plane_power s m' = Ok 0.
Proof.
  intros s HF HP Hx Hy Hp.
  destruct (binary_power h (set_dmd_state_off d) m a F (fun _ _ => false) m' HF eq_refl HP Hx Hy Hp) as (_ & H2 & H3 & _).
  change (d_slm (set_dmd_state_off d)) with s in H2, H3. rewrite H3, H2. rewrite power_zero by reflexivity. auto.
Qed.
Lemma lcos_lossless h l m a F ph m' :
  let s := l_slm l in
  full_input h s a F -> l_state l = LReal (s_Ny s) (s_Nx s) ph ->
  propagate_to_image h (DevLcos l) m a = (m', Ok tt) -> (0 < s_Nx s)%nat -> (0 < s_Ny s)%nat -> pixel_size s <> 0 ->
  (exists ny nx Ei Eo, field_is (f_input m') ny nx Ei /\ field_is (f_output m') ny nx Eo /\
     forall i j, (i < ny)%nat -> (j < nx)%nat -> Cmod (Eo i j) = Cmod (Ei i j)) /\
  get_output_power s m' = get_input_power s m' /\ get_image_plane_power s m' = get_input_power s m'.
Proof.
  intros s HF Hl HP Hx Hy Hp. assert (HS := state_phase l ph Hl).
  destruct (propagate_inv h (DevLcos l) m a F _ m' HF HS HP) as (_ & _ & _ & _ & _ & H1 & H2 & _).
  destruct (powers_after h (DevLcos l) m a F _ m' HF HS HP Hx Hy Hp) as (A1 & A2 & A3). cbn [dev_slm] in *. fold s in A1, A2, A3.
  assert (E : forall i j, Cmod (F i j * cexp (- Ci * RtoC (ph i j)))%C = Cmod (F i j)).
  { intros. rewrite cexp_mi, Cmod_mult, Cmod_cis. ring. }
  split.
  - do 4 eexists. split; [exact H1|]. split; [exact H2|]. intros i j _ _. unfold pad_of, pad_fun.
    destruct (_ && _)%bool; [apply E|reflexivity].
  - rewrite A1, A2, A3. assert (E2 : power_of (pixel_size s ^ 2) (s_Ny s) (s_Nx s) (fun i j => (F i j * cexp (- Ci * RtoC (ph i j)))%C)
      = power_of (pixel_size s ^ 2) (s_Ny s) (s_Nx s) F) by (apply power_ext; intros; apply E).
    rewrite E2. auto.
Qed.
Lemma power_scales h dev m a1 a2 F S m1 m2 (c : C) :
  let s := dev_slm dev in
  full_input h s a1 F -> full_input h s a2 (fun i j => (c * F i j)%C) -> full_state dev S ->
  propagate_to_image h dev m a1 = (m1, Ok tt) -> propagate_to_image h dev m a2 = (m2, Ok tt) ->
  (0 < s_Nx s)%nat -> (0 < s_Ny s)%nat -> pixel_size s <> 0 ->
  get_input_power s m2 = rmap (Rmult (Cmod c ^ 2)) (get_input_power s m1) /\
  get_output_power s m2 = rmap (Rmult (Cmod c ^ 2)) (get_output_power s m1) /\
  get_image_plane_power s m2 = rmap (Rmult (Cmod c ^ 2)) (get_image_plane_power s m1).
Proof.
  intros s H1 H2 HS P1 P2 Hx Hy Hp.
  destruct (powers_after _ _ _ _ _ _ _ H1 HS P1 Hx Hy Hp) as (A1 & A2 & A3).
  destruct (powers_after _ _ _ _ _ _ _ H2 HS P2 Hx Hy Hp) as (B1 & B2 & B3). fold s in A1, A2, A3, B1, B2, B3.
  rewrite A1, A2, A3, B1, B2, B3. cbn [rmap]. unfold power_of.
  assert (E : forall G, rsum2 (s_Ny s) (s_Nx s) (fun i j => Cmod (c * G i j)%C ^ 2) = Cmod c ^ 2 * rsum2 (s_Ny s) (s_Nx s) (fun i j => Cmod (G i j) ^ 2)).
  { intros G. rewrite <- rsum2_scal_l. apply rsum2_ext; intros. rewrite Cmod_mult. ring. }
  repeat split; f_equal.
  - rewrite E. ring.
  - rewrite (rsum2_ext _ _ _ (fun i j => Cmod (c * (F i j * S i j))%C ^ 2)); [rewrite E; ring|]. intros. rewrite Cmult_assoc. reflexivity.
  - rewrite (rsum2_ext _ _ _ (fun i j => Cmod (c * (F i j * S i j))%C ^ 2)); [rewrite E; ring|]. intros. rewrite Cmult_assoc. reflexivity.
Qed.

(** ** C08 *)
Lemma fraunhofer_even h dev m a F S m' x y X Y :
  let s := dev_slm dev in
  full_input h s a F -> full_state dev S -> propagate_to_image h dev m a = (m', Ok tt) ->
  (0 < s_Nx s)%nat -> (0 < s_Ny s)%nat -> pixel_size s <> 0 -> Nat.even (s_Nx s) = true -> Nat.even (s_Ny s) = true ->
  grid_is (fourier_plane_padded_grid s m) (NY s m) (NX s m) x y ->
  grid_is (image_plane_padded_grid s m) (NY s m) (NX s m) X Y ->
  exists E, field_is (f_output m') (NY s m) (NX s m) E /\
  field_is (f_image m') (NY s m) (NX s m) (fun u v =>
    (RtoC (pixel_size s ^ 2 / (wavelength s * focal_length s)) *
      csum2 (NY s m) (NX s m) (fun i j => (E i j * cis (2 * PI * (x i j * X u v + y i j * Y u v) / (wavelength s * focal_length s)))%C))%C).
Proof.
  intros s HF HS HP Hx Hy Hp Ex Ey G1 G2.
  destruct (propagate_inv _ _ _ _ _ _ _ HF HS HP) as (Py & Px & _).
  destruct (fraunhofer _ _ _ _ _ _ _ _ _ _ _ HF HS HP Hx Hy Hp G1 G2) as (E & H1 & H2). exists E. split; [exact H1|].
  eapply field_is_ext; [|exact H2]. intros u v Hu Hv. cbv beta.
  assert (Q : forall n p, (0 <= p)%Z -> Nat.even n = true -> Nat.even (Z.to_nat (Z.of_nat n + 2 * p)) = true).
  { intros n p Hp0 He. replace (Z.to_nat (Z.of_nat n + 2 * p)) with (n + 2 * Z.to_nat p)%nat by lia.
    rewrite Nat.even_add, He, Nat.even_mul. reflexivity. }
  rewrite odd_phase_even by (unfold NX, NY; apply Q; assumption). rewrite Cmult_1_l. reflexivity.
Qed.
Lemma Cmod_odd_phase ny nx u v : Cmod (odd_phase ny nx u v) = 1.
Proof. apply Cmod_cis. Qed.
Lemma fraunhofer_intensity h dev m a F S m' x y X Y :
  let s := dev_slm dev in
  full_input h s a F -> full_state dev S -> propagate_to_image h dev m a = (m', Ok tt) ->
  (0 < s_Nx s)%nat -> (0 < s_Ny s)%nat -> pixel_size s <> 0 ->
  grid_is (fourier_plane_padded_grid s m) (NY s m) (NX s m) x y ->
  grid_is (image_plane_padded_grid s m) (NY s m) (NX s m) X Y ->
  exists E I, field_is (f_output m') (NY s m) (NX s m) E /\ field_is (f_image m') (NY s m) (NX s m) I /\
  forall u v, (u < NY s m)%nat -> (v < NX s m)%nat ->
   Cmod (I u v) = Cmod (RtoC (pixel_size s ^ 2 / (wavelength s * focal_length s)) *
      csum2 (NY s m) (NX s m) (fun i j => (E i j * cis (2 * PI * (x i j * X u v + y i j * Y u v) / (wavelength s * focal_length s)))%C))%C.
Proof.
  intros s HF HS HP Hx Hy Hp G1 G2.
  destruct (fraunhofer _ _ _ _ _ _ _ _ _ _ _ HF HS HP Hx Hy Hp G1 G2) as (E & H1 & H2). exists E.
  eexists. split; [exact H1|]. split; [exact H2|]. intros u v Hu Hv. cbv beta. rewrite Cmod_mult, Cmod_odd_phase, Rmult_1_l. reflexivity.
Qed.

(** ** C09 *)
Lemma block_twice d m r f X Y m1 m2 : (r = None -> d_p d <> 0) -> f_output m <> None ->
  field_is (f_image m) (NY (d_slm d) m) (NX (d_slm d) m) f ->
  grid_is (image_plane_padded_grid (d_slm d) m) (NY (d_slm d) m) (NX (d_slm d) m) X Y ->
  block_zeroth_order d m r = (m1, Ok tt) -> block_zeroth_order d m1 r = (m2, Ok tt) ->
  exists g, field_is (f_image m1) (NY (d_slm d) m) (NX (d_slm d) m) g /\ field_is (f_image m2) (NY (d_slm d) m) (NX (d_slm d) m) g.
Proof.
  intros Hp Ho Hf Hg B1 B2.
  destruct (block_spec d m r f X Y Hp Ho Hf Hg) as (m1' & E1 & _ & Eo & Ex & Ey & H1). rewrite E1 in B1. injection B1 as ->.
  assert (Eny : NY (d_slm d) m1 = NY (d_slm d) m) by (unfold NY; rewrite Ey; reflexivity).
  assert (Enx : NX (d_slm d) m1 = NX (d_slm d) m) by (unfold NX; rewrite Ex; reflexivity).
  destruct (block_spec d m1 r _ X Y Hp ltac:(congruence) ltac:(rewrite Eny, Enx; exact H1)) as (m2' & E2 & _ & _ & _ & _ & H2).
  { rewrite Eny, Enx. unfold image_plane_padded_grid, sim_Nx, sim_Ny in *. rewrite Ex, Ey. exact Hg. }
  rewrite E2 in B2. injection B2 as ->. eexists. split; [exact H1|]. rewrite Eny, Enx in H2.
  eapply field_is_ext; [|exact H2]. intros. cbv beta. apply blanked_idem.
Qed.
Lemma block_power d m r f X Y m1 P P1 : (r = None -> d_p d <> 0) -> f_output m <> None ->
  field_is (f_image m) (NY (d_slm d) m) (NX (d_slm d) m) f ->
  grid_is (image_plane_padded_grid (d_slm d) m) (NY (d_slm d) m) (NX (d_slm d) m) X Y ->
  block_zeroth_order d m r = (m1, Ok tt) -> (0 <= pad_x m)%Z -> (0 <= pad_y m)%Z ->
  get_image_plane_power (d_slm d) m = Ok P -> get_image_plane_power (d_slm d) m1 = Ok P1 -> P1 <= P.
Proof.
  intros Hp Ho Hf Hg B1 Px Py G G1.
  destruct (block_spec d m r f X Y Hp Ho Hf Hg) as (m1' & E1 & _ & Eo & Ex & Ey & H1). rewrite E1 in B1. injection B1 as ->.
  unfold get_image_plane_power, power, image_plane_intensity, image_plane_pixel_area in G, G1.
  unfold sim_Nx, sim_Ny in *. rewrite Ex, Ey in G1.
  set (n := (_ * _)%Z) in G, G1. destruct (Z.eqb_spec n 0); [discriminate|].
  destruct (Req_EM_T (pixel_size (d_slm d)) 0) as [|Hps]; [discriminate|]. cbn [rbind] in G, G1.
  destruct (f_image m) as [t|]; [|contradiction]. destruct (f_image m1) as [t1|]; [|contradiction].
  cbn [option_map field_is] in *. rewrite (teq_tsum _ _ _ _ Hf) in G. rewrite (teq_tsum _ _ _ _ H1) in G1.
  injection G as <-. injection G1 as <-. apply Rmult_le_compat_r.
  - assert (0 < IZR n) by (apply IZR_lt; unfold n in *; nia).
    unfold Rdiv. apply Rmult_le_pos; [apply Rmult_le_pos; [apply pow2_ge_0|]|]; left; apply Rinv_0_lt_compat; [assumption|].
    rewrite Rmult_1_r. apply (Rsqr_pos_lt _ Hps).
  - apply rsum2_le; intros. apply blanked_le.
Qed.
Lemma first_order_kept d x y z : first_order_origin d = (Fin x, Fin y) -> blanked x y (block_radius d None) z = z.
Proof.
  intros E. apply origin_inv in E. destruct E as [Hp E]. unfold origin_of, scaling_factor in E. injection E as <- <-. unfold blanked, block_radius. destruct Rlt_dec as [L|]; [|reflexivity].
  exfalso. set (sf := wavelength (d_slm d) * focal_length (d_slm d)) in *. set (q := sf / d_p d) in *.
  replace ((cos (d_theta d) * sf / d_p d) ^ 2 + (sin (d_theta d) * sf / d_p d) ^ 2) with (q ^ 2) in L.
  - assert (0 <= q ^ 2) by apply pow2_ge_0. nra.
  - assert (HT := sin2_cos2 (d_theta d)). unfold Rsqr in HT. unfold q.
    transitivity ((sin (d_theta d) * sin (d_theta d) + cos (d_theta d) * cos (d_theta d)) * (sf / d_p d) ^ 2); [rewrite HT; ring|field; exact Hp].
Qed.

(** ** C11 *)
Lemma failing_keeps_output h dev m a m' e : propagate_to_image h dev m a = (m', Err e) -> scaling_factor (dev_slm dev) <> 0 ->
  f_output m' = f_output m /\ f_image m' = f_image m /\
  (f_input m' = f_input m \/ exists t, profile_to_tensor_c h (dev_slm dev) a true = Ok t /\ tf_pad (pad_y m) (pad_x m) t = match f_input m' with Some p => Ok p | None => Err e end).
Proof.
  unfold propagate_to_image. intros H Hsf.
  destruct (profile_to_tensor_c h (dev_slm dev) a true) as [t|]; [|injection H as <- _; auto].
  destruct (tf_pad (pad_y m) (pad_x m) t) as [fi|] eqn:E; [|injection H as <- _; auto].
  destruct (rbind (state_tensor dev) (fun st => tmap2 Cmult t st)) as [o|].
  - destruct (tf_pad (pad_y m) (pad_x m) o); [|injection H as <- _; cbn; (split; [reflexivity|split; [reflexivity|right; exists t; auto]])].
    destruct Req_EM_T; [contradiction|discriminate].
  - injection H as <- _. cbn. split; [reflexivity|split; [reflexivity|right; exists t; auto]].
Qed.
Lemma as_int_spec a z : as_int a = Some z <-> int_arg a z.
Proof.
  unfold int_arg. destruct a as [y|[]|r|]; cbn; split; intros H; try discriminate; try (injection H as <-; auto); try (destruct H as [H|[[H1 H2]|[H1 H2]]]; try discriminate; subst; reflexivity).
  - destruct H as [H|[[H1 H2]|[H1 H2]]]; try discriminate. injection H as ->. reflexivity.
Qed.
Lemma sim_new_spec d px py m : sim_new d px py = Ok m <->
  d <> None /\ exists x y, int_arg px x /\ int_arg py y /\
    m = {| pad_x := x; pad_y := y; f_input := None; f_output := None; f_image := None |}.
Proof.
  unfold sim_new. split.
  - destruct (as_int px) as [x|] eqn:Ex; [|discriminate]. destruct (as_int py) as [y|] eqn:Ey; [|discriminate]. destruct d; [|discriminate].
    apply as_int_spec in Ex, Ey. intros E; injection E as <-. split; [discriminate|]. eauto.
  - intros (Hd & x & y & Ex & Ey & ->). apply as_int_spec in Ex, Ey. rewrite Ex, Ey. destruct d; [reflexivity|congruence].
Qed.
Lemma sim_new_errors d px py e : sim_new d px py = Err e -> e = TypeError.
Proof.
  unfold sim_new. destruct (as_int px); [|congruence]. destruct (as_int py); [|congruence]. destruct d; congruence.
Qed.
Lemma dmd_sim_new_spec d px py m : dmd_sim_new d px py = Ok m <->
  (exists dm, d = Some (DevDmd dm)) /\ exists x y, int_arg px x /\ int_arg py y /\
    m = {| pad_x := x; pad_y := y; f_input := None; f_output := None; f_image := None |}.
Proof.
  unfold dmd_sim_new. destruct d as [[]|]; split; try discriminate; try (intros [[dm E] _]; discriminate).
  - intros E. apply sim_new_spec in E. destruct E as [_ E]. split; [eauto|exact E].
  - intros [_ E]. apply sim_new_spec. split; [discriminate|exact E].
Qed.
Lemma dmd_sim_new_errors d px py e : dmd_sim_new d px py = Err e -> e = TypeError.
Proof. unfold dmd_sim_new. destruct d as [[]|]; try congruence. apply sim_new_errors. Qed.

(** All result fields have the padded size. *)
Lemma field_sizes h dev m a F S m' : full_input h (dev_slm dev) a F -> full_state dev S -> propagate_to_image h dev m a = (m', Ok tt) ->
  exists nx ny, Z.of_nat nx = (Z.of_nat (s_Nx (dev_slm dev)) + 2 * pad_x m)%Z /\ Z.of_nat ny = (Z.of_nat (s_Ny (dev_slm dev)) + 2 * pad_y m)%Z /\
  exists f g k, field_is (f_input m') ny nx f /\ field_is (f_output m') ny nx g /\ field_is (f_image m') ny nx k.
Proof.
  intros HF HS H. destruct (propagate_inv _ _ _ _ _ _ _ HF HS H) as (Hy & Hx & _ & _ & _ & H1 & H2 & H3). exists (NX (dev_slm dev) m), (NY (dev_slm dev) m). unfold NX at 1, NY at 1. rewrite !Z2Nat.id by lia. repeat split; try reflexivity. do 3 eexists. eauto.
Qed.
