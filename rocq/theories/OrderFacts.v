(** Diffraction orders of a uniform grating (C77). *)
From Coq Require Import Reals Lra ZArith Arith List Bool Lia.
From Coquelicot Require Import Complex.
From Verif Require Import Cx Sums DFT PyBase ProfileModel SlmModel LibModel DmdModel OriginFacts SimModel SimSpec GridFacts SimFacts SimFacts2 DmdSpec DmdFacts DmdFacts2 DmdFacts3 AmpFacts AmpFacts2 AmpFacts3 AmpFacts4 DmdThms.
Open Scope R_scope.

(** A periodic function sampled at L points per period is a finite sum of harmonics. *)
Lemma harmonics L t0 (h : R -> C) : (0 < L)%nat -> (forall t (k : Z), h (t + 2 * PI * IZR k) = h t) ->
  exists c, forall K : Z, h (2 * PI * IZR K / INR L + t0) = csum L (fun n => (c n * cis (- (IZR (Z.of_nat n) * (2 * PI * IZR K / INR L + t0))))%C).
Proof.
  intros HL Hh. assert (HLR : INR L <> 0) by (apply INR_neq_0; exact HL).
  exists (fun n => (/ RtoC (INR L) * csum L (fun k => h (2 * PI * INR k / INR L + t0)%R * cis (INR n * (2 * PI * INR k / INR L + t0))%R))%C).
  assert (G : forall k', (k' < L)%nat -> h (2 * PI * INR k' / INR L + t0) =
    csum L (fun n => (/ RtoC (INR L) * csum L (fun k => h (2 * PI * INR k / INR L + t0)%R * cis (INR n * (2 * PI * INR k / INR L + t0))%R) * cis (- (IZR (Z.of_nat n) * (2 * PI * INR k' / INR L + t0))))%C)).
  { intros k' Hk'.
    rewrite (csum_ext L _ (fun n => csum L (fun k => / RtoC (INR L) * h (2 * PI * INR k / INR L + t0)%R * (cis (2 * PI * (INR (n * k) / INR L)) * cis (- (2 * PI * (INR (n * k') / INR L)))))%C)).
    2:{ intros n _. rewrite <- csum_scal_l, <- csum_scal_r. apply csum_ext; intros k _. rewrite <- INR_IZR_INZ.
        rewrite <- !Cmult_assoc. do 2 f_equal. rewrite <- !cis_plus. f_equal. rewrite !mult_INR. field. exact HLR. }
    rewrite csum_swap. rewrite (csum_ext L _ (fun k => (/ RtoC (INR L) * h (2 * PI * INR k / INR L + t0)%R * (if Nat.eq_dec k k' then RtoC (INR L) else RtoC 0))%C)).
    2:{ intros k Hk. rewrite csum_scal_l, kernel_orth by assumption. reflexivity. }
    rewrite (csum_single L k'); [|exact Hk'|intros i _ Hi; destruct (Nat.eq_dec i k') as [Ei|_]; [contradiction (Hi Ei)|ring]].
    destruct (Nat.eq_dec k' k'); [|contradiction]. field. apply RtoC_neq_0. exact HLR. }
  intros K. assert (E := Z.div_mod K (Z.of_nat L) ltac:(lia)). assert (B := Z.mod_pos_bound K (Z.of_nat L) ltac:(lia)).
  set (q := (K / Z.of_nat L)%Z) in *. set (r := (K mod Z.of_nat L)%Z) in *.
  assert (ER : INR (Z.to_nat r) = IZR r) by (rewrite INR_IZR_INZ, Z2Nat.id by lia; reflexivity).
  assert (EK : 2 * PI * IZR K / INR L + t0 = (2 * PI * INR (Z.to_nat r) / INR L + t0) + 2 * PI * IZR q).
  { rewrite E, ER, plus_IZR, mult_IZR, <- INR_IZR_INZ. field. exact HLR. }
  rewrite EK, Hh, (G (Z.to_nat r)) by lia. apply csum_ext; intros n _. f_equal.
  replace (- (IZR (Z.of_nat n) * (2 * PI * INR (Z.to_nat r) / INR L + t0 + 2 * PI * IZR q)))
    with (- (IZR (Z.of_nat n) * (2 * PI * INR (Z.to_nat r) / INR L + t0)) + 2 * PI * IZR (- (Z.of_nat n * q))) by (rewrite opp_IZR, mult_IZR; ring).
  symmetry. apply cis_period.
Qed.

Lemma image_of_uniform ny nx u v : (u < ny)%nat -> (v < nx)%nat -> image_of ny nx (fun _ _ => RtoC 1) u v <> RtoC 0 -> centred ny u = 0%Z /\ centred nx v = 0%Z.
Proof.
  intros Hu Hv H.
  assert (W : csum2 ny nx (fun i j => (RtoC 1 * wave ny nx i j u v)%C)
    = (csum ny (fun i => cis (2 * PI * (IZR (centred ny i * centred ny u) / INR ny))) * csum nx (fun j => cis (2 * PI * (IZR (centred nx j * centred nx v) / INR nx))))%C).
  { unfold csum2. rewrite <- csum_scal_r. apply csum_ext; intros i _. rewrite <- csum_scal_l. apply csum_ext; intros j _.
    rewrite Cmult_1_l. unfold wave. rewrite <- cis_plus. f_equal. ring. }
  assert (Z1 : forall n w, (w < n)%nat -> centred n w <> 0%Z -> csum n (fun i => cis (2 * PI * (IZR (centred n i * centred n w) / INR n))) = RtoC 0).
  { intros n w Hw Hz. assert (Hn : INR n <> 0) by (apply INR_neq_0; lia).
    rewrite (csum_ext n _ (fun i => (cis (- (2 * PI * (IZR (Z.of_nat (n / 2) * centred n w) / INR n))) * cis (2 * PI * (IZR (centred n w) * INR i / INR n)))%C)).
    - rewrite csum_scal_l, root_sum_0; [ring|lia|]. assert (Hh := half_le n). unfold centred in *. intros E. apply Z.mod_divide in E; [|lia]. destruct E as [k Hk].
      assert (k = 0)%Z; [|lia]. assert (P := Nat.div_mod n 2 ltac:(lia)). nia.
    - intros i _. rewrite <- cis_plus. f_equal. unfold centred. rewrite !mult_IZR, !minus_IZR, <- !INR_IZR_INZ. field. exact Hn. }
  unfold image_of in H. rewrite W in H.
  split.
  - destruct (Z.eq_dec (centred ny u) 0) as [E|E]; [exact E|exfalso; apply H]. rewrite (Z1 ny u Hu E). unfold Cdiv. ring.
  - destruct (Z.eq_dec (centred nx v) 0) as [E|E]; [exact E|exfalso; apply H]. rewrite (Z1 nx v Hv E). unfold Cdiv. ring.
Qed.
Lemma image_of_sum ny nx L (E : nat -> nat -> nat -> C) u v : image_of ny nx (fun i j => csum L (fun n => E n i j)) u v = csum L (fun n => image_of ny nx (E n) u v).
Proof.
  unfold image_of. unfold Cdiv. rewrite csum_scal_r. f_equal.
  rewrite (csum2_ext ny nx _ (fun i j => csum L (fun n => (E n i j * wave ny nx i j u v)%C))) by (intros; rewrite csum_scal_r; reflexivity).
  unfold csum2. rewrite (csum_ext ny _ (fun i => csum L (fun n => csum nx (fun j => (E n i j * wave ny nx i j u v)%C)))) by (intros; apply csum_swap). apply csum_swap.
Qed.
Lemma csum_nonzero L f : csum L f <> RtoC 0 -> exists n, (n < L)%nat /\ f n <> RtoC 0.
Proof.
  intros H. induction L as [|L IH]; [contradiction (H eq_refl)|]. cbn [csum] in H.
  destruct (C_dec0 (f L)) as [E|E]; [|exists L; split; [lia|exact E]].
  destruct IH as (n & Hn & Hf); [intros Z; apply H; rewrite Z, E; ring|]. exists n. split; [lia|exact Hf].
Qed.
(** Harmonics of a carrier of integer frequency (a, b) go to the points n (a, b), cyclically. *)
Lemma harmonic_points ny nx (g : nat -> nat -> R) (a b : Z) L c (z : nat -> Z) u v :
  (forall i j, (i < ny)%nat -> (j < nx)%nat -> g i j = 2 * PI * (IZR a * (INR j - INR nx / 2) / INR nx + IZR b * (INR ny / 2 - INR i) / INR ny)) ->
  (u < ny)%nat -> (v < nx)%nat ->
  image_of ny nx (fun i j => csum L (fun n => (c n * cis (- (IZR (z n) * g i j)))%C)) u v <> RtoC 0 ->
  exists n k l, (n < L)%nat /\ centred nx v = (z n * a + k * Z.of_nat nx)%Z /\ centred ny u = (- (z n * b) + l * Z.of_nat ny)%Z.
Proof.
  intros Hg Hu Hv H. rewrite image_of_sum in H. destruct (csum_nonzero _ _ H) as (n & Hn & Hz).
  assert (E : image_of ny nx (fun i j => (c n * cis (- (IZR (z n) * g i j)))%C) u v = (c n * image_of ny nx (fun i j => (RtoC 1 * cis (- (IZR (z n) * g i j)))%C) u v)%C).
  { unfold image_of. rewrite (csum2_ext ny nx _ (fun i j => (c n * (RtoC 1 * cis (- (IZR (z n) * g i j)) * wave ny nx i j u v))%C)) by (intros; ring).
    rewrite csum2_scal_l. unfold Cdiv. ring. }
  rewrite E in Hz.
  rewrite (image_of_carrier ny nx (fun _ _ => RtoC 1) (fun i j => IZR (z n) * g i j) (z n * a) (z n * b) u v) in Hz; try assumption.
  2:{ intros i j Hi Hj. rewrite (Hg i j Hi Hj), !mult_IZR. unfold Rdiv. ring. }
  assert (Z : displaced ny nx (z n * a) (z n * b) (image_of ny nx (fun _ _ => RtoC 1)) u v <> RtoC 0) by (intros Z; apply Hz; rewrite Z; ring).
  unfold displaced in Z.
  assert (B1 := Z.mod_pos_bound (Z.of_nat u + z n * b) (Z.of_nat ny) ltac:(lia)). assert (B2 := Z.mod_pos_bound (Z.of_nat v - z n * a) (Z.of_nat nx) ltac:(lia)).
  apply image_of_uniform in Z; [|lia|lia]. destruct Z as [Z1 Z2]. unfold centred in *. rewrite !Z2Nat.id in * by lia.
  assert (D1 := Z.div_mod (Z.of_nat u + z n * b) (Z.of_nat ny) ltac:(lia)). assert (D2 := Z.div_mod (Z.of_nat v - z n * a) (Z.of_nat nx) ltac:(lia)).
  exists n, ((Z.of_nat v - z n * a) / Z.of_nat nx)%Z, ((Z.of_nat u + z n * b) / Z.of_nat ny)%Z. split; [exact Hn|]. split; nia.
Qed.

(** The unpadded simulation of any full-size state. *)
Lemma bare_image h dev m a F S m' I : full_input h (dev_slm dev) a F -> full_state dev S -> pad_x m = 0%Z -> pad_y m = 0%Z ->
  propagate_to_image h dev m a = (m', Ok tt) -> field_is (f_image m') (s_Ny (dev_slm dev)) (s_Nx (dev_slm dev)) I ->
  scaling_factor (dev_slm dev) <> 0 /\
  forall u v, (u < s_Ny (dev_slm dev))%nat -> (v < s_Nx (dev_slm dev))%nat ->
    I u v = (RtoC (eta_scale (dev_slm dev)) * image_of (s_Ny (dev_slm dev)) (s_Nx (dev_slm dev)) (fun i j => (F i j * S i j)%C) u v)%C.
Proof.
  intros HF HS Hx Hy P HI. set (s := dev_slm dev) in *.
  destruct (propagate_inv h dev m a F S m' HF HS P) as (_ & _ & Hsf & _ & _ & _ & _ & Him). fold s in Hsf, Him. split; [exact Hsf|].
  assert (E1 : NY s m = s_Ny s) by (unfold NY; rewrite Hy; lia). assert (E2 : NX s m = s_Nx s) by (unfold NX; rewrite Hx; lia).
  rewrite E1, E2 in Him. destruct (field_is_inj _ _ _ _ _ _ _ HI Him) as (_ & _ & E). intros u v Hu Hv. rewrite E by assumption.
  rewrite image_of_to_image by assumption. rewrite Cmult_comm. f_equal.
  - f_equal. unfold norm_of, eta_scale, sim_Nx, sim_Ny. rewrite Hx, Hy, !Z.mul_0_r, !Z.add_0_r, mult_IZR, <- !INR_IZR_INZ. reflexivity.
  - apply image_of_ext; intros i j Hi Hj. rewrite pad_zero by assumption. reflexivity.
Qed.
Lemma lattice_point s n a b ny nx k l c w X Y : pixel_size s <> 0 -> (0 < nx)%nat -> (0 < ny)%nat -> ny = s_Ny s -> nx = s_Nx s ->
  c = (n * a + k * Z.of_nat nx)%Z -> w = (- (n * b) + l * Z.of_nat ny)%Z ->
  X = IZR c * scaling_factor s / (INR nx * pixel_size s) -> Y = - (IZR w * scaling_factor s / (INR ny * pixel_size s)) ->
  X = IZR n * (IZR a * image_pitch_x s) + IZR k * (scaling_factor s / pixel_size s) /\
  Y = IZR n * (IZR b * image_pitch_y s) + IZR (- l) * (scaling_factor s / pixel_size s).
Proof.
  intros Hps Hx Hy Ey Ex -> -> -> ->. unfold image_pitch_x, image_pitch_y. rewrite <- Ey, <- Ex.
  assert (INR nx <> 0) by (apply INR_neq_0; exact Hx). assert (INR ny <> 0) by (apply INR_neq_0; exact Hy).
  rewrite !plus_IZR, !opp_IZR, !mult_IZR, <- !INR_IZR_INZ. split; field; auto.
Qed.
Lemma uniform_grating_orders_r h d amp pin pout A0 pi0 po0 me kw u0 input f0 m m' I X Y a b :
  let s := d_slm d in
  reads h s amp (fun _ _ => A0) -> reads h s pin (fun _ _ => pi0) -> reads h s pout (fun _ _ => po0) -> d_p d <> 0 -> pixel_size s <> 0 ->
  me = MIdeal \/ me = MSimple -> full_input h s input (fun _ _ => f0) -> pad_x m = 0%Z -> pad_y m = 0%Z ->
  origin_of d = (IZR a * image_pitch_x s, IZR b * image_pitch_y s) ->
  propagate_to_image h (DevDmd (fst (set_dmd_grating_state h d amp pin pout me kw u0))) m input = (m', Ok tt) ->
  grid_is (image_plane_padded_grid s m) (s_Ny s) (s_Nx s) X Y -> field_is (f_image m') (s_Ny s) (s_Nx s) I ->
  forall u v, (u < s_Ny s)%nat -> (v < s_Nx s)%nat -> I u v <> RtoC 0 ->
  exists n k l : Z, X u v = IZR n * fst (origin_of d) + IZR k * (scaling_factor s / pixel_size s) /\
    Y u v = IZR n * snd (origin_of d) + IZR l * (scaling_factor s / pixel_size s) /\ (me = MIdeal -> (-1 <= n <= 1)%Z).
Proof.
  intros s HA HPi HPo Hp Hps Hme HF Hpx Hpy HO P HG HI u v Hu Hv Hne.
  set (phi := signed (d_neg d) (po0 - pi0)).
  set (ny := s_Ny s) in *. set (nx := s_Nx s) in *.
  assert (Hny : (0 < ny)%nat) by lia. assert (Hnx : (0 < nx)%nat) by lia.
  assert (HyR : INR ny <> 0) by (apply INR_neq_0; exact Hny). assert (HxR : INR nx <> 0) by (apply INR_neq_0; exact Hnx).
  (* the grid *)
  assert (EN : NY s m = ny /\ NX s m = nx) by (unfold NY, NX; rewrite Hpx, Hpy; fold ny nx; lia). destruct EN as [EN1 EN2].
  assert (HXY : X u v = IZR (centred nx v) * scaling_factor s / (INR nx * pixel_size s) /\ Y u v = - (IZR (centred ny u) * scaling_factor s / (INR ny * pixel_size s))).
  { assert (G := image_grid_of_is (NX s m) (NY s m) (pixel_size s) (scaling_factor s) Hps).
    change (image_grid_of (NX s m) (NY s m) (pixel_size s) (scaling_factor s)) with (image_plane_padded_grid s m) in G. rewrite EN1, EN2 in G.
    destruct HG as [G1 G2], G as [G3 G4]. destruct (fst (image_plane_padded_grid s m)) as [|q1 q2 gx]; [contradiction|]. destruct (snd (image_plane_padded_grid s m)) as [|q3 q4 gy]; [contradiction|].
    cbn [teq] in *. destruct G1 as (-> & -> & G1), G2 as (-> & -> & G2), G3 as (_ & _ & G3), G4 as (_ & _ & G4).
    rewrite <- G1, <- G2, G3, G4 by assumption. split; reflexivity. }
  destruct HXY as [HX HY].
  (* reduction to a sum of harmonics *)
  assert (K : forall L c (z : nat -> Z) S, d_slm (fst (set_dmd_grating_state h d amp pin pout me kw u0)) = s -> full_state (DevDmd (fst (set_dmd_grating_state h d amp pin pout me kw u0))) S ->
     (forall i j, (i < ny)%nat -> (j < nx)%nat -> S i j = csum L (fun n => (c n * cis (- (IZR (z n) * carrier d i j)))%C)) ->
     exists n k l, (n < L)%nat /\ X u v = IZR (z n) * (IZR a * image_pitch_x s) + IZR k * (scaling_factor s / pixel_size s) /\ Y u v = IZR (z n) * (IZR b * image_pitch_y s) + IZR l * (scaling_factor s / pixel_size s)).
  { intros L c z S Es HS HE. set (d' := fst (set_dmd_grating_state h d amp pin pout me kw u0)) in *.
    assert (HF' : full_input h (dev_slm (DevDmd d')) input (fun _ _ => f0)) by (cbn [dev_slm]; rewrite Es; exact HF).
    destruct (bare_image h (DevDmd d') m input (fun _ _ => f0) S m' I HF' HS Hpx Hpy P) as [Hsf EI]; cbn [dev_slm] in *; rewrite ?Es in *; [exact HI|].
    rewrite (EI u v Hu Hv) in Hne. fold ny nx in Hne.
    rewrite (image_of_ext ny nx _ (fun i j => csum L (fun n => (f0 * c n * cis (- (IZR (z n) * carrier d i j)))%C))) in Hne.
    2:{ intros i j Hi Hj. rewrite HE by assumption. rewrite <- csum_scal_l. apply csum_ext; intros; ring. }
    assert (Hne' : image_of ny nx (fun i j => csum L (fun n => (f0 * c n * cis (- (IZR (z n) * carrier d i j)))%C)) u v <> RtoC 0) by (intros E; apply Hne; rewrite E; ring).
    apply (harmonic_points ny nx (carrier d) a b) in Hne'; try assumption.
    2:{ intros i j _ _. apply carrier_integer; assumption. }
    destruct Hne' as (n & k & l & Hn & E1 & E2). exists n, k, (- l)%Z. split; [exact Hn|].
    apply (lattice_point s (z n) a b ny nx k l (centred nx v) (centred ny u)); try assumption; reflexivity. }
  rewrite HO. cbn [fst snd].
  destruct Hme as [-> | ->].
  - destruct (set_ideal h d amp pin pout _ _ _ HA HPi HPo Hp kw u0) as (d' & f & E & Ed & V). rewrite E in *. cbn [fst] in *. subst d'.
    destruct (K 3%nat (fun n => match n with 1%nat => RtoC (A0 / 2) | 0%nat => RtoC (A0 / 4) * cis (- phi) | _ => RtoC (A0 / 4) * cis phi end)%C (fun n => Z.of_nat n - 1)%Z
      (fun i j => RtoC (xr_val (f i j)))) as (n & k & l & Hn & E1 & E2).
    + reflexivity.
    + exact (state_float_in (with_state d (DFloat ny nx f)) ny nx f _ eq_refl eq_refl eq_refl V).
    + intros i j Hi Hj. rewrite V by assumption. cbn [xr_val csum]. change (Z.of_nat 0 - 1)%Z with (-1)%Z. change (Z.of_nat 1 - 1)%Z with 0%Z. change (Z.of_nat 2 - 1)%Z with 1%Z.
      fold phi. rewrite <- !Cmult_assoc, <- !cis_plus.
      replace (- (0 * carrier d i j)) with 0 by ring. rewrite cis_0.
      replace (- phi + - (-1 * carrier d i j)) with (carrier d i j - phi) by ring. replace (phi + - (1 * carrier d i j)) with (- (carrier d i j - phi)) by ring.
      set (t := carrier d i j - phi). unfold cis. rewrite cos_neg, sin_neg. apply C_eq; cbn; field.
    + exists (Z.of_nat n - 1)%Z, k, l. split; [exact E1|]. split; [exact E2|]. intros _. lia.
  - destruct (set_simple h d amp pin pout _ _ _ HA HPi HPo Hp kw u0) as (d' & f & E & Ed & V). rewrite E in *. cbn [fst] in *. subst d'.
    assert (Hsf : scaling_factor s <> 0).
    { assert (St := state_bool (with_state d (DBool ny nx f)) f eq_refl). destruct (propagate_inv h (DevDmd (with_state d (DBool ny nx f))) m input _ _ m' HF St P) as (_ & _ & Hsf & _). exact Hsf. }
    set (lev := fun t => A0 * (cos (t - phi) / 2 + 1 / 2)). set (hh := fun t => if Rlt_dec (1 / 2) (lev t) then RtoC 1 else RtoC 0).
    destruct (harmonics (nx * ny) (PI * (IZR b - IZR a)) hh) as [c Hc]; [nia| |].
    { intros t k. unfold hh, lev. replace (t + 2 * PI * IZR k - phi) with (t - phi + 2 * PI * IZR k) by ring.
      assert (Ec : cos (t - phi + 2 * PI * IZR k) = cos (t - phi)) by exact (f_equal fst (cis_period (t - phi) k)). rewrite Ec. reflexivity. }
    destruct (K (nx * ny)%nat c (fun n => Z.of_nat n) (fun i j => RtoC (if f i j then 1 else 0))) as (n & k & l & Hn & E1 & E2).
    + reflexivity.
    + exact (state_bool (with_state d (DBool ny nx f)) f eq_refl).
    + intros i j Hi Hj.
      assert (EC : carrier d i j = 2 * PI * IZR (a * Z.of_nat j * Z.of_nat ny - b * Z.of_nat i * Z.of_nat nx) / INR (nx * ny) + PI * (IZR b - IZR a)).
      { rewrite (carrier_integer d a b Hp Hsf Hps Hny Hnx HO). rewrite minus_IZR, !mult_IZR, <- !INR_IZR_INZ, mult_INR. fold s ny nx. field. split; assumption. }
      rewrite EC, <- Hc, <- EC. unfold hh, lev. specialize (V i j Hi Hj). fold phi in V.
      destruct (Rlt_dec _ _) as [L|L]; destruct (f i j); try reflexivity; exfalso; [apply V in L; discriminate|apply L, V; reflexivity].
    + exists (Z.of_nat n), k, l. split; [exact E1|]. split; [exact E2|]. intros; discriminate.
Qed.

(** ** Blocking the zeroth order of a uniform ideal grating *)
Lemma centred_bound n k : (k < n)%nat -> Rabs (IZR (centred n k)) <= INR n / 2.
Proof.
  intros H. unfold centred. assert (D := Nat.div_mod n 2 ltac:(lia)). assert (M := Nat.mod_upper_bound n 2 ltac:(lia)).
  assert (B1 : (2 * Z.of_nat (n / 2) <= Z.of_nat n)%Z) by lia. assert (B2 : (Z.of_nat n <= 2 * Z.of_nat (n / 2) + 1)%Z) by lia.
  assert (L1 : (- Z.of_nat n <= 2 * (Z.of_nat k - Z.of_nat (n / 2)))%Z) by lia. assert (L2 : (2 * (Z.of_nat k - Z.of_nat (n / 2)) <= Z.of_nat n)%Z) by lia.
  apply IZR_le in L1, L2. rewrite mult_IZR in L1, L2. rewrite opp_IZR in L1. rewrite <- INR_IZR_INZ in L1, L2. apply Rabs_le. lra.
Qed.
Lemma grid_bound s m X Y u v : pixel_size s <> 0 -> pad_x m = 0%Z -> pad_y m = 0%Z -> grid_is (image_plane_padded_grid s m) (s_Ny s) (s_Nx s) X Y ->
  (u < s_Ny s)%nat -> (v < s_Nx s)%nat ->
  X u v = IZR (centred (s_Nx s) v) * image_pitch_x s /\ Y u v = - (IZR (centred (s_Ny s) u) * image_pitch_y s).
Proof.
  intros Hps Hpx Hpy HG Hu Hv.
  assert (HyR : INR (s_Ny s) <> 0) by (apply INR_neq_0; lia). assert (HxR : INR (s_Nx s) <> 0) by (apply INR_neq_0; lia).
  assert (EN : NY s m = s_Ny s /\ NX s m = s_Nx s) by (unfold NY, NX; rewrite Hpx, Hpy; lia). destruct EN as [EN1 EN2].
  assert (G := image_grid_of_is (NX s m) (NY s m) (pixel_size s) (scaling_factor s) Hps).
  change (image_grid_of (NX s m) (NY s m) (pixel_size s) (scaling_factor s)) with (image_plane_padded_grid s m) in G. rewrite EN1, EN2 in G.
  destruct HG as [G1 G2], G as [G3 G4]. destruct (fst (image_plane_padded_grid s m)) as [|q1 q2 gx]; [contradiction|]. destruct (snd (image_plane_padded_grid s m)) as [|q3 q4 gy]; [contradiction|].
  cbn [teq] in *. destruct G1 as (-> & -> & G1), G2 as (-> & -> & G2), G3 as (_ & _ & G3), G4 as (_ & _ & G4).
  rewrite <- G1, <- G2, G3, G4 by assumption. unfold centred, image_pitch_x, image_pitch_y, scaling_factor. split; field; split; assumption.
Qed.
Lemma one_replica (N n k c a : Z) : (0 < N)%Z -> (2 * Z.abs a < N)%Z -> (2 * Z.abs c <= N)%Z -> (-1 <= n <= 1)%Z -> c = (n * a + k * N)%Z -> k = 0%Z.
Proof. intros HN Ha Hc Hn E. assert (n = -1 \/ n = 0 \/ n = 1)%Z as [->|[->| ->]] by lia; nia. Qed.
Lemma blocked_uniform_grating_r h d amp pin pout A0 pi0 po0 kw u0 input f0 m m' I X Y a b :
  let s := d_slm d in
  reads h s amp (fun _ _ => A0) -> reads h s pin (fun _ _ => pi0) -> reads h s pout (fun _ _ => po0) -> d_p d <> 0 -> pixel_size s <> 0 ->
  full_input h s input (fun _ _ => f0) -> pad_x m = 0%Z -> pad_y m = 0%Z ->
  origin_of d = (IZR a * image_pitch_x s, IZR b * image_pitch_y s) ->
  (2 * Z.abs a < Z.of_nat (s_Nx s))%Z -> (2 * Z.abs b < Z.of_nat (s_Ny s))%Z ->
  let d' := fst (set_dmd_grating_state h d amp pin pout MIdeal kw u0) in
  propagate_to_image h (DevDmd d') m input = (m', Ok tt) ->
  grid_is (image_plane_padded_grid s m) (s_Ny s) (s_Nx s) X Y -> field_is (f_image m') (s_Ny s) (s_Nx s) I ->
  exists m'', block_zeroth_order d' m' None = (m'', Ok tt) /\
  exists I', field_is (f_image m'') (s_Ny s) (s_Nx s) I' /\
  forall u v, (u < s_Ny s)%nat -> (v < s_Nx s)%nat -> (X u v = 0 /\ Y u v = 0 -> I' u v = RtoC 0) /\ (X u v <> 0 \/ Y u v <> 0 -> I' u v = I u v).
Proof.
  intros s HA HPi HPo Hp Hps HF Hpx Hpy HO Ha Hb d' P HG HI.
  assert (Orders := uniform_grating_orders_r h d amp pin pout A0 pi0 po0 MIdeal kw u0 input f0 m m' I X Y a b HA HPi HPo Hp Hps (or_introl eq_refl) HF Hpx Hpy HO P HG HI).
  destruct (set_ideal h d amp pin pout _ _ _ HA HPi HPo Hp kw u0) as (d2 & f & E & Ed & V).
  assert (Es : d_slm d' = s /\ d_p d' = d_p d) by (unfold d'; rewrite E; cbn [fst]; rewrite Ed; split; reflexivity). destruct Es as [Es Ep].
  assert (HS : full_state (DevDmd d') (fun i j => RtoC (xr_val (f i j)))).
  { unfold d'. rewrite E. cbn [fst]. rewrite Ed. exact (state_float_in (with_state d (DFloat (s_Ny s) (s_Nx s) f)) (s_Ny s) (s_Nx s) f _ eq_refl eq_refl eq_refl V). }
  assert (HF' : full_input h (dev_slm (DevDmd d')) input (fun _ _ => f0)) by (cbn [dev_slm]; rewrite Es; exact HF).
  destruct (propagate_inv h (DevDmd d') m input _ _ m' HF' HS P) as (_ & _ & Hsf & Hx' & Hy' & _ & Ho & _). cbn [dev_slm] in *. rewrite Es in *.
  assert (EN : NY s m' = s_Ny s /\ NX s m' = s_Nx s) by (unfold NY, NX; rewrite Hx', Hy', Hpx, Hpy; lia). destruct EN as [EN1 EN2].
  assert (EG : image_plane_padded_grid s m' = image_plane_padded_grid s m) by (unfold image_plane_padded_grid, sim_Nx, sim_Ny; rewrite ?Hx', ?Hy'; reflexivity).
  destruct (block_spec d' m' None I X Y) as (m'' & B & _ & _ & _ & _ & BF).
  { intros _. rewrite Ep; exact Hp. }
  { destruct (f_output m'); [discriminate|contradiction]. }
  { rewrite Es, EN1, EN2. exact HI. }
  { rewrite Es, EN1, EN2, EG. exact HG. }
  rewrite Es, EN1, EN2 in BF. exists m''. split; [exact B|]. eexists. split; [exact BF|]. intros u v Hu Hv. cbv beta. unfold blanked, block_radius. rewrite Es, Ep.
  fold (scaling_factor s).
  assert (R0 : 0 < (scaling_factor s / d_p d / 2) ^ 2).
  { rewrite <- Rsqr_pow2. apply Rsqr_pos_lt. unfold Rdiv. apply Rmult_integral_contrapositive_currified; [|lra]. apply Rmult_integral_contrapositive_currified; [exact Hsf|apply Rinv_neq_0_compat; exact Hp]. }
  change (wavelength s * focal_length s) with (scaling_factor s).
  destruct (Rlt_dec (X u v ^ 2 + Y u v ^ 2) ((scaling_factor s / d_p d / 2) ^ 2)) as [L|L].
  - split; [reflexivity|]. intros Hne. destruct (C_dec0 (I u v)) as [Z|NZ]; [congruence|]. exfalso.
    destruct (Orders u v Hu Hv NZ) as (n & k & l & E1 & E2 & En). specialize (En eq_refl). fold s in E1, E2. rewrite HO in E1, E2. cbn [fst snd] in E1, E2.
    destruct (grid_bound s m X Y u v Hps Hpx Hpy HG Hu Hv) as [G1 G2].
    assert (HyR : INR (s_Ny s) <> 0) by (apply INR_neq_0; lia). assert (HxR : INR (s_Nx s) <> 0) by (apply INR_neq_0; lia).
    assert (Px : image_pitch_x s <> 0).
    { unfold image_pitch_x. fold (scaling_factor s). unfold Rdiv. apply Rmult_integral_contrapositive_currified; [exact Hsf|]. apply Rinv_neq_0_compat, Rmult_integral_contrapositive_currified; assumption. }
    assert (Py : image_pitch_y s <> 0).
    { unfold image_pitch_y. fold (scaling_factor s). unfold Rdiv. apply Rmult_integral_contrapositive_currified; [exact Hsf|]. apply Rinv_neq_0_compat, Rmult_integral_contrapositive_currified; assumption. }
    assert (W1 : scaling_factor s / pixel_size s = INR (s_Nx s) * image_pitch_x s) by (unfold image_pitch_x, scaling_factor; field; split; assumption).
    assert (W2 : scaling_factor s / pixel_size s = INR (s_Ny s) * image_pitch_y s) by (unfold image_pitch_y, scaling_factor; field; split; assumption).
    rewrite G1, W1 in E1. rewrite G2, W2 in E2. rewrite INR_IZR_INZ in E1, E2.
    assert (C1 : centred (s_Nx s) v = (n * a + k * Z.of_nat (s_Nx s))%Z).
    { apply eq_IZR. rewrite plus_IZR, !mult_IZR. apply Rmult_eq_reg_r with (image_pitch_x s); [|exact Px]. rewrite E1. ring. }
    assert (C2 : (- centred (s_Ny s) u)%Z = (n * b + l * Z.of_nat (s_Ny s))%Z).
    { apply eq_IZR. rewrite plus_IZR, opp_IZR, !mult_IZR. apply Rmult_eq_reg_r with (image_pitch_y s); [|exact Py].
      replace (- IZR (centred (s_Ny s) u) * image_pitch_y s) with (- (IZR (centred (s_Ny s) u) * image_pitch_y s)) by ring. rewrite E2. ring. }
    assert (Bd : forall N j, (j < N)%nat -> (2 * Z.abs (centred N j) <= Z.of_nat N)%Z).
    { intros N j Hj. unfold centred. assert (D := Nat.div_mod N 2 ltac:(lia)). assert (M := Nat.mod_upper_bound N 2 ltac:(lia)). lia. }
    assert (Z1 : k = 0%Z) by (apply (one_replica (Z.of_nat (s_Nx s)) n k (centred (s_Nx s) v) a); try lia; apply Bd; exact Hv).
    assert (Z2 : l = 0%Z) by (apply (one_replica (Z.of_nat (s_Ny s)) n l (- centred (s_Ny s) u)%Z b); try lia; rewrite Z.abs_opp; apply Bd; exact Hu).
    subst k l. rewrite <- G1 in E1. rewrite <- G2 in E2.
    assert (O2 : (IZR a * image_pitch_x s) ^ 2 + (IZR b * image_pitch_y s) ^ 2 = (scaling_factor s / d_p d) ^ 2).
    { unfold origin_of in HO. fold s in HO. injection HO as <- <-. 
      replace ((cos (d_theta d) * scaling_factor s / d_p d) ^ 2 + (sin (d_theta d) * scaling_factor s / d_p d) ^ 2) with ((Rsqr (sin (d_theta d)) + Rsqr (cos (d_theta d))) * (scaling_factor s / d_p d) ^ 2) by (unfold Rsqr; field; exact Hp).
      rewrite sin2_cos2. ring. }
    assert (E3 : X u v ^ 2 + Y u v ^ 2 = IZR n ^ 2 * (scaling_factor s / d_p d) ^ 2).
    { rewrite <- O2, E1, E2. ring. }
    rewrite E3 in L. replace ((scaling_factor s / d_p d / 2) ^ 2) with ((scaling_factor s / d_p d) ^ 2 / 4) in * by (field; exact Hp).
    assert (n = -1 \/ n = 0 \/ n = 1)%Z as [Hn|[Hn|Hn]] by lia; subst n; try lra.
  - split; [|reflexivity]. intros [E1 E2]. exfalso. apply L. rewrite E1, E2. replace (0 ^ 2 + 0 ^ 2) with 0 by ring. exact R0.
Qed.
Lemma uniform_grating_orders h d amp pin pout A0 pi0 po0 me kw u0 input f0 m m' I X Y a b ox oy :
  let s := d_slm d in
  reads h s amp (fun _ _ => A0) -> reads h s pin (fun _ _ => pi0) -> reads h s pout (fun _ _ => po0) -> pixel_size s <> 0 ->
  me = MIdeal \/ me = MSimple -> full_input h s input (fun _ _ => f0) -> pad_x m = 0%Z -> pad_y m = 0%Z ->
  first_order_origin d = (Fin ox, Fin oy) -> ox = IZR a * image_pitch_x s -> oy = IZR b * image_pitch_y s ->
  propagate_to_image h (DevDmd (fst (set_dmd_grating_state h d amp pin pout me kw u0))) m input = (m', Ok tt) ->
  grid_is (image_plane_padded_grid s m) (s_Ny s) (s_Nx s) X Y -> field_is (f_image m') (s_Ny s) (s_Nx s) I ->
  forall u v, (u < s_Ny s)%nat -> (v < s_Nx s)%nat -> I u v <> RtoC 0 ->
  exists n k l : Z, X u v = IZR n * ox + IZR k * (scaling_factor s / pixel_size s) /\
    Y u v = IZR n * oy + IZR l * (scaling_factor s / pixel_size s) /\ (me = MIdeal -> (-1 <= n <= 1)%Z).
Proof.
  intros s HA HPi HPo Hps Hme HF Hpx Hpy HO Ea Eb P HG HI u v Hu Hv Hne. apply origin_inv in HO. destruct HO as [Hp HO].
  assert (HO2 : origin_of d = (IZR a * image_pitch_x s, IZR b * image_pitch_y s)) by (rewrite HO, Ea, Eb; reflexivity).
  destruct (uniform_grating_orders_r h d amp pin pout A0 pi0 po0 me kw u0 input f0 m m' I X Y a b HA HPi HPo Hp Hps Hme HF Hpx Hpy HO2 P HG HI u v Hu Hv Hne) as (n & k & l & Q).
  rewrite HO in Q. exists n, k, l. exact Q.
Qed.
Lemma blocked_uniform_grating h d amp pin pout A0 pi0 po0 kw u0 input f0 m m' I X Y a b ox oy :
  let s := d_slm d in
  reads h s amp (fun _ _ => A0) -> reads h s pin (fun _ _ => pi0) -> reads h s pout (fun _ _ => po0) -> pixel_size s <> 0 ->
  full_input h s input (fun _ _ => f0) -> pad_x m = 0%Z -> pad_y m = 0%Z ->
  first_order_origin d = (Fin ox, Fin oy) -> ox = IZR a * image_pitch_x s -> oy = IZR b * image_pitch_y s ->
  (2 * Z.abs a < Z.of_nat (s_Nx s))%Z -> (2 * Z.abs b < Z.of_nat (s_Ny s))%Z ->
  let d' := fst (set_dmd_grating_state h d amp pin pout MIdeal kw u0) in
  propagate_to_image h (DevDmd d') m input = (m', Ok tt) ->
  grid_is (image_plane_padded_grid s m) (s_Ny s) (s_Nx s) X Y -> field_is (f_image m') (s_Ny s) (s_Nx s) I ->
  exists m'', block_zeroth_order d' m' None = (m'', Ok tt) /\
  exists I', field_is (f_image m'') (s_Ny s) (s_Nx s) I' /\
  forall u v, (u < s_Ny s)%nat -> (v < s_Nx s)%nat -> (X u v = 0 /\ Y u v = 0 -> I' u v = RtoC 0) /\ (X u v <> 0 \/ Y u v <> 0 -> I' u v = I u v).
Proof.
  intros s HA HPi HPo Hps HF Hpx Hpy HO Ea Eb. apply origin_inv in HO. destruct HO as [Hp HO]. subst ox oy.
  exact (blocked_uniform_grating_r h d amp pin pout A0 pi0 po0 kw u0 input f0 m m' I X Y a b HA HPi HPo Hp Hps HF Hpx Hpy HO).
Qed.
