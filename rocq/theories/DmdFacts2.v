(** Histories of DMD calls, grating values, patches. *)
From Coq Require Import Reals Lra ZArith Arith List Bool Lia.
From Coquelicot Require Import Complex.
From Verif Require Import Cx Sums DFT PyBase ProfileModel SlmModel LibModel DmdModel SimSpec GridFacts DmdSpec DmdFacts.
Import ListNotations.
Open Scope R_scope.

Lemma is_bool_spec d : is_bool d <-> is_bool_state (d_state d) = true.
Proof. unfold is_bool, is_bool_state. destruct (d_state d); intuition congruence. Qed.
Lemma binary_eq m : m <> MUnknown -> binary_method m = binary m.
Proof. destruct m; try reflexivity. congruence. Qed.
Lemma st_bool_eq s : st_bool s = is_bool_state s.
Proof. destruct s; reflexivity. Qed.
Lemma masked_kind old new mask ny nx st : masked_assign old new mask ny nx = Some st ->
  is_bool_state st = is_bool_state old /\ state_shape st = state_shape old /\ state_shape old = (ny, nx) /\ state_shape new = (ny, nx) /\
  forall i j, cell_at st i j = if mask i j then cell_as (is_bool_state old) (cell_at new i j) else cell_at old i j.
Proof.
  unfold masked_assign. destruct old, new;
    match goal with |- (if ?c then _ else _) = _ -> _ => destruct c eqn:E end; try discriminate; intros H; injection H as <-;
    apply andb_prop in E; destruct E as [E1 E2]; apply andb_prop in E1, E2; destruct E1 as [A1 A2], E2 as [B1 B2];
    apply Nat.eqb_eq in A1, A2, B1, B2; subst; cbn [is_bool_state state_shape]; repeat split;
    intros i j; cbn [cell_at cell_as]; destruct (mask i j); try reflexivity;
    unfold xr_to_bool; destruct (f0 i j); try reflexivity; destruct (Req_EM_T r 0); reflexivity.
Qed.
Lemma do_call_type d c d' o : do_call d c = (d', o) -> is_bool_state (d_state d') = element_type (is_bool_state (d_state d)) (c, o).
Proof.
  destruct c; cbn [do_call].
  - intros H; injection H as <- <-. reflexivity.
  - intros H; injection H as <- <-. reflexivity.
  - unfold set_dmd_grating_state. destruct (grating_of h d amp pin pout m kw u) eqn:E; intros H; injection H as <- <-; [|reflexivity].
    destruct (grating_of_kind _ _ _ _ _ _ _ _ _ E) as [K1 K2]. cbn [element_type]. rewrite <- (binary_eq m K2), <- K1. cbn. symmetry. apply st_bool_eq.
  - unfold circular_patch. destruct (grating_of h d amp pin pout m kw u) eqn:E; [|intros H; injection H as <- <-; reflexivity].
    destruct (fourier_plane_pixel_grid (d_slm d)) as [ii jj].
    destruct (masked_assign _ _ _ _ _) eqn:Em; intros H; injection H as <- <-; cbn [element_type]; [|reflexivity].
    exact (proj1 (masked_kind _ _ _ _ _ _ Em)).
  - destruct (calculate_dmd_state h d input target m window kw u) as [d1 r] eqn:E. intros H; injection H as <- <-.
    destruct (calc_cases _ _ _ _ _ _ _ _ _ _ E) as [(st & one & _ & -> & K1 & K2 & Hr)|(e & _ & -> & -> & He)].
    + cbn [d_state with_state]. rewrite <- st_bool_eq, K1, (binary_eq m K2). destruct Hr as [[eta ->]| ->]; reflexivity.
    + cbn [ignore rmap element_type]. destruct e; reflexivity || congruence.
  - intros H; injection H as <- <-. destruct (pack_dmd_state d); reflexivity.
Qed.
Lemma do_calls_type cs : forall d d' l, do_calls d cs = (d', l) ->
  is_bool_state (d_state d') = fold_left element_type l (is_bool_state (d_state d)).
Proof.
  induction cs as [|c cs IH]; intros d d' l; cbn [do_calls]; [intros H; injection H as <- <-; reflexivity|].
  destruct (do_call d c) as [d1 o] eqn:E. destruct (do_calls d1 cs) as [d2 l2] eqn:E2. intros H; injection H as <- <-.
  cbn [fold_left]. rewrite <- (do_call_type _ _ _ _ E). exact (IH _ _ _ E2).
Qed.
Lemma history_packable wl fl per th Nx Ny ps neg cs d' l : do_calls (dmd_new wl fl per th Nx Ny ps neg) cs = (d', l) ->
  ((exists bytes, pack_dmd_state d' = Ok bytes) <-> fold_left element_type l true = true) /\
  (pack_dmd_state d' = Err TypeError <-> fold_left element_type l true = false).
Proof.
  intros H. apply do_calls_type in H. cbn [d_state dmd_new all_mirrors is_bool_state] in H. rewrite <- H.
  unfold pack_dmd_state. destruct (d_state d'); cbn [is_bool_state]; repeat split; intros; eauto; try discriminate; try reflexivity.
  destruct H0; discriminate.
Qed.

(** ** Values of a grating *)
Lemma bdim_full a n k : n <> 1%nat -> bdim a n = Some k -> k = n.
Proof.
  unfold bdim. intros Hn. destruct (Nat.eqb_spec a n); [congruence|]. destruct (Nat.eqb_spec a 1); [congruence|].
  destruct (Nat.eqb_spec n 1); congruence.
Qed.
Lemma bshape_full s ny nx t : ny <> 1%nat -> nx <> 1%nat -> bshape s (S2 ny nx) = Some t -> t = S2 ny nx.
Proof.
  intros Hy Hx. destruct s as [|a b]; cbn [bshape]; [congruence|].
  destruct (bdim a ny) eqn:E1; [|discriminate]. destruct (bdim b nx) eqn:E2; [|discriminate].
  intros H; injection H as <-. rewrite (bdim_full _ _ _ Hy E1), (bdim_full _ _ _ Hx E2). reflexivity.
Qed.
Lemma bshape_sf s ny nx : s = S0 \/ s = S2 ny nx -> bshape s (S2 ny nx) = Some (S2 ny nx).
Proof. intros [->| ->]; cbn [bshape]; [reflexivity|]. rewrite !bdim_refl. reflexivity. Qed.
Lemma bshape_sf2 s t ny nx : s = S0 \/ s = S2 ny nx -> t = S0 \/ t = S2 ny nx -> exists k, bshape s t = Some k /\ (k = S0 \/ k = S2 ny nx).
Proof. intros [->| ->] [->| ->]; cbn [bshape]; rewrite ?bdim_refl; eauto. Qed.
Lemma grating_full {A} (px : xr -> R -> R -> R -> R -> nat -> nat -> A) amp pin pout x y ny nx X Y :
  (tshape amp = S0 \/ tshape amp = S2 ny nx) -> (tshape pin = S0 \/ tshape pin = S2 ny nx) -> (tshape pout = S0 \/ tshape pout = S2 ny nx) ->
  grid_is (x, y) ny nx X Y ->
  exists g, grating_tensor px amp pin pout x y = Ok (T2 ny nx g) /\
    forall i j, (i < ny)%nat -> (j < nx)%nat -> g i j = px (tget amp i j) (tget pin i j) (tget pout i j) (X i j) (Y i j) i j.
Proof.
  intros Ha Hi Ho G. destruct (grid_is_shape _ _ _ _ _ G) as (a & b & Eg). injection Eg as -> ->.
  unfold grating_tensor, bc_all. cbn [fold_left].
  destruct (bshape_sf2 _ _ _ _ Ha Hi) as (k1 & E1 & H1). destruct (bshape_sf2 _ _ _ _ H1 Ho) as (k2 & E2 & H2).
  unfold bshape_r at 4. cbn [rbind]. rewrite E1. unfold bshape_r at 3. cbn [rbind]. rewrite E2.
  unfold bshape_r at 2. cbn [rbind tshape]. rewrite (bshape_sf _ _ _ H2). unfold bshape_r at 1. cbn [rbind].
  rewrite (bshape_sf _ ny nx) by tauto. cbn [rbind mk]. eexists. split; [reflexivity|].
  intros i j Hii Hjj. cbn beta. destruct (grid_is_get _ _ _ _ _ i j G Hii Hjj) as [Ex Ey]. cbn [fst snd] in Ex, Ey. rewrite Ex, Ey. reflexivity.
Qed.
Lemma grating_shape {A} (px : xr -> R -> R -> R -> R -> nat -> nat -> A) amp pin pout x y ny nx X Y t :
  ny <> 1%nat -> nx <> 1%nat -> grid_is (x, y) ny nx X Y -> grating_tensor px amp pin pout x y = Ok t ->
  exists g, t = T2 ny nx g /\
    forall i j, (i < ny)%nat -> (j < nx)%nat -> g i j = px (tget amp i j) (tget pin i j) (tget pout i j) (X i j) (Y i j) i j.
Proof.
  intros Hy Hx G H. destruct (grid_is_shape _ _ _ _ _ G) as (a & b & Eg). injection Eg as -> ->.
  unfold grating_tensor, bc_all in H. cbn [fold_left] in H.
  destruct (bshape_r (bshape_r (Ok (tshape amp)) (tshape pin)) (tshape pout)) as [k|] eqn:E; cbn [tshape] in H; [|discriminate].
  unfold bshape_r at 2 in H. cbn [rbind] in H. destruct (bshape k (S2 ny nx)) eqn:E2; [|discriminate].
  apply (bshape_full _ _ _ _ Hy Hx) in E2. subst s. unfold bshape_r in H. cbn [rbind] in H.
  rewrite (bshape_sf _ ny nx) in H by tauto. cbn [rbind mk] in H.
  match type of H with Ok ?v = _ => assert (Et : t = v) by congruence end. subst t. eexists. split; [reflexivity|].
  intros i j Hii Hjj. cbn beta. destruct (grid_is_get _ _ _ _ _ i j G Hii Hjj) as [Ex Ey]. cbn [fst snd] in Ex, Ey. rewrite Ex, Ey. reflexivity.
Qed.
Lemma tshape_tmap {A B} (f : A -> B) t : tshape (tmap f t) = tshape t.
Proof. destruct t; reflexivity. Qed.
Lemma tget_tmap {A B} (f : A -> B) t i j : tget (tmap f t) i j = f (tget t i j).
Proof. destruct t; reflexivity. Qed.
Lemma grid_mirrors s : grid_is (fourier_plane_grid s) (s_Ny s) (s_Nx s) (fun i j => mirror_x s j) (fun i j => mirror_y s i).
Proof. refine (grid_is_ext _ _ _ _ _ _ _ (fourier_plane_grid_is s) _). intros i j _ _. unfold mirror_x, mirror_y. split; lra. Qed.
Lemma carrier_phase d i j : d_p d <> 0 ->
  grating_phase (mirror_x (d_slm d) j) (mirror_y (d_slm d) i) (d_theta d) (d_p d) = carrier d i j.
Proof. intros H. unfold grating_phase, carrier. field. exact H. Qed.

Section Gratings.
Variables (h : heap) (d : dmd) (amp pin pout : parg) (A Pi Po : nat -> nat -> R).
Hypothesis (HA : reads h (d_slm d) amp A) (HI : reads h (d_slm d) pin Pi) (HO : reads h (d_slm d) pout Po) (Hp : d_p d <> 0).
Let ny := s_Ny (d_slm d). Let nx := s_Nx (d_slm d).
Lemma rel_phase_signed neg a b : rel_phase neg a b = signed neg (b - a).
Proof. unfold rel_phase, signed. destruct neg; lra. Qed.
Lemma grating_of_px {T} (px : xr -> R -> R -> R -> R -> nat -> nat -> T) :
  exists ta ti to g, profile_to_tensor_r h (d_slm d) amp true = Ok ta /\ profile_to_tensor_r h (d_slm d) pin true = Ok ti /\
    profile_to_tensor_r h (d_slm d) pout true = Ok to /\
    grating_tensor px (tmap Fin ta) ti to (fst (fourier_plane_grid (d_slm d))) (snd (fourier_plane_grid (d_slm d))) = Ok (T2 ny nx g) /\
    forall i j, (i < ny)%nat -> (j < nx)%nat -> g i j = px (Fin (A i j)) (Pi i j) (Po i j) (mirror_x (d_slm d) j) (mirror_y (d_slm d) i) i j.
Proof.
  destruct HA as (ta & E1 & S1 & V1), HI as (ti & E2 & S2 & V2), HO as (to & E3 & S3 & V3).
  destruct (grating_full px (tmap Fin ta) ti to (fst (fourier_plane_grid (d_slm d))) (snd (fourier_plane_grid (d_slm d))) ny nx _ _
    ltac:(rewrite tshape_tmap; exact S1) S2 S3 ltac:(rewrite <- surjective_pairing; apply grid_mirrors)) as (g & G & V).
  exists ta, ti, to, g. repeat (split; [assumption|]). intros i j Hi Hj. rewrite V, tget_tmap, V1, V2, V3 by assumption. reflexivity.
Qed.
Lemma set_ideal kw u : exists d' f, set_dmd_grating_state h d amp pin pout MIdeal kw u = (d', Ok tt) /\ d' = with_state d (DFloat ny nx f) /\
  forall i j, (i < ny)%nat -> (j < nx)%nat -> f i j = Fin (A i j * (cos (carrier d i j - signed (d_neg d) (Po i j - Pi i j)) / 2 + 1 / 2)).
Proof.
  destruct (grating_of_px (fun a pi po x y _ _ => px_ideal (d_neg d) a pi po x y (d_p d) (d_theta d))) as (ta & ti & to & g & E1 & E2 & E3 & G & V).
  do 2 eexists. split; [|split; [reflexivity|]].
  - unfold set_dmd_grating_state, grating_of. rewrite E1, E2, E3. cbn [rbind].
    destruct (fourier_plane_grid (d_slm d)) as [x y]. cbn [fst snd] in G. unfold calculate_dmd_grating, grating_ideal, guard_p.
    destruct (Req_EM_T (d_p d) 0); [contradiction|]. rewrite G. cbn [rmap rbind to_dstate]. reflexivity.
  - intros i j Hi Hj. rewrite V by assumption. unfold px_ideal. cbn [xscale]. rewrite carrier_phase, rel_phase_signed by exact Hp.
    f_equal. f_equal. lra.
Qed.
Lemma set_simple kw u : exists d' f, set_dmd_grating_state h d amp pin pout MSimple kw u = (d', Ok tt) /\ d' = with_state d (DBool ny nx f) /\
  forall i j, (i < ny)%nat -> (j < nx)%nat ->
   (f i j = true <-> 1 / 2 < A i j * (cos (carrier d i j - signed (d_neg d) (Po i j - Pi i j)) / 2 + 1 / 2)).
Proof.
  destruct (grating_of_px (fun a pi po x y _ _ => px_simple (d_neg d) a pi po x y (d_p d) (d_theta d))) as (ta & ti & to & g & E1 & E2 & E3 & G & V).
  do 2 eexists. split; [|split; [reflexivity|]].
  - unfold set_dmd_grating_state, grating_of. rewrite E1, E2, E3. cbn [rbind].
    destruct (fourier_plane_grid (d_slm d)) as [x y]. cbn [fst snd] in G. unfold calculate_dmd_grating, grating_simple, guard_p.
    destruct (Req_EM_T (d_p d) 0); [contradiction|]. rewrite G. cbn [rmap rbind to_dstate]. reflexivity.
  - intros i j Hi Hj. rewrite V by assumption. unfold px_simple, px_ideal. cbn [xscale xgtb]. rewrite carrier_phase, rel_phase_signed by exact Hp.
    replace 0.5 with (1 / 2) by lra.
    match goal with |- context [Rlt_dec ?a ?b] => destruct (Rlt_dec a b) as [H|H] end; split; intros; try reflexivity; try discriminate; tauto.
Qed.
Lemma set_random kw u : exists d' f, set_dmd_grating_state h d amp pin pout MRandom kw u = (d', Ok tt) /\ d' = with_state d (DBool ny nx f) /\
  forall i j, (i < ny)%nat -> (j < nx)%nat ->
   f i j = xgtb (random_duty (d_neg d) (Fin (A i j)) (Pi i j) (Po i j) (mirror_x (d_slm d) j) (mirror_y (d_slm d) i) (d_p d) (d_theta d) (dflt (k_r kw) 10)) (u i j).
Proof.
  destruct (grating_of_px (fun a pi po x y i j => px_random (d_neg d) a pi po x y (d_p d) (d_theta d) (dflt (k_r kw) 10) (u i j))) as (ta & ti & to & g & E1 & E2 & E3 & G & V).
  do 2 eexists. split; [|split; [reflexivity|]].
  - unfold set_dmd_grating_state, grating_of. rewrite E1, E2, E3. cbn [rbind].
    destruct (fourier_plane_grid (d_slm d)) as [x y]. cbn [fst snd] in G. unfold calculate_dmd_grating, grating_random, guard_p.
    destruct (Req_EM_T (d_p d) 0); [contradiction|]. rewrite G. cbn [rmap rbind to_dstate]. reflexivity.
  - intros i j Hi Hj. rewrite V by assumption. reflexivity.
Qed.
End Gratings.
Lemma reads_const h s r : reads h s (AConstR (T0 r)) (fun _ _ => r).
Proof. exists (T0 r). cbn. auto. Qed.

(** ** Patches *)
Lemma in_disc ci cj diam i j : circular_mask ci cj diam (INR i) (INR j) = true <-> pixel_distance ci cj i j < Rabs diam / 2.
Proof.
  unfold circular_mask, pixel_distance. set (q := (INR j - cj) ^ 2 + (INR i - ci) ^ 2).
  replace ((INR i - ci) ^ 2 + (INR j - cj) ^ 2) with q by (unfold q; lra).
  assert (Hq : 0 <= q) by (unfold q; apply Rplus_le_le_0_compat; apply pow2_ge_0).
  assert (Ed : (diam / 2) ^ 2 = (Rabs diam / 2) ^ 2) by (assert (P := pow2_abs diam); unfold Rdiv; rewrite !Rpow_mult_distr, P; reflexivity).
  assert (Ha := Rabs_pos diam). rewrite Ed. set (D := Rabs diam / 2). assert (HD : 0 <= D) by (unfold D; lra).
  destruct (Rlt_dec q (D ^ 2)) as [H|H]; split; intros H'; try reflexivity; try discriminate.
  - apply Rsqr_incrst_0; [|apply sqrt_pos|exact HD]. rewrite Rsqr_sqrt by exact Hq. unfold Rsqr. lra.
  - exfalso. apply H. rewrite <- (Rsqr_sqrt q Hq). replace (D ^ 2) with (Rsqr D) by (unfold Rsqr; ring).
    apply Rsqr_incrst_1; [exact H'|apply sqrt_pos|exact HD].
Qed.
Lemma patch_spec h d ci cj amp pin pout diam m kw u d' :
  circular_patch h d ci cj amp pin pout diam m kw u = (d', Ok tt) ->
  exists d2, set_dmd_grating_state h d amp pin pout m kw u = (d2, Ok tt) /\
    d' = with_state d (d_state d') /\ is_bool_state (d_state d') = is_bool_state (d_state d) /\ state_shape (d_state d') = state_shape (d_state d) /\
    state_shape (d_state d) = (s_Ny (d_slm d), s_Nx (d_slm d)) /\
    forall i j, (i < s_Ny (d_slm d))%nat -> (j < s_Nx (d_slm d))%nat ->
      (pixel_distance ci cj i j < Rabs diam / 2 -> cell_at (d_state d') i j = cell_as (is_bool_state (d_state d)) (cell_at (d_state d2) i j)) /\
      (Rabs diam / 2 <= pixel_distance ci cj i j -> cell_at (d_state d') i j = cell_at (d_state d) i j).
Proof.
  unfold circular_patch, set_dmd_grating_state. destruct (grating_of h d amp pin pout m kw u) as [new|]; [|discriminate].
  assert (G := fourier_plane_pixel_grid_is (d_slm d)). destruct (fourier_plane_pixel_grid (d_slm d)) as [ii jj].
  destruct (masked_assign _ _ _ _ _) as [st|] eqn:Em; [|discriminate]. intros H; injection H as <-.
  apply masked_kind in Em. destruct Em as (K1 & K2 & K3 & K4 & K5). eexists. split; [reflexivity|]. cbn [d_state with_state].
  split; [reflexivity|]. split; [exact K1|]. split; [exact K2|]. split; [exact K3|].
  intros i j Hi Hj. rewrite K5. destruct (grid_is_get _ _ _ _ _ i j G Hi Hj) as [Ex Ey]. cbn [fst snd] in Ex, Ey. rewrite Ex, Ey.
  assert (D := in_disc ci cj diam i j). destruct (circular_mask ci cj diam (INR i) (INR j)).
  - split; [reflexivity|]. intros H. assert (pixel_distance ci cj i j < Rabs diam / 2) by (apply D; reflexivity). lra.
  - split; [|reflexivity]. intros H. apply D in H. discriminate.
Qed.
Lemma patch_fails h d ci cj amp pin pout diam m kw u d' e :
  circular_patch h d ci cj amp pin pout diam m kw u = (d', Err e) -> d' = d.
Proof.
  unfold circular_patch. destruct (grating_of _ _ _ _ _ _ _ _) as [new|]; [|congruence].
  destruct (fourier_plane_pixel_grid (d_slm d)) as [ii jj]. destruct (masked_assign _ _ _ _ _); congruence.
Qed.
(** A patch succeeds whenever the full-frame grating does and both arrays have the device's shape. *)
Lemma patch_ok h d ci cj amp pin pout diam m kw u d2 : set_dmd_grating_state h d amp pin pout m kw u = (d2, Ok tt) ->
  state_shape (d_state d) = (s_Ny (d_slm d), s_Nx (d_slm d)) -> state_shape (d_state d2) = (s_Ny (d_slm d), s_Nx (d_slm d)) ->
  exists d', circular_patch h d ci cj amp pin pout diam m kw u = (d', Ok tt).
Proof.
  unfold circular_patch, set_dmd_grating_state. destruct (grating_of h d amp pin pout m kw u) as [new|]; [|discriminate].
  intros H; injection H as <-. cbn [d_state with_state]. intros S1 S2. destruct (fourier_plane_pixel_grid (d_slm d)) as [ii jj].
  unfold masked_assign. destruct (d_state d), new; cbn [state_shape] in S1, S2; injection S1 as -> ->; injection S2 as -> ->;
    rewrite !Nat.eqb_refl; cbn [andb]; eauto.
Qed.
