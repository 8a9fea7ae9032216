(** Gratings with phase maps that have missing samples (C167). *)
From Coq Require Import Reals Lra ZArith Arith List Bool Lia.
From Coquelicot Require Import Complex.
From Verif Require Import Cx PyBase ProfileModel SlmModel LibModel DmdModel NanModel NanHoloModel SimSpec GridFacts DmdSpec DmdFacts DmdFacts2 IftaFacts SimExamples DmdExamples XAmpModel XAmpSpec XAmpFacts XPhaseModel XPhaseSpec.
Import ListNotations.
Open Scope R_scope.

Lemma filled_shape a b : filled a b -> tshape a = tshape b.
Proof. destruct a, b; cbn; try contradiction; try reflexivity. intros (-> & -> & _). reflexivity. Qed.
Lemma filled_get a b i j : filled a b -> tget a i j = None \/ tget a i j = Some (tget b i j).
Proof. destruct a as [x|n m f], b as [y|n' m' g]; cbn [filled]; try contradiction; [intros H; exact H|]. intros (-> & -> & H). cbn [tget]. apply H. Qed.
(** The same tensors, with the pixel function applied to what is defined. *)
Lemma o_tensor {A} (px : xr -> option R -> option R -> R -> R -> nat -> nat -> A) (px' : xr -> R -> R -> R -> R -> nat -> nat -> A) amp pin pout pin' pout' x y :
  filled pin pin' -> filled pout pout' ->
  match grating_tensor px' amp pin' pout' x y with
  | Ok t => exists t', ograting_tensor px amp pin pout x y = Ok t' /\ tshape t' = tshape t /\
      match t, t' with
      | T0 v, T0 v' => v = px' (tget amp 0 0) (tget pin' 0 0) (tget pout' 0 0) (tget x 0 0) (tget y 0 0) 0%nat 0%nat /\ v' = px (tget amp 0 0) (tget pin 0 0) (tget pout 0 0) (tget x 0 0) (tget y 0 0) 0%nat 0%nat
      | T2 _ _ f, T2 _ _ f' => forall i j, f i j = px' (tget amp i j) (tget pin' i j) (tget pout' i j) (tget x i j) (tget y i j) i j /\ f' i j = px (tget amp i j) (tget pin i j) (tget pout i j) (tget x i j) (tget y i j) i j
      | _, _ => False
      end
  | Err e => ograting_tensor px amp pin pout x y = Err e
  end.
Proof.
  intros H1 H2. unfold grating_tensor, ograting_tensor. rewrite (filled_shape _ _ H1), (filled_shape _ _ H2). destruct (bc_all _ _) as [s|e]; cbn [rbind]; [|reflexivity].
  eexists. split; [reflexivity|]. destruct s; cbn [mk tshape]; split; try reflexivity; split; reflexivity.
Qed.
Section O.
Variables (d : dmd) (amp : tensor xr) (pin pout : tensor (option R)) (pin' pout' : tensor R) (h : heap) (kw : kwargs) (u : nat -> nat -> R).
Hypothesis (HI : filled pin pin') (HO : filled pout pout').
Lemma o_state m : m = MIdeal \/ m = MSimple \/ m = MRandom ->
  match xgrating_of h d amp (AConstR pin') (AConstR pout') m kw u with
  | Err e => ograting_of d amp pin pout m kw u = Err e
  | Ok st => exists st', ograting_of d amp pin pout m kw u = Ok st' /\ state_shape st' = state_shape st /\ is_bool_state st' = is_bool_state st /\
      forall i j, (both pin pout i j -> cell_at st' i j = cell_at st i j) /\ (~ both pin pout i j -> cell_at st' i j = missing (is_bool_state st))
  end.
Proof.
  intros Hm. unfold xgrating_of, ograting_of. cbn [profile_to_tensor_r rbind]. destruct (fourier_plane_grid (d_slm d)) as [x y]. destruct Hm as [->|[->| ->]]; unfold calculate_dmd_grating, grating_ideal, grating_simple, grating_random.
  - match goal with |- context [grating_tensor ?q _ _ _ _ _] => pose proof (o_tensor (fun a pi po x y _ _ => u_ideal (d_neg d) a pi po x y (d_p d) (d_theta d)) q amp pin pout pin' pout' x y HI HO) as K; destruct (grating_tensor q amp pin' pout' x y) as [t|e] end; [|rewrite K; reflexivity].
    destruct K as (t' & E & S & V). rewrite E. cbn [rmap rbind]. destruct t as [v|ny nx f], t' as [v'|ny' nx' f']; try contradiction; cbn [to_dstate]; [reflexivity|]. injection S as -> ->. eexists. split; [reflexivity|]. split; [reflexivity|]. split; [reflexivity|]. intros i j. destruct (V i j) as [V1 V2]. cbn [cell_at is_bool_state missing]. rewrite V1, V2. unfold both, u_ideal, guard_p.
    destruct (filled_get _ _ i j HI) as [-> | ->], (filled_get _ _ i j HO) as [-> | ->]; split; intros Hb; try reflexivity; try (exfalso; apply Hb; split; discriminate); try (destruct Hb as [B1 B2]; congruence). destruct (Req_EM_T (d_p d) 0); reflexivity.
  - match goal with |- context [grating_tensor ?q _ _ _ _ _] => pose proof (o_tensor (fun a pi po x y _ _ => u_simple (d_neg d) a pi po x y (d_p d) (d_theta d)) q amp pin pout pin' pout' x y HI HO) as K; destruct (grating_tensor q amp pin' pout' x y) as [t|e] end; [|rewrite K; reflexivity].
    destruct K as (t' & E & S & V). rewrite E. cbn [rmap rbind]. destruct t as [v|ny nx f], t' as [v'|ny' nx' f']; try contradiction; cbn [to_dstate]; [reflexivity|]. injection S as -> ->. eexists. split; [reflexivity|]. split; [reflexivity|]. split; [reflexivity|]. intros i j. destruct (V i j) as [V1 V2]. cbn [cell_at is_bool_state missing]. rewrite V1, V2. unfold both, u_simple, u_ideal, guard_p.
    destruct (filled_get _ _ i j HI) as [-> | ->], (filled_get _ _ i j HO) as [-> | ->]; split; intros Hb; try reflexivity; try (exfalso; apply Hb; split; discriminate); try (destruct Hb as [B1 B2]; congruence). destruct (Req_EM_T (d_p d) 0); reflexivity.
  - match goal with |- context [grating_tensor ?q _ _ _ _ _] => pose proof (o_tensor (fun a pi po x y i j => u_random (d_neg d) a pi po x y (d_p d) (d_theta d) (dflt (k_r kw) 10) (u i j)) q amp pin pout pin' pout' x y HI HO) as K; destruct (grating_tensor q amp pin' pout' x y) as [t|e] end; [|rewrite K; reflexivity].
    destruct K as (t' & E & S & V). rewrite E. cbn [rmap rbind]. destruct t as [v|ny nx f], t' as [v'|ny' nx' f']; try contradiction; cbn [to_dstate]; [reflexivity|]. injection S as -> ->. eexists. split; [reflexivity|]. split; [reflexivity|]. split; [reflexivity|]. intros i j. destruct (V i j) as [V1 V2]. cbn [cell_at is_bool_state missing]. rewrite V1, V2. unfold both, u_random, guard_p.
    destruct (filled_get _ _ i j HI) as [-> | ->], (filled_get _ _ i j HO) as [-> | ->]; split; intros Hb; try reflexivity; try (exfalso; apply Hb; split; discriminate); try (destruct Hb as [B1 B2]; congruence). destruct (Req_EM_T (d_p d) 0); reflexivity.
Qed.
Lemma o_grating m d1 : m = MIdeal \/ m = MSimple \/ m = MRandom -> xset_grating h d amp (AConstR pin') (AConstR pout') m kw u = (d1, Ok tt) ->
  exists st, oset_grating d amp pin pout m kw u = (with_state d st, Ok tt) /\ state_shape st = state_shape (d_state d1) /\ is_bool_state st = is_bool_state (d_state d1) /\
  forall i j, (both pin pout i j -> cell_at st i j = cell_at (d_state d1) i j) /\ (~ both pin pout i j -> cell_at st i j = missing (is_bool_state (d_state d1))).
Proof.
  intros Hm E. pose proof (o_state m Hm) as K. unfold xset_grating in E. destruct (xgrating_of h d amp (AConstR pin') (AConstR pout') m kw u) as [s1|]; [|discriminate]. injection E as <-. destruct K as (st & E & R). exists st. unfold oset_grating. rewrite E. split; [reflexivity|exact R].
Qed.
Lemma o_patch m ci cj diam d1 : m = MIdeal \/ m = MSimple \/ m = MRandom -> xcircular_patch h d ci cj amp (AConstR pin') (AConstR pout') diam m kw u = (d1, Ok tt) ->
  exists st, ocircular_patch d ci cj amp pin pout diam m kw u = (with_state d st, Ok tt) /\ state_shape st = state_shape (d_state d) /\ is_bool_state st = is_bool_state (d_state d) /\
  forall i j, in_array d i j ->
    (Rabs diam / 2 <= pixel_distance ci cj i j -> cell_at st i j = cell_at (d_state d) i j) /\
    (pixel_distance ci cj i j < Rabs diam / 2 ->
      (both pin pout i j -> cell_at st i j = cell_at (d_state d1) i j) /\
      (~ both pin pout i j -> cell_at st i j = match m with MIdeal => if is_bool_state (d_state d) then CBool true else CFloat NaN | _ => if is_bool_state (d_state d) then CBool false else CFloat (Fin 0) end)).
Proof.
  intros Hm E. pose proof (o_state m Hm) as K. unfold xcircular_patch in E. assert (Bk : forall st, xgrating_of h d amp (AConstR pin') (AConstR pout') m kw u = Ok st -> is_bool_state st = match m with MIdeal => false | _ => true end).
  { intros st Es. unfold xgrating_of in Es. cbn [profile_to_tensor_r rbind] in Es. destruct (fourier_plane_grid (d_slm d)) as [x y]. destruct Hm as [->|[->| ->]]; unfold calculate_dmd_grating in Es; match type of Es with context [rmap _ ?q] => destruct q as [t|] end; cbn [rmap rbind] in Es; try discriminate; destruct t; cbn [to_dstate] in Es; try discriminate; injection Es as <-; reflexivity. }
  destruct (xgrating_of h d amp (AConstR pin') (AConstR pout') m kw u) as [s1|]; [|discriminate]. specialize (Bk _ eq_refl). destruct K as (s2 & E2 & Sh & Bo & V). unfold ocircular_patch. rewrite E2.
  assert (G := fourier_plane_pixel_grid_is (d_slm d)). destruct (fourier_plane_pixel_grid (d_slm d)) as [ii jj]. set (mask := fun i j => circular_mask ci cj diam (tget ii i j) (tget jj i j)) in *.
  destruct (masked_assign (d_state d) s1 mask (s_Ny (d_slm d)) (s_Nx (d_slm d))) as [t1|] eqn:M1; [|discriminate]. injection E as <-.
  assert (M2 : exists t2, masked_assign (d_state d) s2 mask (s_Ny (d_slm d)) (s_Nx (d_slm d)) = Some t2).
  { clear - M1 Sh Bo. destruct s1, s2; cbn [state_shape is_bool_state] in Sh, Bo; try discriminate; injection Sh as -> ->; unfold masked_assign in *; destruct (d_state d); match goal with |- context [if ?c then _ else _] => destruct c end; try discriminate; eexists; reflexivity. }
  destruct M2 as [t2 M2]. rewrite M2. exists t2. split; [reflexivity|]. destruct (masked_kind _ _ _ _ _ _ M1) as (A1 & A2 & A3 & A4 & A5). destruct (masked_kind _ _ _ _ _ _ M2) as (B1 & B2 & B3 & B4 & B5). split; [exact B2|]. split; [exact B1|].
  intros i j [Hi Hj]. assert (D : mask i j = true <-> pixel_distance ci cj i j < Rabs diam / 2). { unfold mask. destruct (grid_is_get _ _ _ _ _ i j G Hi Hj) as [Ex Ey]. cbn [fst snd] in Ex, Ey. rewrite Ex, Ey. apply in_disc. }
  cbn [d_state with_state]. rewrite A5, B5. destruct (V i j) as [V1 V2]. split; intros L.
  - destruct (mask i j); [|reflexivity]. assert (pixel_distance ci cj i j < Rabs diam / 2) by (apply D; reflexivity). lra.
  - rewrite (proj2 D L). split; intros Hb; [rewrite V1 by exact Hb; reflexivity|]. rewrite V2 by exact Hb. rewrite Bk. destruct Hm as [->|[->| ->]]; destruct (is_bool_state (d_state d)); reflexivity.
Qed.
End O.
Lemma some_filled t : filled (tmap Some t) t.
Proof. destruct t; cbn; [right; reflexivity|]. repeat split. intros. right. reflexivity. Qed.
Lemma o_case : let pm := T2 2 4 (fun i j => if Nat.eqb j 1 then None else Some (INR i)) in filled pm (T2 2 4 (fun i j => INR i)) /\ ~ both pm (T0 (Some 0)) 0 1 /\ both pm (T0 (Some 0)) 1 2 /\
  exists d1, xset_grating ex_heap ex4 (T0 (Fin 1)) (AConstR (T2 2 4 (fun i j => INR i))) (AConstR (T0 0)) MSimple no_kwargs (fun _ _ => 0) = (d1, Ok tt).
Proof.
  cbv zeta. split; [|split; [|split]].
  - cbn [filled]. repeat split. intros i j. destruct (Nat.eqb j 1); [left|right]; reflexivity.
  - intros [H _]. apply H. reflexivity.
  - split; cbn; discriminate.
  - assert (R1 : reads ex_heap (d_slm ex4) (AConstR (T2 2 4 (fun i j => INR i))) (fun i j => INR i)) by (eexists; split; [reflexivity|split; [right; reflexivity|intros i j Hi Hj; apply tget_T2; assumption]]).
    destruct (x_simple ex_heap ex4 (T0 (Fin 1)) _ _ _ _ (or_introl eq_refl) R1 (reads_const ex_heap (d_slm ex4) 0) ltac:(cbn; lra) no_kwargs (fun _ _ => 0)) as (f & E & _). eexists. exact E.
Qed.
Lemma o_outcome d amp pin pout pin' pout' h kw u m : filled pin pin' -> filled pout pout' -> m = MIdeal \/ m = MSimple \/ m = MRandom ->
  snd (oset_grating d amp pin pout m kw u) = snd (xset_grating h d amp (AConstR pin') (AConstR pout') m kw u) /\
  forall e, snd (oset_grating d amp pin pout m kw u) = Err e -> fst (oset_grating d amp pin pout m kw u) = d.
Proof.
  intros HI HO Hm. pose proof (o_state d amp pin pout pin' pout' h kw u HI HO m Hm) as K. unfold oset_grating, xset_grating. destruct (xgrating_of _ _ _ _ _ _ _ _) as [s1|e].
  - destruct K as (st & -> & _). split; [reflexivity|discriminate].
  - rewrite K. split; reflexivity.
Qed.
(** ** The iterative method *)
Lemma ograting_full {A} (px : xr -> option R -> option R -> R -> R -> nat -> nat -> A) d amp pin pout : fits d amp -> fits d pin -> fits d pout ->
  exists g, ograting_tensor px amp pin pout (fst (fourier_plane_grid (d_slm d))) (snd (fourier_plane_grid (d_slm d))) = Ok (T2 (s_Ny (d_slm d)) (s_Nx (d_slm d)) g) /\
  forall i j, (i < s_Ny (d_slm d))%nat -> (j < s_Nx (d_slm d))%nat -> g i j = px (tget amp i j) (tget pin i j) (tget pout i j) (mirror_x (d_slm d) j) (mirror_y (d_slm d) i) i j.
Proof.
  intros HA HI HO. set (fill := tmap (fun o : option R => match o with Some r => r | None => 0 end)). assert (Fl : forall t, filled t (fill t)) by (intros [[r|]|n m f]; cbn; auto; repeat split; intros i j; destruct (f i j); auto).
  assert (G := grid_mirrors (d_slm d)). destruct (fourier_plane_grid (d_slm d)) as [x y]. cbn [fst snd].
  destruct (grating_full (fun (_ : xr) (_ _ _ _ : R) (_ _ : nat) => tt) amp (fill pin) (fill pout) x y _ _ _ _ HA ltac:(unfold fill; rewrite tshape_tmap; exact HI) ltac:(unfold fill; rewrite tshape_tmap; exact HO) G) as (g0 & E0 & _).
  assert (U : match grating_tensor (fun (_ : xr) (_ _ _ _ : R) (_ _ : nat) => tt) amp (fill pin) (fill pout) x y with Ok t => exists s, bc_all (tshape amp) [tshape pin; tshape pout; tshape x; tshape y] = Ok s /\ tshape t = s | Err _ => True end).
  { unfold grating_tensor. unfold fill at 1 2. rewrite !tshape_tmap. destruct (bc_all _ _) as [s|e]; cbn [rbind]; [|exact Logic.I]. exists s. split; [reflexivity|]. destruct s; reflexivity. }
  rewrite E0 in U. destruct U as (s & Es & Sh). cbn [tshape] in Sh. subst s. unfold ograting_tensor. rewrite Es. cbn [rbind mk]. eexists. split; [reflexivity|].
  intros i j Hi Hj. cbn beta. destruct (grid_is_get _ _ _ _ _ i j G Hi Hj) as [Ex Ey]. cbn [fst snd] in Ex, Ey. rewrite Ex, Ey. reflexivity.
Qed.
Lemma o_ifta d amp pin pout kw u F V i0 j0 : let ny := s_Ny (d_slm d) in let nx := s_Nx (d_slm d) in fits d amp -> fits d pin -> fits d pout ->
  raw_tensor (k_input kw) = Some (T2 ny nx F) -> raw_tensor (k_window kw) = Some (T2 ny nx V) -> (1 <= dflt (k_N kw) 200)%Z -> (i0 < ny)%nat -> (j0 < nx)%nat -> ~ both pin pout i0 j0 ->
  exists f, oset_grating d amp pin pout MIfta kw u = (with_state d (DBool ny nx f), Ok tt) /\ forall i j, (i < ny)%nat -> (j < nx)%nat -> f i j = false.
Proof.
  intros ny nx HA HI HO HF HV HN Hi Hj Hb. destruct (ograting_full (fun a pi po x y _ _ => u_ideal (d_neg d) a pi po x y (d_p d) (d_theta d)) d amp pin pout HA HI HO) as (g & G & W). fold ny nx in G, W.
  eexists. split.
  - unfold oset_grating, ograting_of. rewrite HF, HV. destruct (fourier_plane_grid (d_slm d)) as [x y]. cbn [fst snd] in G. unfold ograting_ifta. rewrite G. cbn [rbind stretch]. rewrite !Nat.eqb_refl. cbn [orb andb rmap rbind to_dstate]. reflexivity.
  - apply array_none with (i0 := i0) (j0 := j0); try assumption. intros r. rewrite W by assumption. unfold u_ideal, both in *. destruct (tget pin i0 j0), (tget pout i0 j0); try discriminate. exfalso. apply Hb. split; discriminate.
Qed.
Lemma o_complete d amp t1 t2 h kw u m : d_p d <> 0 -> oset_grating d amp (tmap Some t1) (tmap Some t2) m kw u = xset_grating h d amp (AConstR t1) (AConstR t2) m kw u.
Proof.
  intros Hp. assert (T : forall A (px : xr -> option R -> option R -> R -> R -> nat -> nat -> A) x y, ograting_tensor px amp (tmap Some t1) (tmap Some t2) x y = grating_tensor (fun a pi po x y i j => px a (Some pi) (Some po) x y i j) amp t1 t2 x y).
  { intros A px x y. unfold ograting_tensor, grating_tensor. rewrite !tshape_tmap. destruct (bc_all _ _) as [s|e]; [|reflexivity]. cbn [rbind]. destruct t1, t2; reflexivity. }
  unfold oset_grating, xset_grating, ograting_of, xgrating_of. cbn [profile_to_tensor_r rbind]. destruct (fourier_plane_grid (d_slm d)) as [x y]. unfold calculate_dmd_grating, ograting_ifta, grating_ifta, grating_ideal, grating_simple, grating_random, guard_p, u_simple, u_ideal, u_random. rewrite !T. destruct (Req_EM_T (d_p d) 0); [contradiction|]. destruct m; reflexivity.
Qed.
