(** Arrays of the wrong shape (C83). *)
From Coq Require Import Reals Lra ZArith Arith List Bool Lia.
From Coquelicot Require Import Complex.
From Verif Require Import Cx Sums DFT PyBase ProfileModel SlmModel LibModel DmdModel SimModel SimSpec SimFacts2 DmdSpec DmdFacts DmdFacts2 ShapeSpec.
Import ListNotations.
Open Scope R_scope.

(** ** shapes *)
Definition fit (s : shape) (Y X : nat) : Prop := match s with S0 => True | S2 a b => (a = Y \/ a = 1%nat) /\ (b = X \/ b = 1%nat) end.
Lemma bdim_fit a b c : bdim a b = Some c -> (a = c \/ a = 1%nat) /\ (b = c \/ b = 1%nat).
Proof.
  unfold bdim. destruct (Nat.eqb_spec a b) as [->|n]; [intros H; injection H as ->; auto|].
  destruct (Nat.eqb_spec a 1) as [->|n1]; [intros H; injection H as ->; auto|].
  destruct (Nat.eqb_spec b 1) as [->|n2]; [intros H; injection H as ->; auto|discriminate].
Qed.
Lemma bshape_fit s t Y X : forall k, bshape s t = Some k -> fit k Y X -> fit s Y X /\ fit t Y X.
Proof.
  intros k H F. destruct s as [|a b]; [cbn in H; injection H as ->; split; [exact I|exact F]|].
  destruct t as [|c d]; [cbn in H; injection H as <-; split; [exact F|exact I]|].
  cbn in H. destruct (bdim a c) eqn:E1; [|discriminate]. destruct (bdim b d) eqn:E2; [|discriminate]. injection H as <-.
  apply bdim_fit in E1. apply bdim_fit in E2. cbn in F |- *. destruct E1 as [[?|?] [?|?]], E2 as [[?|?] [?|?]], F as [[?|?] [?|?]]; subst; auto.
Qed.
Lemma fold_fit l : forall r k Y X, fold_left bshape_r l r = Ok k -> fit k Y X ->
  (exists k0, r = Ok k0 /\ fit k0 Y X) /\ forall s, In s l -> fit s Y X.
Proof.
  induction l as [|a l IH]; intros r k Y X H F; [split; [exists k; auto|intros s []]|].
  cbn [fold_left] in H. destruct (IH _ _ _ _ H F) as ((k0 & E & F0) & R). unfold bshape_r in E.
  destruct r as [k1|e]; [|discriminate]. cbn [rbind] in E. destruct (bshape k1 a) as [k2|] eqn:B; [|discriminate].
  assert (k2 = k0) by congruence. subst k2. destruct (bshape_fit _ _ _ _ _ B F0) as [G1 G2].
  split; [exists k1; auto|]. intros s [<-|I]; auto.
Qed.
Lemma grating_fit {A} (px : xr -> R -> R -> R -> R -> nat -> nat -> A) amp pin pout x y ny nx X Y t :
  ny <> 1%nat -> nx <> 1%nat -> grid_is (x, y) ny nx X Y -> grating_tensor px amp pin pout x y = Ok t ->
  tshape t = S2 ny nx /\ fit (tshape amp) ny nx /\ fit (tshape pin) ny nx /\ fit (tshape pout) ny nx.
Proof.
  intros Hy Hx G H. destruct (grating_shape _ _ _ _ _ _ _ _ _ _ _ Hy Hx G H) as (g & -> & _). split; [reflexivity|].
  unfold grating_tensor, bc_all in H. match type of H with rbind ?e _ = _ => destruct e as [k|] eqn:E; [|discriminate] end.
  cbn [rbind] in H. assert (K : k = S2 ny nx) by (destruct k; cbn in H; [discriminate|injection H as -> -> _; reflexivity]). subst k.
  destruct (fold_fit _ _ _ ny nx E ltac:(cbn; auto)) as ((k0 & E0 & F0) & R). injection E0 as <-.
  split; [exact F0|]. split; apply R; cbn; auto.
Qed.
Lemma stretch_fit {A} ny nx (t : tensor A) f : stretch ny nx t = Some f -> fit (tshape t) ny nx.
Proof.
  destruct t as [a|a b g]; cbn; [auto|]. destruct (Nat.eqb_spec a ny), (Nat.eqb_spec a 1), (Nat.eqb_spec b nx), (Nat.eqb_spec b 1); cbn; auto; discriminate.
Qed.
Lemma dispatch_fit m neg amp pin pout x y p th kw inp win u g ny nx X Y :
  ny <> 1%nat -> nx <> 1%nat -> grid_is (x, y) ny nx X Y ->
  calculate_dmd_grating m neg amp pin pout x y p th kw inp win u = Ok g ->
  fit (tshape amp) ny nx /\ fit (tshape pin) ny nx /\ fit (tshape pout) ny nx /\
  (m = MIfta -> (exists t, inp = Some t /\ fit (tshape t) ny nx) /\ exists t, win = Some t /\ fit (tshape t) ny nx).
Proof.
  intros Hy Hx G H. destruct m; cbn [calculate_dmd_grating] in H; try discriminate.
  - unfold grating_ideal in H. destruct (grating_tensor _ amp pin pout x y) eqn:E; [|discriminate].
    destruct (grating_fit _ _ _ _ _ _ _ _ _ _ _ Hy Hx G E) as (_ & A & B & D). split; [exact A|split; [exact B|split; [exact D|discriminate]]].
  - unfold grating_simple in H. destruct (grating_tensor _ amp pin pout x y) eqn:E; [|discriminate].
    destruct (grating_fit _ _ _ _ _ _ _ _ _ _ _ Hy Hx G E) as (_ & A & B & D). split; [exact A|split; [exact B|split; [exact D|discriminate]]].
  - unfold grating_random in H. destruct (grating_tensor _ amp pin pout x y) eqn:E; [|discriminate].
    destruct (grating_fit _ _ _ _ _ _ _ _ _ _ _ Hy Hx G E) as (_ & A & B & D). split; [exact A|split; [exact B|split; [exact D|discriminate]]].
  - unfold grating_ifta, grating_ideal in H. destruct (grating_tensor _ amp pin pout x y) eqn:E; [|discriminate].
    destruct (grating_fit _ _ _ _ _ _ _ _ _ _ _ Hy Hx G E) as (Q & A & B & D). split; [exact A|split; [exact B|split; [exact D|intros _]]].
    cbn [rbind] in H. destruct inp as [F|]; [|discriminate]. destruct win as [[w|wy wx W]|]; [discriminate| |discriminate].
    destruct a as [q|a b q]; [discriminate|]. injection Q as -> ->.
    destruct (stretch ny nx F) eqn:S1; [|discriminate]. destruct (stretch ny nx (T2 wy wx W)) eqn:S3; [|discriminate].
    split; [exists F; split; [reflexivity|exact (stretch_fit _ _ _ _ S1)]|exists (T2 wy wx W); split; [reflexivity|exact (stretch_fit _ _ _ _ S3)]].
Qed.

(** ** arguments *)
Lemma misfit_c h s a b t : misfits s a -> profile_to_tensor_c h s a b = Ok t -> ~ fit (tshape t) (s_Ny s) (s_Nx s).
Proof.
  intros (y & x & A & N) H F. apply N. destruct A as [(f & [->| ->])|(f & [->| ->])]; injection H as <-; exact F.
Qed.
Lemma misfit_r h s a b t : misfits s a -> profile_to_tensor_r h s a b = Ok t -> ~ fit (tshape t) (s_Ny s) (s_Nx s).
Proof.
  intros (y & x & A & N) H F. apply N. destruct A as [(f & [->| ->])|(f & [->| ->])]; try discriminate; injection H as <-; exact F.
Qed.
Lemma misfit_raw s o t : misfits_opt s o -> raw_tensor o = Some t -> ~ fit (tshape t) (s_Ny s) (s_Nx s).
Proof.
  intros (a & -> & y & x & A & N) H F. apply N. destruct A as [(f & [->| ->])|(f & [->| ->])]; try discriminate; injection H as <-; exact F.
Qed.
Lemma tmap2_fit {A B D} (g : A -> B -> D) a b t Y X : tmap2 g a b = Ok t -> fit (tshape t) Y X -> fit (tshape a) Y X /\ fit (tshape b) Y X.
Proof.
  unfold tmap2, bc2. destruct (bshape (tshape a) (tshape b)) eqn:E; [|discriminate]. cbn [rbind]. intros H F.
  apply (bshape_fit _ _ Y X _ E). destruct s; injection H as <-; exact F.
Qed.
Lemma amp_phase_fit i t w amp pin pout one Y X : calc_amp_phase i t w = Ok (amp, pin, pout, one) -> fit (tshape amp) Y X ->
  fit (tshape i) Y X /\ fit (tshape t) Y X /\ forall k, w = Some k -> fit (tshape k) Y X.
Proof.
  unfold calc_amp_phase. destruct t as [|ny nx t]; [discriminate|]. intros H F.
  destruct w as [w|].
  - destruct (tmap2 Cmult _ w) as [fp|] eqn:E; [|discriminate]. cbn [rbind] in H.
    destruct (tmap2 safe_ratio _ _) as [sc|] eqn:E2; [|discriminate]. cbn [rbind] in H. injection H as <- <- <- <-.
    rewrite tshape_tmap in F. destruct (tmap2_fit _ _ _ _ Y X E2 F) as [F1 F2]. rewrite tshape_tmap in F1, F2.
    destruct (tmap2_fit _ _ _ _ Y X E F1) as [F3 F4]. split; [exact F2|]. split; [exact F3|]. intros k K. injection K as <-. exact F4.
  - cbn [rbind] in H. destruct (tmap2 safe_ratio _ _) as [sc|] eqn:E2; [|discriminate]. cbn [rbind] in H. injection H as <- <- <- <-.
    rewrite tshape_tmap in F. destruct (tmap2_fit _ _ _ _ Y X E2 F) as [F1 F2]. rewrite tshape_tmap in F1, F2.
    split; [exact F2|]. split; [exact F1|]. discriminate.
Qed.
Lemma calc_rejects h d i t m w kw u : let s := d_slm d in s_Ny s <> 1%nat -> s_Nx s <> 1%nat ->
  misfits s i \/ misfits s t \/ misfits_opt s w \/ (m = MIfta /\ misfits_opt s (k_window kw)) ->
  exists e, calculate_dmd_state h d i t m w kw u = (d, Err e).
Proof.
  intros s Hy Hx B. rewrite calc_split. destruct (calc_new h d i t m w kw u) as [[st one]|e] eqn:E; [exfalso|exists e; reflexivity].
  unfold calc_new in E. fold s in E.
  destruct (profile_to_tensor_c h s i true) as [ti|] eqn:Ei; [|discriminate]. cbn [rbind] in E.
  destruct (profile_to_tensor_c h s t false) as [tt|] eqn:Et; [|discriminate]. cbn [rbind] in E.
  match type of E with rbind ?e _ = _ => destruct e as [tw|] eqn:Ew; [|discriminate] end. cbn [rbind] in E.
  destruct (calc_amp_phase ti tt tw) as [[[[amp pin] pout] one']|] eqn:Ea; [|discriminate]. cbn [rbind] in E.
  assert (G := grid_mirrors s). destruct (fourier_plane_grid s) as [x y].
  match type of E with rbind ?e _ = _ => destruct e as [[inp win]|] eqn:Ek; [|discriminate] end. cbn [rbind] in E.
  match type of E with rbind ?e _ = _ => destruct e as [g|] eqn:Eg; [|discriminate] end.
  destruct (dispatch_fit _ _ _ _ _ _ _ _ _ _ _ _ _ _ _ _ _ _ Hy Hx G Eg) as (Fa & _ & _ & Fk).
  destruct (amp_phase_fit _ _ _ _ _ _ _ _ _ Ea Fa) as (Fi & Ft & Fw).
  destruct B as [B|[B|[B|[-> B]]]].
  - exact (misfit_c _ _ _ _ _ B Ei Fi).
  - exact (misfit_c _ _ _ _ _ B Et Ft).
  - destruct B as (a & -> & B). destruct (profile_to_tensor_c h s a true) as [k|] eqn:Ew'; [|discriminate]. injection Ew as <-.
    exact (misfit_c _ _ _ _ _ B Ew' (Fw k eq_refl)).
  - destruct B as (a & K & B). rewrite K in Ek. destruct (profile_to_tensor_c h s a false) as [k|] eqn:Ew'; [|discriminate].
    cbn [rbind] in Ek. injection Ek as <- <-. destruct (Fk eq_refl) as (_ & k' & K' & F). injection K' as <-.
    exact (misfit_c _ _ _ _ _ B Ew' F).
Qed.
Lemma grating_of_rejects h d a b c m kw u : let s := d_slm d in s_Ny s <> 1%nat -> s_Nx s <> 1%nat ->
  misfits s a \/ misfits s b \/ misfits s c \/ (m = MIfta /\ (misfits_opt s (k_window kw) \/ misfits_opt s (k_input kw))) ->
  exists e, grating_of h d a b c m kw u = Err e.
Proof.
  intros s Hy Hx B. destruct (grating_of h d a b c m kw u) as [st|e] eqn:E; [exfalso|exists e; reflexivity].
  unfold grating_of in E. fold s in E.
  destruct (profile_to_tensor_r h s a true) as [ta|] eqn:Ea; [|discriminate]. cbn [rbind] in E.
  destruct (profile_to_tensor_r h s b true) as [tb|] eqn:Eb; [|discriminate]. cbn [rbind] in E.
  destruct (profile_to_tensor_r h s c true) as [tc|] eqn:Ec; [|discriminate]. cbn [rbind] in E.
  assert (G := grid_mirrors s). destruct (fourier_plane_grid s) as [x y].
  match type of E with rbind ?e _ = _ => destruct e as [g|] eqn:Eg; [|discriminate] end.
  destruct (dispatch_fit _ _ _ _ _ _ _ _ _ _ _ _ _ _ _ _ _ _ Hy Hx G Eg) as (Fa & Fb & Fc & Fk). rewrite tshape_tmap in Fa.
  destruct B as [B|[B|[B|[-> [B|B]]]]].
  - exact (misfit_r _ _ _ _ _ B Ea Fa).
  - exact (misfit_r _ _ _ _ _ B Eb Fb).
  - exact (misfit_r _ _ _ _ _ B Ec Fc).
  - destruct (Fk eq_refl) as (_ & k & K & F). exact (misfit_raw _ _ _ B K F).
  - destruct (Fk eq_refl) as ((k & K & F) & _). exact (misfit_raw _ _ _ B K F).
Qed.
Lemma set_rejects h d a b c m kw u : let s := d_slm d in s_Ny s <> 1%nat -> s_Nx s <> 1%nat ->
  misfits s a \/ misfits s b \/ misfits s c \/ (m = MIfta /\ (misfits_opt s (k_window kw) \/ misfits_opt s (k_input kw))) ->
  exists e, set_dmd_grating_state h d a b c m kw u = (d, Err e).
Proof.
  intros s Hy Hx B. destruct (grating_of_rejects h d a b c m kw u Hy Hx B) as (e & E). exists e. unfold set_dmd_grating_state. rewrite E. reflexivity.
Qed.
Lemma patch_rejects h d ci cj a b c dm m kw u : let s := d_slm d in s_Ny s <> 1%nat -> s_Nx s <> 1%nat ->
  misfits s a \/ misfits s b \/ misfits s c \/ (m = MIfta /\ (misfits_opt s (k_window kw) \/ misfits_opt s (k_input kw))) ->
  exists e, circular_patch h d ci cj a b c dm m kw u = (d, Err e).
Proof.
  intros s Hy Hx B. destruct (grating_of_rejects h d a b c m kw u Hy Hx B) as (e & E). exists e. unfold circular_patch. rewrite E. reflexivity.
Qed.

(** ** LCOS *)
Lemma holo_shape h l i t m kw u l' : calculate_hologram h l i t m kw u = (l', Ok tt) ->
  exists ti, profile_to_tensor_c h (l_slm l) i true = Ok ti /\ l_slm l' = l_slm l /\
    match ti with T0 _ => False | T2 ny nx _ => lstate_shape (l_state l') = (ny, nx) end.
Proof.
  unfold calculate_hologram. destruct (profile_to_tensor_c h (l_slm l) i true) as [ti|]; [|discriminate]. cbn [rbind].
  destruct (profile_to_tensor_r h (l_slm l) t false) as [tr|]; [|discriminate]. cbn [rbind].
  match goal with |- context [rbind ?e _] => destruct e as [tw|]; [|discriminate] end. cbn [rbind].
  unfold calculate_lcos_hologram. intros H. exists ti. split; [reflexivity|].
  destruct m; [| |discriminate].
  - destruct ti as [|ny nx F]; [discriminate|]. destruct tr as [|a b T]; [discriminate|]. destruct (stretch ny nx _); [|discriminate].
    injection H as <-. split; reflexivity.
  - destruct ti as [|ny nx F]; [discriminate|]. destruct tr as [|a b T]; [discriminate|]. destruct tw as [[|c e W]|]; try discriminate.
    destruct (stretch ny nx (T2 a b T)); [|discriminate]. destruct (stretch ny nx (T2 c e W)); [|discriminate].
    injection H as <-. split; reflexivity.
Qed.
Lemma holo_rejects h l i t m kw u F : let s := l_slm l in full_input h s i F ->
  misfits s t \/ (m = MMraf /\ misfits_opt s (lk_window kw)) -> exists e, calculate_hologram h l i t m kw u = (l, Err e).
Proof.
  intros s HF B. unfold calculate_hologram. fold s. rewrite HF. cbn [rbind].
  destruct (profile_to_tensor_r h s t false) as [tr|] eqn:Et; [|eexists; reflexivity]. cbn [rbind].
  match goal with |- context [rbind ?e _] => destruct e as [tw|] eqn:Ew; [|eexists; reflexivity] end. cbn [rbind].
  unfold calculate_lcos_hologram. destruct m; [| |eexists; reflexivity].
  - destruct B as [B|[B _]]; [|discriminate]. destruct tr as [|a b T]; [eexists; reflexivity|].
    destruct (stretch (s_Ny s) (s_Nx s) (T2 a b T)) eqn:E; [|eexists; reflexivity].
    exfalso. exact (misfit_r _ _ _ _ _ B Et (stretch_fit _ _ _ _ E)).
  - destruct tr as [|a b T]; [eexists; reflexivity|]. destruct tw as [[|c e W]|]; try (eexists; reflexivity).
    destruct (stretch (s_Ny s) (s_Nx s) (T2 a b T)) eqn:E; [|eexists; reflexivity].
    destruct (stretch (s_Ny s) (s_Nx s) (T2 c e W)) eqn:E2; [|eexists; reflexivity].
    exfalso. destruct B as [B|[_ (k & K & B)]]; [exact (misfit_r _ _ _ _ _ B Et (stretch_fit _ _ _ _ E))|].
    rewrite K in Ew. destruct (profile_to_tensor_c h s k false) eqn:Ek; [|discriminate]. cbn [rbind] in Ew. injection Ew as ->.
    exact (misfit_c _ _ _ _ _ B Ek (stretch_fit _ _ _ _ E2)).
Qed.
(** The GS method computes on arrays of any common size. *)
Lemma holo_any_size h l y x F T kw u : exists phi, calculate_hologram h l (AConstC (T2 y x F)) (AConstR (T2 y x T)) MGs kw u
  = ({| l_slm := l_slm l; l_state := LReal y x phi |}, Ok tt).
Proof.
  unfold calculate_hologram. cbn [profile_to_tensor_c profile_to_tensor_r rbind calculate_lcos_hologram].
  unfold stretch. rewrite !Nat.eqb_refl. cbn [orb andb]. eexists. reflexivity.
Qed.
Lemma holo_wrong_size_unusable h l y x phi m input F : l_state l = LReal y x phi -> ~ (y = s_Ny (l_slm l) \/ y = 1%nat) -> s_Ny (l_slm l) <> 1%nat ->
  full_input h (l_slm l) input F -> exists e, snd (propagate_to_image h (DevLcos l) m input) = Err e.
Proof.
  intros E N N1 HF. unfold propagate_to_image. cbn [dev_slm]. rewrite HF.
  destruct (tf_pad _ _ _) as [fin|e]; [|exists e; reflexivity]. cbn [state_tensor]. rewrite E. cbn [rbind].
  unfold tmap2, bc2. cbn [tshape bshape]. unfold bdim at 1.
  destruct (Nat.eqb_spec (s_Ny (l_slm l)) y) as [D|_]; [exfalso; auto|]. destruct (Nat.eqb_spec (s_Ny (l_slm l)) 1) as [D|_]; [exfalso; auto|].
  destruct (Nat.eqb_spec y 1) as [D|_]; [exfalso; auto|]. exists ETensorFlow. reflexivity.
Qed.
