(** The window of calculate_dmd_state acts on the spectrum of the target (C122). *)
From Coq Require Import Reals Lra ZArith Arith List Bool Lia.
From Coquelicot Require Import Complex.
From Verif Require Import Cx Sums DFT PyBase ProfileModel SlmModel LibModel DmdModel SimModel SimSpec GridFacts SimFacts SimFacts2 DmdSpec DmdFacts DmdFacts2 AmpFacts AmpFacts2 AmpFacts3 AmpFacts5 IftaFacts ShapeSpec ShapeFacts RowFacts RowFacts2 DmdThms DmdExamples SimExamples.
Import ListNotations.
Open Scope R_scope.

Lemma full_same {A} ny nx (g g' : nat -> nat -> A) : same_in ny nx g g' -> reads_same ny nx (T2 ny nx g) (T2 ny nx g').
Proof.
  intros H. split; [split; left; reflexivity|]. split; [split; left; reflexivity|]. intros a b Ha Hb. rewrite !tget_T2 by assumption. apply H; assumption.
Qed.
Lemma shape_fits {A} (t : tensor A) ny nx : tshape t = S0 \/ tshape t = S2 ny nx -> fit (tshape t) ny nx.
Proof. intros [-> | ->]; [exact I|split; left; reflexivity]. Qed.
Lemma filter_reads h s w W ny nx T : window_reads h s w W -> ny = s_Ny s -> nx = s_Nx s ->
  exists tw f, (match w with None => Ok None | Some w => let! w := profile_to_tensor_c h s w true in Ok (Some w) end) = Ok tw /\
    (match tw with None => Ok (T2 ny nx (target_fp ny nx T)) | Some w => tmap2 Cmult (T2 ny nx (target_fp ny nx T)) w end) = Ok (T2 ny nx f) /\
    same_in ny nx f (fun i j => (spectrum_of ny nx T i j * W i j)%C).
Proof.
  intros HW -> ->. destruct w as [w|]; cbn [window_reads] in HW.
  - destruct HW as (t & E & Hs & V). rewrite E. cbn [rbind].
    destruct (tmap2_reads Cmult (s_Ny s) (s_Nx s) (target_fp (s_Ny s) (s_Nx s) T) t (shape_fits t _ _ Hs)) as (f & Ef & Vf).
    exists (Some t), f. split; [reflexivity|]. split; [exact Ef|]. intros i j Hi Hj. rewrite Vf, V, spectrum_fp by assumption. reflexivity.
  - exists None, (target_fp (s_Ny s) (s_Nx s) T). split; [reflexivity|]. split; [reflexivity|]. intros i j Hi Hj. rewrite HW, spectrum_fp by assumption. ring.
Qed.
Lemma amp_filtered ny nx i t t' w w' f f' : fit (tshape i) ny nx ->
  (match w with None => Ok (T2 ny nx (target_fp ny nx t)) | Some w => tmap2 Cmult (T2 ny nx (target_fp ny nx t)) w end) = Ok (T2 ny nx f) ->
  (match w' with None => Ok (T2 ny nx (target_fp ny nx t')) | Some w => tmap2 Cmult (T2 ny nx (target_fp ny nx t')) w end) = Ok (T2 ny nx f') -> same_in ny nx f f' ->
  exists amp amp' pin pout pout' M, calc_amp_phase i (T2 ny nx t) w = Ok (amp, pin, pout, M) /\ calc_amp_phase i (T2 ny nx t') w' = Ok (amp', pin, pout', M) /\
    reads_same ny nx amp amp' /\ reads_same ny nx pin pin /\ reads_same ny nx pout pout'.
Proof.
  intros HI E E' S. unfold calc_amp_phase. rewrite E, E'. cbn [rbind tmap].
  destruct (tmap2_reads safe_ratio ny nx (fun a b => Cmod (f a b)) (tmap Cmod i)) as (k & -> & Vk); [rewrite tshape_tmap; exact HI|].
  destruct (tmap2_reads safe_ratio ny nx (fun a b => Cmod (f' a b)) (tmap Cmod i)) as (k' & -> & Vk'); [rewrite tshape_tmap; exact HI|]. cbn [rbind tmap reduce_max].
  assert (K : forall a b, (a < ny)%nat -> (b < nx)%nat -> k a b = k' a b). { intros a b Ha Hb. rewrite Vk, Vk', S by assumption. reflexivity. }
  do 6 eexists. split; [reflexivity|]. split; [rewrite <- (xmax2_ext k k' ny nx K); reflexivity|]. split; [|split].
  - apply full_same. intros a b Ha Hb. rewrite K by assumption. reflexivity.
  - apply reads_same_refl. rewrite tshape_tmap. exact HI.
  - apply full_same. intros a b Ha Hb. rewrite S by assumption. reflexivity.
Qed.
(** Only the windowed spectrum of the target matters. *)
Lemma same_filtered h d input F target target' w w' T T' W W' m kw u : let s := d_slm d in
  window_reads h s (Some input) F -> full_target h s target T -> full_target h s target' T' -> window_reads h s w W -> window_reads h s w' W' ->
  (forall i j, in_array d i j -> windowed d T W i j = windowed d T' W' i j) ->
  let r := calculate_dmd_state h d input target m w kw u in let r' := calculate_dmd_state h d input target' m w' kw u in
  snd r = snd r' /\ same_state (d_state (fst r)) (d_state (fst r')).
Proof.
  intros s (ti & Ei & Si & _) HT HT' HW HW' HE r r'. subst r r'. rewrite !calc_split. unfold calc_new. fold s. rewrite Ei, HT, HT'. cbn [rbind].
  destruct (filter_reads h s w W _ _ T HW eq_refl eq_refl) as (tw & f & -> & Ef & Vf).
  destruct (filter_reads h s w' W' _ _ T' HW' eq_refl eq_refl) as (tw' & f' & -> & Ef' & Vf'). cbn [rbind].
  destruct (amp_filtered (s_Ny s) (s_Nx s) ti T T' tw tw' f f' (shape_fits ti _ _ Si) Ef Ef') as (amp & amp' & pin & pout & pout' & M & -> & -> & R1 & R2 & R3).
  { intros i j Hi Hj. rewrite Vf, Vf' by assumption. apply (HE i j). split; assumption. }
  cbn [rbind]. assert (G := grid_mirrors s). destruct (fourier_plane_grid s) as [gx gy].
  match goal with |- context [rbind ?q (fun x => let (_, _) := x in _)] => destruct q as [[inp win]|] end;
    [|split; [reflexivity|split; [reflexivity|split; reflexivity]]]. cbn [rbind].
  assert (D := dispatch_same m (d_neg d) amp amp' pin pin pout pout' gx gy _ _ _ _ (d_p d) (d_theta d) kw inp win u R1 R2 R3 G).
  destruct (calculate_dmd_grating m (d_neg d) amp pin pout gx gy (d_p d) (d_theta d) kw inp win u) as [g|]; cbn [rbind] in D |- *;
  destruct (calculate_dmd_grating m (d_neg d) amp' pin pout' gx gy (d_p d) (d_theta d) kw inp win u) as [g'|]; cbn [rbind] in D |- *.
  - destruct (to_dstate g) as [a|], (to_dstate g') as [b|]; cbn [rbind]; try contradiction.
    + destruct D as [_ D]. destruct (Req_EM_T _ 0); split; try reflexivity; exact D.
    + subst. split; [reflexivity|split; [reflexivity|split; reflexivity]].
  - destruct (to_dstate g) as [a|]; cbn [rbind]; try contradiction. subst. split; [reflexivity|split; [reflexivity|split; reflexivity]].
  - destruct (to_dstate g') as [a|]; cbn [rbind]; try contradiction. subst. split; [reflexivity|split; [reflexivity|split; reflexivity]].
  - subst. split; [reflexivity|split; [reflexivity|split; reflexivity]].
Qed.
(** The window is a filter: the same as giving the filtered target and no window. *)
Lemma window_filters h d input F target w T W m kw u : let s := d_slm d in
  window_reads h s (Some input) F -> full_target h s target T -> window_reads h s w W ->
  let filtered := AConstC (T2 (s_Ny s) (s_Nx s) (image_of (s_Ny s) (s_Nx s) (fun i j => (spectrum_of (s_Ny s) (s_Nx s) T i j * W i j)%C))) in
  let r := calculate_dmd_state h d input target m w kw u in let r' := calculate_dmd_state h d input filtered m None kw u in
  snd r = snd r' /\ same_state (d_state (fst r)) (d_state (fst r')).
Proof.
  intros s HF HT HW filtered. eapply (same_filtered h d input F target filtered w None T _ W (fun _ _ => RtoC 1) m kw u HF HT).
  - reflexivity.
  - exact HW.
  - intros i j. reflexivity.
  - intros i j [Hi Hj]. unfold windowed. fold s. rewrite spectrum_of_image by assumption. ring.
Qed.
(** Two windows one after the other. *)
Lemma windows_compose h d input F target w w2 T W1 W2 m kw u : let s := d_slm d in
  window_reads h s (Some input) F -> full_target h s target T -> window_reads h s w (fun i j => (W1 i j * W2 i j)%C) -> window_reads h s w2 W2 ->
  let filtered := AConstC (T2 (s_Ny s) (s_Nx s) (image_of (s_Ny s) (s_Nx s) (fun i j => (spectrum_of (s_Ny s) (s_Nx s) T i j * W1 i j)%C))) in
  let r := calculate_dmd_state h d input target m w kw u in let r' := calculate_dmd_state h d input filtered m w2 kw u in
  snd r = snd r' /\ same_state (d_state (fst r)) (d_state (fst r')).
Proof.
  intros s HF HT HW H2 filtered. eapply (same_filtered h d input F target filtered w w2 T _ _ W2 m kw u HF HT).
  - reflexivity.
  - exact HW.
  - exact H2.
  - intros i j [Hi Hj]. unfold windowed. fold s. rewrite spectrum_of_image by assumption. ring.
Qed.
(** A positive constant as a window, and the same constant on the input. *)
Lemma constant_window h d input F target T c m kw u : let s := d_slm d in 0 < c -> full_input h s input F -> full_target h s target T ->
  let plain := calculate_dmd_state h d input target m None kw u in
  let windowed := calculate_dmd_state h d input target m (Some (AConstR (T0 c))) kw u in
  let dimmed := calculate_dmd_state h d (AConstC (T2 (s_Ny s) (s_Nx s) (fun i j => (RtoC c * F i j)%C))) target m None kw u in
  snd windowed = rmap (fun eta => xscale eta (/ c)) (snd plain) /\ same_state (d_state (fst windowed)) (d_state (fst plain)) /\
  snd dimmed = rmap (fun eta => xscale eta c) (snd plain) /\ d_state (fst dimmed) = d_state (fst plain).
Proof.
  intros s Hc HF HT plain win dimmed. subst plain win dimmed.
  destruct (same_filtered h d input F target (AConstC (T2 (s_Ny s) (s_Nx s) (fun i j => (RtoC c * T i j)%C))) (Some (AConstR (T0 c))) None T (fun i j => (RtoC c * T i j)%C) (fun _ _ => RtoC c) (fun _ _ => RtoC 1) m kw u) with (2 := HT) as [E1 E2].
  - eexists. split; [exact HF|]. split; [right; reflexivity|]. intros i j Hi Hj. rewrite tget_T2 by assumption. reflexivity.
  - reflexivity.
  - exists (T0 (RtoC c)). split; [reflexivity|]. split; [left; reflexivity|]. reflexivity.
  - intros i j. reflexivity.
  - intros i j [Hi Hj]. unfold windowed. rewrite spectrum_of_scal. ring.
  - rewrite (calc_target_scale h d input target (AConstC (T2 (s_Ny s) (s_Nx s) (fun i j => (RtoC c * T i j)%C))) T c m None kw u Hc HT eq_refl) in E1, E2. cbn [fst snd] in E1, E2.
    split; [exact E1|]. split; [exact E2|]. fold s.
    rewrite (input_scaling h d input (AConstC (T2 (s_Ny s) (s_Nx s) (fun i j => (RtoC c * F i j)%C))) F target c m None kw u Hc HF eq_refl). split; reflexivity.
Qed.
(** So a window is not a factor on the input, as the documentation has it. *)
Lemma window_is_not_on_the_input : exists h d input F target c m kw u eta eta', let s := d_slm d in
  full_input h s input F /\ 0 < c /\
  snd (calculate_dmd_state h d input target m (Some (AConstR (T0 c))) kw u) = Ok (Fin eta) /\
  snd (calculate_dmd_state h d (AConstC (T2 (s_Ny s) (s_Nx s) (fun i j => (RtoC c * F i j)%C))) target m None kw u) = Ok (Fin eta') /\ 0 < eta /\ eta' = 4 * eta.
Proof.
  destruct ex4_reads as (HF & HT & HW & Hp & Hy & Hx & Hs & _). destruct ex4_bright as [B1 B2].
  destruct (hologram_spec ex_heap ex4 in4 tg4 None F4 T4 _ no_kwargs (fun _ _ => 0) HF HT HW Hp Hy Hx Hs B1 B2) as (M & HM & _ & _ & (g & E & _) & _).
  destruct (constant_window ex_heap ex4 in4 F4 tg4 T4 2 MIdeal no_kwargs (fun _ _ => 0) ltac:(lra) HF HT) as (E1 & _ & E2 & _).
  rewrite E in E1, E2. cbn [snd rmap rbind xscale] in E1, E2.
  exists ex_heap, ex4, in4, F4, tg4, 2, MIdeal, no_kwargs, (fun _ _ => 0). do 2 eexists. split; [exact HF|]. split; [lra|]. split; [exact E1|]. split; [exact E2|].
  assert (P : 0 < eta_scale (d_slm ex4) / M).
  { apply Rdiv_lt_0_compat; [|exact HM]. unfold eta_scale, scaling_factor. cbn. lra. }
  split; [|field; lra]. set (e := eta_scale (d_slm ex4) / M) in *. clearbody e. lra.
Qed.
