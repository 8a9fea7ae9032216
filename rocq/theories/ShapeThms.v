(** Statements of C83-C85 put together. *)
From Coq Require Import Reals Lra ZArith Arith List Bool Lia.
From Coquelicot Require Import Complex.
From Verif Require Import Cx Sums DFT PyBase ProfileModel SlmModel LibModel DmdModel OriginFacts SimModel SimSpec SimExamples DmdSpec DmdFacts DmdFacts2 DmdFacts3 DmdThms DmdExamples ShapeSpec ShapeFacts RowFacts PeriodFacts.
Open Scope R_scope.

Lemma reads_fit h s a B : reads h s a B -> exists t, profile_to_tensor_r h s a true = Ok t /\ fit (tshape t) (s_Ny s) (s_Nx s).
Proof. intros (t & E & [S|S] & _); exists t; (split; [exact E|]); rewrite S; cbn; auto. Qed.
Lemma single_rows_repeat h d a b c f y x m kw u : let s := d_slm d in fits s y x ->
  (exists B, reads h s b B) -> (exists B, reads h s c B) -> (a = AConstR (T2 y x f) \/ a = ATensorR (T2 y x f)) ->
  let r := set_dmd_grating_state h d a b c m kw u in
  let r' := set_dmd_grating_state h d (AConstR (T2 (s_Ny s) (s_Nx s) (repeated y x f))) b c m kw u in
  snd r = snd r' /\ same_state (d_state (fst r)) (d_state (fst r')).
Proof. intros s HF (B & HB) (D & HD) Ha. exact (set_repeats h d a b c f y x m kw u HF (reads_fit _ _ _ _ HB) (reads_fit _ _ _ _ HD) Ha). Qed.
Lemma holo_shape_input h l i t m kw u l' : calculate_hologram h l i t m kw u = (l', Ok tt) ->
  exists y x F, profile_to_tensor_c h (l_slm l) i true = Ok (T2 y x F) /\ lstate_shape (l_state l') = (y, x).
Proof. intros H. destruct (holo_shape _ _ _ _ _ _ _ _ H) as ([z|y x F] & E & _ & S); [contradiction|]. exists y, x, F. auto. Qed.
Lemma holo_misfit_accepted : exists h l i t kw u l', misfits (l_slm l) i /\ misfits (l_slm l) t /\
  calculate_hologram h l i t MGs kw u = (l', Ok tt) /\
  forall h' m input F, full_input h' (l_slm l) input F -> exists e, snd (propagate_to_image h' (DevLcos l') m input) = Err e.
Proof.
  set (s := {| wavelength := 1; focal_length := 1; s_Nx := 4; s_Ny := 2; pixel_size := 1 |}).
  assert (M : ~ fits s 3 4) by (intros [[H|H] _]; cbn in H; lia).
  destruct (holo_any_size ex_heap (lcos_new s) 3 4 (fun _ _ => RtoC 1) (fun i j => INR (i + j)) {| lk_N := None; lk_window := None; lk_mix := None |} (fun _ _ => 0)) as (phi & E).
  do 7 eexists. split; [|split; [|split; [exact E|]]].
  - exists 3%nat, 4%nat. split; [right; eexists; right; reflexivity|exact M].
  - exists 3%nat, 4%nat. split; [left; eexists; right; reflexivity|exact M].
  - intros h' m input F HF. apply (holo_wrong_size_unusable h' {| l_slm := s; l_state := LReal 3 4 phi |} 3 4 phi m input F); [reflexivity|cbn; lia|cbn; lia|exact HF].
Qed.
Lemma zero_period_blank h d : d_p d = 0 ->
  (forall a b c m kw u d', set_dmd_grating_state h d a b c m kw u = (d', Ok tt) ->
     forall i j, (i < fst (state_shape (d_state d')))%nat -> (j < snd (state_shape (d_state d')))%nat ->
     cell_at (d_state d') i j = if binary m then CBool false else CFloat NaN) /\
  (forall i t m w kw u d' eta, calculate_dmd_state h d i t m w kw u = (d', Ok eta) ->
     forall i j, (i < fst (state_shape (d_state d')))%nat -> (j < snd (state_shape (d_state d')))%nat ->
     cell_at (d_state d') i j = if binary m then CBool false else CFloat NaN).
Proof.
  intros Hp. split; [intros a b c m kw u d' E; exact (set_blank h d a b c m kw u d' Hp E)|].
  intros i t m w kw u d' eta E. exact (calc_blank h d i t m w kw u d' eta Hp E).
Qed.
Lemma zero_period_blocks d m f X Y : d_p d = 0 -> scaling_factor (d_slm d) <> 0 -> f_output m <> None ->
  field_is (f_image m) (NY (d_slm d) m) (NX (d_slm d) m) f ->
  grid_is (image_plane_padded_grid (d_slm d) m) (NY (d_slm d) m) (NX (d_slm d) m) X Y ->
  (forall x y, first_order_origin d <> (Fin x, Fin y)) /\
  exists m', block_zeroth_order d m None = (m', Ok tt) /\ field_is (f_image m') (NY (d_slm d) m) (NX (d_slm d) m) (fun _ _ => RtoC 0).
Proof. intros Hp Hs Ho Hf Hg. split; [exact (origin_zero d Hp Hs)|exact (block_all d m f X Y Hp Hs Ho Hf Hg)]. Qed.
Lemma zero_period_accepted : exists h wl fl th Nx Ny ps neg input target kw u d' eta,
  calculate_dmd_state h (dmd_new wl fl 0 th Nx Ny ps neg) input target MSimple None kw u = (d', Ok (Fin eta)) /\ 0 < eta /\ (0 < Nx)%nat /\ (0 < Ny)%nat /\
  state_shape (d_state d') = (Ny, Nx) /\ forall i j, (i < Ny)%nat -> (j < Nx)%nat -> cell_at (d_state d') i j = CBool false.
Proof.
  set (d := dmd_new 2 3 0 0 4 2 (/ 2) false).
  destruct ex4_reads as (HF & HT & HW & Hp & Hy & Hx & Hs & Hps). destruct ex4_bright as [B1 B2].
  destruct (hologram_spec ex_heap ex4 in4 tg4 None F4 T4 _ no_kwargs (fun _ _ => 0) HF HT HW Hp Hy Hx Hs B1 B2) as (M & HM & _ & _ & _ & (g & G & _) & _).
  destruct (outcomes ex_heap ex4 d eq_refl) as [_ O]. specialize (O in4 tg4 MSimple None no_kwargs (fun _ _ => 0)). rewrite G in O. cbn [snd] in O.
  destruct (calculate_dmd_state ex_heap d in4 tg4 MSimple None no_kwargs (fun _ _ => 0)) as [d' r] eqn:E. cbn [snd] in O. subst r.
  assert (Hp0 : d_p d = 0) by (cbn; lra).
  destruct (zero_period_blank ex_heap d Hp0) as [_ Bl]. specialize (Bl _ _ _ _ _ _ _ _ E).
  assert (Sh : state_shape (d_state d') = (2, 4)%nat).
  { assert (E' := E). rewrite calc_split in E'. destruct (calc_new ex_heap d in4 tg4 MSimple None no_kwargs (fun _ _ => 0)) as [[st one]|] eqn:EN; [|discriminate].
    assert (D : d_state d' = st) by (destruct (Req_EM_T _ 0); [discriminate|injection E' as <- _; reflexivity]). rewrite D.
    exact (calc_new_shape ex_heap d _ _ _ _ _ _ _ _ ltac:(cbn; lia) ltac:(cbn; lia) EN). }
  rewrite Sh in Bl. exists ex_heap, 2, 3, 0, 4%nat, 2%nat, (/ 2), false, in4, tg4, no_kwargs, (fun _ _ => 0), d'. eexists. split; [exact E|].
  split; [|split; [lia|split; [lia|split; [exact Sh|exact Bl]]]].
  apply Rdiv_lt_0_compat; [|exact HM]. unfold eta_scale, scaling_factor. cbn. lra.
Qed.
