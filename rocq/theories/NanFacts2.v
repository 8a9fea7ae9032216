(** Proofs for C133: blocking, the next run, holograms with a dark pixel. *)
From Coq Require Import Reals Lra ZArith Arith List Bool Lia FunctionalExtensionality.
From Coquelicot Require Import Complex.
From Verif Require Import Cx Sums DFT PyBase ProfileModel SlmModel LibModel DmdModel SimModel SimSpec DmdSpec GridFacts SimFacts SimFacts2 DmdFacts2 DmdFacts3 AmpFacts AmpFacts2 AmpFacts3 NanModel NanSpec NanFacts.
Open Scope R_scope.

Lemma bad_block d m r ny nx X Y : (r = None -> d_p d <> 0) -> n_output m <> None -> holds (n_image m) ny nx (fun _ _ z => z = None) ->
  Z.to_nat (n_Ny (d_slm d) m) = ny -> Z.to_nat (n_Nx (d_slm d) m) = nx ->
  grid_is (image_grid_of nx ny (pixel_size (d_slm d)) (scaling_factor (d_slm d))) ny nx X Y ->
  exists m', n_block d m r = (m', Ok tt) /\ n_input m' = n_input m /\ n_output m' = n_output m /\ n_pad_x m' = n_pad_x m /\ n_pad_y m' = n_pad_y m /\
    holds (n_image m') ny nx (fun u v z => (X u v ^ 2 + Y u v ^ 2 < block_radius d r ^ 2 -> z = Some (RtoC 0)) /\ (block_radius d r ^ 2 <= X u v ^ 2 + Y u v ^ 2 -> z = None)).
Proof.
  intros Hp Ho Hf Ey Ex Hg. unfold n_block. cbv zeta. destruct (n_output m) as [o|] eqn:EO; [|congruence].
  assert (ER : match r with Some r => Fin r | None => xdiv (xdiv (Fin (scaling_factor (d_slm d))) (Fin (d_p d))) (Fin 2) end = Fin (block_radius d r)).
  { destruct r as [r|]; [reflexivity|]. cbn [xdiv]. destruct (Req_EM_T (d_p d) 0); [exfalso; apply (Hp eq_refl); assumption|]. cbn [xdiv]. destruct (Req_EM_T 2 0); [lra|]. reflexivity. }
  rewrite ER, Ey, Ex. set (R0 := block_radius d r).
  destruct (grid_is_shape _ _ _ _ _ Hg) as (gx & gy & EG). rewrite EG.
  destruct (n_image m) as [t|]; [|contradiction]. destruct t as [|a b k]; [contradiction|].
  destruct Hf as (-> & -> & Hk). rewrite tmap2_same. eexists. split; [reflexivity|].
  cbn [n_fields n_input n_output n_image n_pad_x n_pad_y]. do 4 (split; [reflexivity || congruence|]).
  cbn [holds]. split; [reflexivity|]. split; [reflexivity|]. intros u v Hu Hv.
  destruct (grid_is_get _ _ _ _ _ u v Hg Hu Hv) as [E1 E2]. rewrite EG in E1, E2. cbn [fst snd] in E1, E2.
  rewrite !tget_T2 by assumption. rewrite Hk by assumption. cbn [fst snd below].
  rewrite tget_T2 in E1, E2 by assumption. rewrite E1, E2. destruct (Rlt_dec _ _) as [L|L]; split; intros G; try reflexivity; try lra.
Qed.
Lemma next_run h dev m a : n_propagate h dev (n_new (n_pad_x m) (n_pad_y m)) a = (fst (n_propagate h dev (n_new (n_pad_x m) (n_pad_y m)) a), Ok tt) ->
  n_propagate h dev m a = n_propagate h dev (n_new (n_pad_x m) (n_pad_y m)) a.
Proof.
  unfold n_propagate. cbv zeta. cbn [n_new n_pad_x n_pad_y n_fields].
  destruct (profile_to_tensor_c h (dev_slm dev) a true) as [inp|e]; [|discriminate].
  destruct (n_tf_pad (n_pad_y m) (n_pad_x m) (tmap Some inp)) as [fin|e]; [|discriminate].
  destruct (rbind _ _) as [out|e]; [|discriminate]. destruct (n_tf_pad (n_pad_y m) (n_pad_x m) out) as [fout|e]; [|discriminate].
  destruct (Req_EM_T (scaling_factor (dev_slm dev)) 0); [discriminate|]. reflexivity.
Qed.
(** The ideal hologram has NaN at the dark mirror. *)
Lemma dark_is_nan h d input target w F T W kw u i0 j0 :
  full_input h (d_slm d) input F -> full_target h (d_slm d) target T -> window_reads h (d_slm d) w W -> d_p d <> 0 -> scaling_factor (d_slm d) <> 0 ->
  in_array d i0 j0 -> F i0 j0 = RtoC 0 -> windowed d T W i0 j0 <> RtoC 0 ->
  exists g, calculate_dmd_state h d input target MIdeal w kw u = (with_state d (DFloat (s_Ny (d_slm d)) (s_Nx (d_slm d)) g), Ok (Fin 0)) /\ g i0 j0 = NaN.
Proof.
  intros HF HT HW Hp Hs [Hi Hj] HD Hz.
  assert (HX : exists i j, (i < s_Ny (d_slm d))%nat /\ (j < s_Nx (d_slm d))%nat /\ F i j = RtoC 0 /\ windowed d T W i j <> RtoC 0) by (exists i0, j0; auto).
  destruct (calc_ideal h d input target w F T W kw u HF HT HW Hp) as (g & E & V). exists g.
  rewrite (dark_result d F T W Hs HX) in E. split; [exact E|]. rewrite V by assumption.
  rewrite (dark_max d F T W HX), spectrum_windowed by assumption. unfold safe_ratio. assert (P := Cmod_pos_neq _ Hz). destruct (Req_EM_T (Cmod (windowed d T W i0 j0)) 0); [lra|].
  rewrite HD, Cmod_0. cbn [xdiv]. destruct (Req_EM_T 0 0); [|lra]. destruct (Rlt_dec 0 (Cmod (windowed d T W i0 j0))); [reflexivity|lra].
Qed.
Lemma dark_image h d input target w F T W kw u i0 j0 beam E m py px :
  full_input h (d_slm d) input F -> full_target h (d_slm d) target T -> window_reads h (d_slm d) w W -> d_p d <> 0 -> scaling_factor (d_slm d) <> 0 -> pixel_size (d_slm d) <> 0 ->
  in_array d i0 j0 -> F i0 j0 = RtoC 0 -> windowed d T W i0 j0 <> RtoC 0 -> full_input h (d_slm d) beam E -> n_pad_y m = Z.of_nat py -> n_pad_x m = Z.of_nat px ->
  let d' := fst (calculate_dmd_state h d input target MIdeal w kw u) in
  exists m' g, n_propagate h (DevDmd d') m beam = (m', Ok tt) /\ g i0 j0 = NaN /\ spoilt (d_slm d) py px E g m'.
Proof.
  intros HF HT HW Hp Hs Hps Hij HD Hz HE Hy Hx. cbv zeta. destruct (dark_is_nan h d input target w F T W kw u i0 j0 HF HT HW Hp Hs Hij HD Hz) as (g & EC & Hn).
  rewrite EC. cbn [fst].
  destruct (bad_state h (with_state d (DFloat (s_Ny (d_slm d)) (s_Nx (d_slm d)) g)) m beam E g py px i0 j0 HE eq_refl Hij ltac:(intros r; rewrite Hn; discriminate) Hy Hx Hs Hps) as (m' & P & _ & _ & Q).
  exists m', g. split; [exact P|]. split; [exact Hn|exact Q].
Qed.
Lemma new_results dev px py m : sim_new dev px py = Ok m -> same_results (n_new (pad_x m) (pad_y m)) m.
Proof.
  unfold sim_new. destruct (as_int px); [|discriminate]. destruct (as_int py); [|discriminate]. destruct dev; [|discriminate]. intros E. injection E as <-. repeat split.
Qed.
