(** IFTA on stacks against IFTA on single images, and agreement with the two-axis model. *)
From Coq Require Import Reals Lra ZArith Arith List Bool Lia.
From Coquelicot Require Import Complex.
From Verif Require Import Cx Sums DFT PyBase ProfileModel SlmModel LibModel DmdModel SimModel SimSpec DmdSpec HoloSpec GridFacts IftaFacts RowFacts RankModel RankSpec RankFacts RankFacts2 RankFacts3 RankFacts4 RankLcosModel RankLcosSpec RankLcosFacts RankLcosFacts2 RankIftaModel RankIftaSpec RankIftaFacts.
Import ListNotations.
Open Scope R_scope.

Lemma ifta_array_scaled ny nx F W g g' N s s' : (forall i j, (i < ny)%nat -> (j < nx)%nat -> fin_of (xscale (g i j) s) = fin_of (xscale (g' i j) s')) ->
  forall i j, (i < ny)%nat -> (j < nx)%nat -> ifta_array ny nx F W g N s i j = ifta_array ny nx F W g' N s' i j.
Proof.
  intros H i j Hi Hj. unfold ifta_array.
  assert (I0 : forall a b, oifft2 ny nx (fun i j => omul (F i j) (fin_of (xscale (g i j) s))) a b = oifft2 ny nx (fun i j => omul (F i j) (fin_of (xscale (g' i j) s'))) a b).
  { intros a b. apply oifft2_ext. intros p q Hp Hq. cbv beta. rewrite H by assumption. reflexivity. }
  rewrite (ifta_loop_ext ny nx F (ifftshift2 ny nx W) _ _ N (Z.to_nat N) I0 _ (fun i j => fin_of (xscale (g' i j) s')) H i j Hi Hj). reflexivity.
Qed.
Lemma allb_true f n : (forall i, (i < n)%nat -> f i = true) -> allb f n = true.
Proof. induction n as [|n IH]; intros H; [reflexivity|]. cbn [allb]. rewrite IH, H by (intros; try apply H; lia). reflexivity. Qed.
Lemma allb2_true f ny nx : (forall i j, (i < ny)%nat -> (j < nx)%nat -> f i j = true) -> allb2 f ny nx = true.
Proof. induction ny as [|n IH]; intros H; [reflexivity|]. cbn [allb2]. rewrite IH by (intros; apply H; lia). rewrite allb_true by (intros; apply H; lia). reflexivity. Qed.
Lemma csum_0 n f : (forall i, (i < n)%nat -> f i = RtoC 0) -> csum n f = RtoC 0.
Proof. induction n as [|n IH]; intros H; [reflexivity|]. cbn [csum]. rewrite IH, H by (intros; try apply H; lia). ring. Qed.
Lemma csum2_0 ny nx f : (forall i j, (i < ny)%nat -> (j < nx)%nat -> f i j = RtoC 0) -> csum2 ny nx f = RtoC 0.
Proof. intros H. apply csum_0. intros i Hi. apply csum_0. intros j Hj. apply H; assumption. Qed.
Lemma offt2_0 ny nx f u v : (forall i j, (i < ny)%nat -> (j < nx)%nat -> f i j = Some (RtoC 0)) -> offt2 ny nx f u v = Some (RtoC 0).
Proof.
  intros H. unfold offt2. rewrite allb2_true by (intros; rewrite H by assumption; reflexivity). f_equal. unfold fft2. apply csum2_0. intros i j Hi Hj. unfold oget. rewrite H by assumption. ring.
Qed.
Lemma oifft2_0 ny nx f u v : (forall i j, (i < ny)%nat -> (j < nx)%nat -> f i j = Some (RtoC 0)) -> oifft2 ny nx f u v = Some (RtoC 0).
Proof.
  intros H. unfold oifft2. rewrite allb2_true by (intros; rewrite H by assumption; reflexivity). f_equal. unfold ifft2. rewrite csum2_0; [unfold Cdiv; ring|]. intros i j Hi Hj. unfold oget. rewrite H by assumption. ring.
Qed.
Lemma ifta_array_0 ny nx F W g N s : (forall i j, (i < ny)%nat -> (j < nx)%nat -> g i j = Fin 0) ->
  forall i j, (i < ny)%nat -> (j < nx)%nat -> ifta_array ny nx F W g N s i j = false.
Proof.
  intros H i j Hi Hj. unfold ifta_array.
  assert (G : forall i j, (i < ny)%nat -> (j < nx)%nat -> fin_of (xscale (g i j) s) = Some 0) by (intros; rewrite H by assumption; cbn [xscale fin_of]; rewrite Rmult_0_l; reflexivity).
  assert (L : forall k, (k <= Z.to_nat N)%nat -> forall i j, (i < ny)%nat -> (j < nx)%nat ->
    ifta_loop ny nx F (ifftshift2 ny nx W) (oifft2 ny nx (fun i j => omul (F i j) (fin_of (xscale (g i j) s)))) N k (fun i j => fin_of (xscale (g i j) s)) i j = Some 0).
  { induction k as [|k IH]; intros Hk i0 j0 Hi0 Hj0; [apply G; assumption|]. cbn [ifta_loop]. unfold ifta_step. destruct (C_dec0 (F i0 j0)) as [_|_]; [reflexivity|].
    assert (Ht : 0 < (INR k + 1) * (0.5 / IZR N)).
    { assert (0 < IZR N) by (apply IZR_lt; lia). assert (0 <= INR k) by apply pos_INR. apply Rmult_lt_0_compat; [lra|]. apply Rdiv_lt_0_compat; lra. }
    rewrite offt2_0; [f_equal; unfold Cdiv; rewrite Cmult_0_l; reflexivity|]. intros p q Hp Hq. rewrite !oifft2_0.
    - cbn [ifta_correct]. f_equal. ring.
    - intros a b Ha Hb. rewrite G by assumption. cbn [omul]. f_equal. ring.
    - intros a b Ha Hb. rewrite IH by (try assumption; lia). cbn [ifta_binarize]. destruct (Rlt_dec 0 _); [|contradiction]. cbn [omul]. f_equal. ring. }
  rewrite L by (try assumption; lia). destruct (Rlt_dec 0.5 0); [lra|reflexivity].
Qed.
Lemma ideal_kw h d i t w kw kw' u u' : calculate_dmd_state h d i t MIdeal w kw u = calculate_dmd_state h d i t MIdeal w kw' u'.
Proof. reflexivity. Qed.
Lemma st_over {A} nx ny B (a : nd A) f z X : st nx ny B a f X -> over nx ny B a (glue z f).
Proof.
  intros (E & HX & V). split.
  - rewrite E. split; [auto|]. split; [auto|]. destruct HX as [->| ->]; [exact Logic.I|apply fits_refl].
  - intros ix H. destruct (cut _ _ _ _ H) as (j & i & b & -> & Hi & Hj & Hb). unfold nget. rewrite E, clip2 by assumption. cbn [glue]. apply V; assumption.
Qed.
Section Slices.
Variables (h : heap) (d : dmd) (B : list nat) (input target : nd C) (w : option (nd C)) (sw : nd C) (F T W V : list nat -> nat -> nat -> C) (N : option Z) (s0 : option R) (u0 : nat -> nat -> R) (u : list nat -> R).
Hypotheses (HF : stack_of d B input F) (HT : stack_of d B target T) (HW : stack_window d B w W)
  (Hdeep : deep d B input \/ deep d B target \/ deep_window d B w)
  (Hp : d_p d <> 0) (Hny : (0 < s_Ny (d_slm d))%nat) (Hnx : (0 < s_Nx (d_slm d))%nat) (HB : Forall (fun n => (0 < n)%nat) B) (Hs : scaling_factor (d_slm d) <> 0)
  (Hdark : forall b i j, valid B b -> in_array d i j -> F b i j = RtoC 0 -> windowed d (T b) (W b) i j = RtoC 0)
  (Hlit : exists b i j, valid B b /\ in_array d i j /\ windowed d (T b) (W b) i j <> RtoC 0)
  (Hsw : nsh sw <> []) (HV : spread (d_slm d) B sw V).
Lemma ifta_stack : exists t eta, nd_calculate_ifta d input target w (Some sw) N s0 = (Some (NBool t), Ok (Fin eta)) /\ nsh t = s_Nx (d_slm d) :: s_Ny (d_slm d) :: B /\
  (exists t0, nd_calculate_dmd_state d input target MIdeal w None u = (Some (NFloat t0), Ok (Fin eta))) /\
  (forall b, valid B b -> (exists i j, in_array d i j /\ windowed d (T b) (W b) i j <> RtoC 0) ->
     exists rho f eta_b, 0 < rho <= 1 /\ eta = rho * eta_b /\
       alone_ifta h d F T W V w b (half_on B b) N (dflt s0 1 * rho) u0 = (with_state d (DBool (s_Ny (d_slm d)) (s_Nx (d_slm d)) f), Ok (Fin eta_b)) /\
       forall i j, in_array d i j -> nel t (j :: i :: b) = f i j) /\
  (forall b, valid B b -> (forall i j, in_array d i j -> windowed d (T b) (W b) i j = RtoC 0) -> forall i j, in_array d i j -> nel t (j :: i :: b) = false).
Proof.
  destruct (stack_slices h d B input target w F T W no_kwargs u0 u HF HT HW Hdeep Hp Hny Hnx HB Hs Hdark Hlit) as (t0 & t1 & eta & E0 & _ & Sl & Sd & _). cbn [no_kwargs k_r] in E0.
  destruct (stack_hologram d B input target w F T W None u HF HT HW Hdeep Hp Hny Hnx HB Hs Hdark Hlit) as (M & _ & _ & _ & (t0' & E0' & Sh & _) & _). rewrite E0 in E0'. injection E0' as <- _.
  assert (E1 := E0). unfold nd_calculate_dmd_state in E1. unfold nd_calculate_ifta. destruct (fourier_plane_grid (d_slm d)) as [x y].
  destruct (nd_calc_amp_phase input target w) as [[[[amp pin] pout] one]|]; cbn [rbind] in E1 |- *; [|discriminate]. cbn [nd_calculate_dmd_grating] in E1.
  destruct (nd_grating _ amp pin pout (nd_of x) (nd_of y)) as [t0'|]; cbn [rmap rbind] in E1 |- *; [|discriminate].
  destruct (Req_EM_T (scaling_factor (d_slm d)) 0) as [Z|_]; [contradiction|]. injection E1 as -> E1.
  assert (Si : exists X, st (s_Nx (d_slm d)) (s_Ny (d_slm d)) B input F X) by (destruct (stack_st d B input F HF) as (X & SX & _); exists X; exact SX). destruct Si as (Xi & Si).
  assert (Wg : whole (s_Nx (d_slm d)) (s_Ny (d_slm d)) B t0 (nel t0)) by (split; [exact Sh|reflexivity]).
  destruct (ifta_any _ _ B t0 (nel t0) input _ sw _ (dflt N 200%Z) (dflt s0 1) Wg (st_over _ _ _ _ _ (RtoC 0) _ Si) Hsw (spread_over _ _ _ _ (RtoC 0) HV)) as (t & Et & Ht & Vt).
  rewrite Et. cbn [rbind]. exists t, eta. split; [apply f_equal2; [reflexivity|exact E1]|]. split; [exact Ht|]. split; [exists t0; exact E0|].
  assert (Vt' : forall b i j, valid B b -> in_array d i j -> nel t (j :: i :: b) =
    ifta_array (s_Ny (d_slm d)) (s_Nx (d_slm d)) (F b) (V (half_on B b)) (fun i j => nel t0 (j :: i :: b)) (dflt N 200%Z) (dflt s0 1) i j).
  { intros b i j Hb [Hi Hj]. rewrite Vt by (apply join3; assumption). reflexivity. }
  split.
  - intros b Hb Hl. destruct (Sl b Hb Hl) as (rho & g & g' & eta_b & Hr & Eeta & Ea & _ & Vg & _).
    set (kw := {| k_r := None; k_N := N; k_s := Some (dflt s0 1 * rho); k_window := Some (ATensorC (T2 (s_Ny (d_slm d)) (s_Nx (d_slm d)) (V (half_on B b)))); k_input := None |}).
    set (win := match w with None => None | Some _ => Some (ATensorC (T2 (s_Ny (d_slm d)) (s_Nx (d_slm d)) (W b))) end).
    assert (Hw : window_reads h (d_slm d) win (W b)).
    { unfold win. destruct w; [|exact (HW b)]. eexists. split; [reflexivity|]. split; [right; reflexivity|]. intros i j Hi Hj. apply tget_T2; assumption. }
    destruct (calc_ifta h d (ATensorC (T2 (s_Ny (d_slm d)) (s_Nx (d_slm d)) (F b))) (ATensorC (T2 (s_Ny (d_slm d)) (s_Nx (d_slm d)) (T b))) win (F b) (T b) (W b) (V (half_on B b)) kw _ u0 eq_refl eq_refl Hw Hp eq_refl eq_refl) as (g1 & r & A1 & A2).
    unfold alone in Ea. cbv zeta in Ea. fold win in Ea. rewrite (ideal_kw _ _ _ _ _ no_kwargs kw u0 u0), A1 in Ea. injection Ea as Eg Er. subst g1 r.
    exists rho. eexists. exists eta_b. split; [exact Hr|]. split; [exact Eeta|]. split; [exact A2|]. intros i j Hij. rewrite Vt' by assumption. apply ifta_array_scaled; [|apply Hij|apply Hij].
    intros p q Hp' Hq'. destruct (Vg p q (conj Hp' Hq')) as (l & -> & ->). cbn [xscale fin_of kw k_s dflt]. f_equal. ring.
  - intros b Hb Hz i j Hij. rewrite Vt' by assumption. apply ifta_array_0; [|apply Hij|apply Hij]. intros p q Hp' Hq'. apply (Sd b Hb Hz p q (conj Hp' Hq')).
Qed.
Lemma ifta_stack_bad sw' : nsh sw' = [] \/ ~ fits (nsh sw') (s_Nx (d_slm d) :: s_Ny (d_slm d) :: B) -> nd_calculate_ifta d input target w (Some sw') N s0 = (None, Err ETensorFlow).
Proof.
  intros Hbad. destruct (stack_hologram d B input target w F T W None u HF HT HW Hdeep Hp Hny Hnx HB Hs Hdark Hlit) as (M & _ & _ & _ & (t0 & E1 & Sh & _) & _).
  unfold nd_calculate_dmd_state in E1. unfold nd_calculate_ifta. destruct (fourier_plane_grid (d_slm d)) as [x y].
  destruct (nd_calc_amp_phase input target w) as [[[[amp pin] pout] one]|]; cbn [rbind] in E1 |- *; [|discriminate]. cbn [nd_calculate_dmd_grating] in E1.
  destruct (nd_grating _ amp pin pout (nd_of x) (nd_of y)) as [t0'|]; cbn [rmap rbind] in E1 |- *; [|discriminate].
  destruct (Req_EM_T (scaling_factor (d_slm d)) 0) as [Z|_]; [contradiction|]. injection E1 as -> E1.
  rewrite (ifta_bad t0 (s_Nx (d_slm d)) (s_Ny (d_slm d)) B); [reflexivity|exact Sh|]. rewrite Sh. intros (_ & H1 & H2). destruct Hbad as [Q|Q]; contradiction.
Qed.
Lemma ifta_stack_missing : nd_calculate_ifta d input target w None N s0 = (None, Err KeyError).
Proof.
  destruct (stack_hologram d B input target w F T W None u HF HT HW Hdeep Hp Hny Hnx HB Hs Hdark Hlit) as (M & _ & _ & _ & (t0 & E1 & Sh & _) & _).
  unfold nd_calculate_dmd_state in E1. unfold nd_calculate_ifta. destruct (fourier_plane_grid (d_slm d)) as [x y].
  destruct (nd_calc_amp_phase input target w) as [[[[amp pin] pout] one]|]; cbn [rbind] in E1 |- *; [|discriminate]. reflexivity.
Qed.
End Slices.
(** ** Agreement with the two-axis model. *)
Lemma stretch0_over {A} (z : A) ny nx (t : tensor A) g : stretch ny nx t = Some g -> over nx ny [] (nd_of t) (glue z (fun _ => g)).
Proof.
  destruct t as [a|a b f]; intros H; [|exact (proj2 (stretch_over z _ _ _ _ _ _ H))]. injection H as <-. split; [exact Logic.I|]. intros ix Hx. destruct (cut _ _ _ _ Hx) as (j & i & r & -> & _). reflexivity.
Qed.
Lemma ifta_two_axes h d input target w sw N s u v : (forall i j, v [j; i] = u i j) ->
  agrees d (nd_calculate_ifta d (nd_of input) (nd_of target) (option_map nd_of w) (option_map nd_of sw) N s)
    (calculate_dmd_state h d (ATensorC input) (ATensorC target) MIfta (option_map ATensorC w) {| k_r := None; k_N := N; k_s := s; k_window := option_map ATensorC sw; k_input := None |} u).
Proof.
  intros Hv. unfold nd_calculate_ifta, calculate_dmd_state. cbn [profile_to_tensor_c rbind k_window].
  replace (match option_map ATensorC w with Some w => _ | None => Ok None end) with (Ok w) by (destruct w; reflexivity). cbn [rbind].
  assert (Q := same_calc input target w).
  destruct (grid_is_shape _ _ _ _ _ (fourier_plane_grid_is (d_slm d))) as (gx & gy & ->).
  destruct (nd_calc_amp_phase _ _ _) as [[[[amp pin] pout] one]|e], (calc_amp_phase _ _ _) as [[[[amp' pin'] pout'] one']|e']; cbn [same4] in Q; try contradiction; cbn [rbind].
  2: { subst e'. split; reflexivity. }
  destruct Q as (Sa & Si & So & <-). destruct sw as [sw|]; [|split; reflexivity]. cbn [option_map profile_to_tensor_c rbind].
  assert (G := same_dmd_grating MIdeal (d_neg d) amp pin pout (T2 (s_Ny (d_slm d)) (s_Nx (d_slm d)) gx) (T2 (s_Ny (d_slm d)) (s_Nx (d_slm d)) gy) (d_p d) (d_theta d) no_kwargs None None u v amp' pin' pout' ltac:(discriminate) Hv ltac:(discriminate) Sa Si So).
  unfold nd_calculate_dmd_grating in G. unfold calculate_dmd_grating in G |- *. unfold grating_ifta. cbn [k_N k_s].
  destruct (nd_grating _ _ _ _ _ _) as [t|e], (grating_ideal _ _ _ _ _ _ _ _) as [[?|ny nx g]|e']; cbn [rmap] in G; try contradiction; cbn [rbind].
  2: { subst e'. split; reflexivity. }
  destruct G as [G1 G2]. cbn [tshape shp] in G1.
  assert (Wt : whole nx ny [] t (glue NaN (fun _ => g))).
  { split; [exact G1|]. intros ix Hx. destruct (cut _ _ _ _ Hx) as (j & i & r & -> & Hi & Hj & Hr). assert (r = []) as -> by (inversion Hr; reflexivity). cbn [glue]. rewrite <- (tget_T2 ny nx g i j Hi Hj). exact (G2 i j (conj Hi Hj)). }
  assert (Bad : ~ (fits (nsh (nd_of input)) [nx; ny] /\ nsh (nd_of sw) <> [] /\ fits (nsh (nd_of sw)) [nx; ny]) -> nd_ifta t (nd_of input) (nd_of sw) (dflt N 200%Z) (dflt s 1) = Err ETensorFlow).
  { intros H. apply (ifta_bad t nx ny []); [exact G1|]. rewrite G1. exact H. }
  destruct sw as [c|a b Wf]; [rewrite Bad by (intros (_ & H & _); apply H; reflexivity); split; reflexivity|].
  destruct (stretch ny nx input) as [F'|] eqn:EF; [destruct (stretch ny nx (T2 a b Wf)) as [W'|] eqn:EW|].
  - destruct (ifta_any nx ny [] t _ _ _ _ _ (dflt N 200%Z) (dflt s 1) Wt (stretch0_over (RtoC 0) _ _ _ _ EF) (two_axes a b Wf) (stretch0_over (RtoC 0) _ _ _ _ EW)) as (r & -> & Er & Vr). cbn [rbind rmap to_dstate].
    destruct (Req_EM_T (scaling_factor (d_slm d)) 0); (split; [reflexivity|]; exists ny, nx, (ifta_array ny nx F' W' g (dflt N 200%Z) (dflt s 1)); split; [reflexivity|split; [exact Er|]]; intros i j Hi Hj; rewrite (Vr [j; i]) by (apply join3; [assumption|assumption|constructor]); reflexivity).
  - rewrite Bad by (intros (_ & _ & H); exact (stretch_none _ _ _ _ _ EW H)). split; reflexivity.
  - rewrite Bad; [split; reflexivity|]. intros (H & _ & _). destruct input as [c|a' b' Ff]; [discriminate EF|]. exact (stretch_none _ _ _ _ _ EF H).
Qed.
