(** Holograms with undefined values (C155). *)
From Coq Require Import Reals Lra ZArith Arith List Bool Lia FunctionalExtensionality.
From Coquelicot Require Import Complex.
From Verif Require Import Cx Sums DFT PyBase ProfileModel SlmModel LibModel DmdModel SimModel SimSpec GridFacts SimFacts SimFacts2 DmdSpec DmdFacts DmdFacts2 DmdFacts3
  AmpFacts AmpFacts2 AmpFacts3 HoloSpec HoloFacts HoloFacts2 IftaFacts RowFacts NanModel NanFacts NanHoloModel NanHoloSpec.
Import ListNotations.
Open Scope R_scope.

(** ** Maxima, quotients *)
Lemma xmax_nan_r a : xmax a NaN = NaN. Proof. destruct a; reflexivity. Qed.
Lemma xmax1_nan f n j : (j < n)%nat -> f j = NaN -> xmax1 f n = NaN.
Proof.
  induction n as [|n IH]; intros Hj E; [lia|]. cbn [xmax1]. destruct (Nat.eq_dec j n) as [->|]; [rewrite E; apply xmax_nan_r|].
  rewrite IH by (auto; lia). reflexivity.
Qed.
Lemma xmax2_nan f ny nx i j : (i < ny)%nat -> (j < nx)%nat -> f i j = NaN -> xmax2 f ny nx = NaN.
Proof.
  induction ny as [|n IH]; intros Hi Hj E; [lia|]. cbn [xmax2]. destruct (Nat.eq_dec i n) as [->|]; [rewrite (xmax1_nan (f n) nx j) by auto; apply xmax_nan_r|].
  rewrite IH by (auto; lia). reflexivity.
Qed.
Lemma xdiv_nan a : xdiv a NaN = NaN. Proof. destruct a; reflexivity. Qed.
Lemma u_ideal_nan neg i o x y p th : u_ideal neg NaN i o x y p th = NaN.
Proof. unfold u_ideal, px_ideal. destruct i, o; try reflexivity. destruct (Req_EM_T p 0); reflexivity. Qed.
Lemma u_simple_nan neg i o x y p th : u_simple neg NaN i o x y p th = false.
Proof. unfold u_simple. rewrite u_ideal_nan. reflexivity. Qed.
Lemma u_random_nan neg i o x y p th r v : u_random neg NaN i o x y p th r v = false.
Proof. unfold u_random, px_random. destruct i, o; try reflexivity. destruct (Req_EM_T p 0); reflexivity. Qed.

(** ** Arrays without undefined values *)
Lemma offt2_lift ny nx (f : nat -> nat -> C) : offt2 ny nx (lift f) = lift (fft2 ny nx f).
Proof. unfold offt2, lift. apply fun2_ext. intros i j. rewrite all_some. reflexivity. Qed.
Lemma oifft2_lift ny nx (f : nat -> nat -> C) : oifft2 ny nx (lift f) = lift (ifft2 ny nx f).
Proof. unfold oifft2, lift. apply fun2_ext. intros i j. rewrite all_some. reflexivity. Qed.
Lemma spectrum_lift ny nx T w : u_spectrum ny nx (lift T) w = match w with None => lift (target_fp ny nx T) | Some w => fun i j => n_mul (Some (target_fp ny nx T i j)) (w i j) end.
Proof.
  unfold u_spectrum. change (ifftshift2 ny nx (lift T)) with (lift (ifftshift2 ny nx T)). rewrite offt2_lift. destruct w; reflexivity.
Qed.
Lemma u_loop_lift ny nx F W ideal N k g : u_loop ny nx (lift F) (lift W) ideal N k g = ifta_loop ny nx F W ideal N k g.
Proof. induction k as [|k IH]; cbn [u_loop ifta_loop]; [reflexivity|]. rewrite IH. reflexivity. Qed.
Lemma u_ifta_lift ny nx F W g N s : u_ifta ny nx (lift F) (lift W) g N s = ifta_array ny nx F W g N s.
Proof. unfold u_ifta. change (ifftshift2 ny nx (lift W)) with (lift (ifftshift2 ny nx W)). rewrite u_loop_lift. reflexivity. Qed.
Lemma iter_lift (f : (nat -> nat -> R) -> nat -> nat -> R) (g : (nat -> nat -> option R) -> nat -> nat -> option R) n p :
  (forall q, g (lift q) = lift (f q)) -> iter n g (lift p) = lift (iter n f p).
Proof. intros H. induction n as [|n IH]; cbn [iter]; [reflexivity|]. rewrite IH. apply H. Qed.
Lemma u_gs_lift ny nx F T u N : u_gs ny nx (lift F) (lift (fun i j => RtoC (T i j))) u N = lift (gs_array ny nx F T u N).
Proof.
  unfold u_gs, gs_array. apply (iter_lift (gs_step ny nx F (ifftshift2 ny nx T)) _ _ (fun i j => 2 * PI * u i j)). intros q. unfold u_gs_step, gs_step.
  change (fun i j => u_wave (lift F i j) (lift q i j)) with (lift (fun i j => (F i j * cis (q i j))%C)). rewrite oifft2_lift.
  change (fun i j => u_wave (ifftshift2 ny nx (lift (fun i0 j0 => RtoC (T i0 j0))) i j) (u_arg (lift (ifft2 ny nx (fun i0 j0 => (F i0 j0 * cis (q i0 j0))%C)) i j)))
    with (lift (fun i j => (RtoC (ifftshift2 ny nx T i j) * cis (carg (ifft2 ny nx (fun i0 j0 => (F i0 j0 * cis (q i0 j0))%C) i j)))%C)).
  rewrite offt2_lift. reflexivity.
Qed.
Lemma u_mraf_lift ny nx F T W m u N : u_mraf ny nx (lift F) (lift (fun i j => RtoC (T i j))) (lift W) m u N = lift (mraf_array ny nx F T W m u N).
Proof.
  unfold u_mraf, mraf_array. apply (iter_lift (mraf_step ny nx F (ifftshift2 ny nx T) (ifftshift2 ny nx W) m) _ _ (fun i j => 2 * PI * u i j)).
  intros q. unfold u_mraf_step, mraf_step.
  change (fun i j => u_wave (lift F i j) (lift q i j)) with (lift (fun i j => (F i j * cis (q i j))%C)). rewrite oifft2_lift.
  set (z := ifft2 ny nx (fun i j => (F i j * cis (q i j))%C)).
  change (fun i j => u_mix m (ifftshift2 ny nx (lift (fun i0 j0 => RtoC (T i0 j0))) i j) (ifftshift2 ny nx (lift W) i j) (lift z i j))
    with (lift (fun i j => (RtoC m * RtoC (ifftshift2 ny nx T i j) * cis (carg (z i j)) * ifftshift2 ny nx W i j + RtoC (1 - m) * z i j * (RtoC 1 - ifftshift2 ny nx W i j))%C)).
  rewrite offt2_lift. reflexivity.
Qed.

(** ** Finite arrays: the same as before *)
Lemma grid_get s i j : (i < s_Ny s)%nat -> (j < s_Nx s)%nat -> tget (fst (fourier_plane_grid s)) i j = mirror_x s j /\ tget (snd (fourier_plane_grid s)) i j = mirror_y s i.
Proof.
  intros Hi Hj. destruct (grid_mirrors s) as [Hx Hy]. destruct (fst (fourier_plane_grid s)), (snd (fourier_plane_grid s)); cbn [teq] in Hx, Hy; try contradiction.
  destruct Hx as (-> & -> & Hx), Hy as (-> & -> & Hy). rewrite !tget_T2 by assumption. auto.
Qed.
Section Fin.
Variables (h : heap) (d : dmd) (input target : parg) (w : option parg) (F T W : nat -> nat -> C) (kw : kwargs) (u : nat -> nat -> R) (SW : option arr).
Let s := d_slm d. Let ny := s_Ny (d_slm d). Let nx := s_Nx (d_slm d).
Hypothesis (HF : full_input h (d_slm d) input F) (HT : full_target h (d_slm d) target T) (HW : window_reads h (d_slm d) w W) (Hp : d_p d <> 0).
Let UW : option arr := match w with None => None | Some _ => Some (lift W) end.
Lemma sp_lift i j : u_spectrum ny nx (lift T) UW i j = Some (spectrum d T W i j).
Proof.
  rewrite spectrum_lift. unfold UW, spectrum, window_reads in *. destruct w; cbn [n_mul]; [reflexivity|].
  unfold lift. rewrite HW. f_equal. fold ny nx. ring.
Qed.
Lemma max_lift : u_max ny nx (lift F) (u_spectrum ny nx (lift T) UW) = ratio_max d F T W.
Proof. unfold u_max, ratio_max. apply xmax2_ext. intros i j _ _. rewrite sp_lift. reflexivity. Qed.
Lemma phase_lift z : u_phase_out (Some z) = Some (phase_of z).
Proof. unfold u_phase_out, phase_of. cbn [option_map]. destruct (C_dec0 z); reflexivity. Qed.
Lemma ug_is i j : (i < ny)%nat -> (j < nx)%nat -> 
  u_ideal (d_neg d) (xdiv (u_ratio (u_spectrum ny nx (lift T) UW i j) (lift F i j)) (ratio_max d F T W))
  (u_phase_in (lift F i j)) (u_phase_out (u_spectrum ny nx (lift T) UW i j)) (tget (fst (fourier_plane_grid s)) i j) (tget (snd (fourier_plane_grid s)) i j) (d_p d) (d_theta d)
  = xscale (xdiv (safe_ratio (Cmod (spectrum d T W i j)) (Cmod (F i j))) (ratio_max d F T W))
               (cos (carrier d i j - signed (d_neg d) (phase_of (spectrum d T W i j) - carg (F i j))) / 2 + 1 / 2).
Proof.
  intros Hi Hj. rewrite sp_lift, phase_lift. destruct (grid_get s i j Hi Hj) as [-> ->].
  unfold u_phase_in, lift. cbn [option_map u_ideal u_ratio]. destruct (Req_EM_T (d_p d) 0); [contradiction|].
  unfold px_ideal, s. rewrite carrier_phase, rel_phase_signed by exact Hp. replace 0.5 with (1 / 2) by lra. reflexivity.
Qed.
Lemma fin_dmd m : match m with MIfta => match SW with Some V => exists wi V0, V = lift V0 /\ k_window kw = Some wi /\ full_target h (d_slm d) wi V0 | None => k_window kw = None end | _ => True end ->
  let r := calculate_dmd_state h d input target m w kw u in
  let r' := u_dmd_state d (lift F) (lift T) m UW SW kw u in
  snd r' = snd r /\ same_state (d_state (fst r')) (d_state (fst r)).
Proof.
  intros HV r r'. unfold r, r', u_dmd_state. cbv zeta. fold ny nx s. rewrite max_lift, (surjective_pairing (fourier_plane_grid s)).
  destruct (calc_prefix h d input target w F T W kw u HF HT HW) as (amp & pin & pout & V & E).
  destruct m.
  - destruct (calc_ideal h d input target w F T W kw u HF HT HW Hp) as (g & -> & G). unfold result, norm_const. fold s.
    destruct (Req_EM_T (scaling_factor s) 0); cbn [fst snd with_state d_state]; (split; [reflexivity|]); repeat split; cbn [state_shape fst snd cell_at];
      intros i j Hi Hj; rewrite ug_is, G by assumption; reflexivity.
  - destruct (calc_simple h d input target w F T W kw u HF HT HW Hp) as (g & -> & G). unfold result, norm_const. fold s.
    destruct (Req_EM_T (scaling_factor s) 0); cbn [fst snd with_state d_state]; (split; [reflexivity|]); repeat split; cbn [state_shape fst snd cell_at];
      intros i j Hi Hj; unfold u_simple; rewrite ug_is, G by assumption; replace 0.5 with (1 / 2) by lra; reflexivity.
  - destruct (calc_random h d input target w F T W kw u HF HT HW Hp) as (g & -> & G). unfold result, norm_const. fold s.
    destruct (Req_EM_T (scaling_factor s) 0); cbn [fst snd with_state d_state]; (split; [reflexivity|]); repeat split; cbn [state_shape fst snd cell_at];
      intros i j Hi Hj; rewrite G by assumption; rewrite sp_lift, phase_lift; destruct (grid_get s i j Hi Hj) as [-> ->];
      unfold u_phase_in, lift; cbn [option_map u_random u_ratio]; (destruct (Req_EM_T (d_p d) 0); [contradiction|reflexivity]).
  - destruct SW as [V'|].
    + destruct HV as (wi & V0 & -> & Hk & HV). 
      destruct (calc_ideal h d input target w F T W kw u HF HT HW Hp) as (g & E1 & G). 
      destruct (calc_ifta h d input target w F T W V0 kw wi u HF HT HW Hp Hk HV) as (g' & r0 & E2 & ->).
      rewrite E1 in E2. injection E2 as <- <-. unfold result, norm_const. fold s.
      destruct (Req_EM_T (scaling_factor s) 0); cbn [fst snd with_state d_state]; (split; [reflexivity|]); repeat split; cbn [state_shape fst snd cell_at];
      intros i j Hi Hj; f_equal; rewrite u_ifta_lift; (apply ifta_array_ext; [|exact Hi|exact Hj]); intros a b Ha Hb; rewrite ug_is, G by assumption; reflexivity.
    + assert (N : calc_new h d input target MIfta w kw u = Err KeyError).
      { unfold calc_new. unfold full_input in HF. unfold full_target in HT. rewrite HF, HT. cbn [rbind].
        assert (exists wt, match w with None => Ok None | Some a => let! t := profile_to_tensor_c h (d_slm d) a true in Ok (Some t) end = Ok wt /\
          match wt with None => forall i j, W i j = RtoC 1 | Some t => (tshape t = S0 \/ tshape t = S2 ny nx) /\ forall i j, (i < ny)%nat -> (j < nx)%nat -> tget t i j = W i j end)
        as (wt & Ew & HW').
        { unfold window_reads in HW. destruct w as [a|].
          - destruct HW as (t & Et & Hs & Ht). rewrite Et. cbn [rbind]. exists (Some t). split; [reflexivity|split; [exact Hs|exact Ht]].
          - exists None. split; [reflexivity|exact HW]. }
        rewrite Ew. cbn [rbind]. destruct (amp_phase_full ny nx F T wt W HW') as (a1 & a2 & a3 & M & EM & _). fold ny nx. rewrite EM. cbn [rbind].
        fold s. rewrite (surjective_pairing (fourier_plane_grid s)), HV. reflexivity. }
      rewrite calc_split, N. cbn [fst snd]. split; [reflexivity|]. repeat split.
  - rewrite calc_split, E by discriminate. cbn [calculate_dmd_grating rbind fst snd]. split; [reflexivity|]. repeat split.
Qed.
End Fin.

Lemma fin_gs h l input target F T kw u : full_input h (l_slm l) input F -> real_target h (l_slm l) target T ->
  exists phi, stores (l_slm l) (calculate_hologram h l input target MGs kw u) phi /\ u_hologram (l_slm l) (lift F) (lift T) MGs None kw u = Ok (lift phi).
Proof.
  intros HF HT. eexists. split; [apply (gs_stores h l input target F T HF HT)|]. unfold u_hologram. cbv zeta.
  change (fun i j => option_map RtoC (lift T i j)) with (lift (fun i j => RtoC (T i j))). rewrite u_gs_lift. reflexivity.
Qed.
Lemma fin_mraf h l input target F T w W kw u : full_input h (l_slm l) input F -> real_target h (l_slm l) target T -> lk_window kw = Some w -> full_target h (l_slm l) w W ->
  exists phi, stores (l_slm l) (calculate_hologram h l input target MMraf kw u) phi /\ u_hologram (l_slm l) (lift F) (lift T) MMraf (Some (lift W)) kw u = Ok (lift phi).
Proof.
  intros HF HT Hw HW. eexists. split; [apply (mraf_stores h l input target F T HF HT kw w W u Hw HW)|]. unfold u_hologram. cbv zeta.
  change (fun i j => option_map RtoC (lift T i j)) with (lift (fun i j => RtoC (T i j))). rewrite u_mraf_lift. reflexivity.
Qed.

(** ** Undefined values *)
Lemma undefined_shift s (f : arr) : undefined s f -> undefined s (ifftshift2 (s_Ny s) (s_Nx s) f).
Proof.
  intros (i & j & Hi & Hj & E). exists (shift_idx (s_Ny s) i), (shift_idx (s_Nx s) j). split; [apply shift_idx_lt; lia|]. split; [apply shift_idx_lt; lia|].
  unfold ifftshift2. rewrite !ishift_shift by assumption. exact E.
Qed.
Lemma fft_undefined s (f : arr) i j : undefined s f -> offt2 (s_Ny s) (s_Nx s) f i j = None.
Proof. intros (a & b & Ha & Hb & E). apply (offt2_none _ _ _ a b); assumption. Qed.
Lemma ifft_undefined s (f : arr) i j : undefined s f -> oifft2 (s_Ny s) (s_Nx s) f i j = None.
Proof. intros (a & b & Ha & Hb & E). apply (oifft2_none _ _ _ a b); assumption. Qed.
Lemma spectrum_undefined_t s T w i j : undefined s T -> u_spectrum (s_Ny s) (s_Nx s) T w i j = None.
Proof.
  intros H. unfold u_spectrum. assert (E : forall i j, fftshift2 (s_Ny s) (s_Nx s) (offt2 (s_Ny s) (s_Nx s) (ifftshift2 (s_Ny s) (s_Nx s) T)) i j = None).
  { intros a b. unfold fftshift2. apply fft_undefined, undefined_shift, H. }
  destruct w; cbv zeta; rewrite E; reflexivity.
Qed.
Lemma n_mul_none a : n_mul a None = None. Proof. destruct a; reflexivity. Qed.
Lemma spectrum_undefined_w s T w : undefined s w -> undefined s (u_spectrum (s_Ny s) (s_Nx s) T (Some w)).
Proof. intros (i & j & Hi & Hj & E). exists i, j. split; [exact Hi|]. split; [exact Hj|]. unfold u_spectrum. rewrite E. apply n_mul_none. Qed.
(** Where some ratio is NaN nothing is on. *)
Lemma u_ifta_dark s F W g N k : (forall i j, (i < s_Ny s)%nat -> (j < s_Nx s)%nat -> g i j = NaN) -> forall i j, (i < s_Ny s)%nat -> (j < s_Nx s)%nat ->
  u_ifta (s_Ny s) (s_Nx s) F W g N k i j = false.
Proof.
  intros G i j Hi Hj. unfold u_ifta. destruct (Z.to_nat N) as [|n]; cbn [u_loop].
  - rewrite G by assumption. reflexivity.
  - unfold u_step at 1. destruct (F i j) as [f|]; [|reflexivity]. destruct (C_dec0 f); [destruct (Rlt_dec 0.5 0); [lra|reflexivity]|].
    rewrite fft_undefined; [reflexivity|]. exists i, j. split; [exact Hi|]. split; [exact Hj|]. rewrite (ifft_undefined s (fun i0 j0 => u_omul (F i0 j0) (fin_of (xscale (g i0 j0) k)))).
    + unfold u_correct, ifta_correct. destruct (ifftshift2 _ _ _ _ _); [|reflexivity]. destruct (oifft2 _ _ _ _ _); reflexivity.
    + exists i, j. rewrite G by assumption. split; [exact Hi|]. split; [exact Hj|]. cbn. destruct (F i j); reflexivity.
Qed.
Lemma nan_dark d F T m W SW kw u : let s := d_slm d in scaling_factor s <> 0 -> m <> MUnknown -> (m = MIfta -> SW <> None) ->
  u_max (s_Ny s) (s_Nx s) F (u_spectrum (s_Ny s) (s_Nx s) T W) = NaN ->
  exists st, u_dmd_state d F T m W SW kw u = (with_state d st, Ok NaN) /\ dark s st /\ is_bool_state st = match m with MIdeal => false | _ => true end.
Proof.
  intros s Hs Hm Hw E. unfold u_dmd_state. cbv zeta. fold s. rewrite E. rewrite (surjective_pairing (fourier_plane_grid s)).
  destruct (Req_EM_T (scaling_factor s) 0) as [|_]; [contradiction|].
  destruct m; [| | |destruct SW as [V|]; [|destruct (Hw eq_refl eq_refl)]|congruence]; eexists; (split; [reflexivity|]); (split; [|reflexivity]); cbn [dark];
    (split; [reflexivity|]); (split; [reflexivity|]); intros i j Hi Hj.
  - rewrite xdiv_nan. apply u_ideal_nan.
  - rewrite xdiv_nan. apply u_simple_nan.
  - rewrite xdiv_nan. apply u_random_nan.
  - apply u_ifta_dark; [|exact Hi|exact Hj]. intros a b _ _. rewrite xdiv_nan. apply u_ideal_nan.
Qed.
Lemma max_undefined s F f : undefined s f -> u_max (s_Ny s) (s_Nx s) F f = NaN.
Proof. intros (i & j & Hi & Hj & E). unfold u_max. apply (xmax2_nan _ _ _ i j Hi Hj). rewrite E. reflexivity. Qed.
Lemma undefined_target d F T m W SW kw u : let s := d_slm d in scaling_factor s <> 0 -> m <> MUnknown -> (m = MIfta -> SW <> None) ->
  undefined s T \/ (exists w, W = Some w /\ undefined s w) ->
  exists st, u_dmd_state d F T m W SW kw u = (with_state d st, Ok NaN) /\ dark s st /\ is_bool_state st = match m with MIdeal => false | _ => true end.
Proof.
  intros s Hs Hm Hw [H|(w & -> & H)]; apply nan_dark; try assumption; apply max_undefined.
  - destruct H as (i & j & Hi & Hj & E). exists i, j. split; [exact Hi|]. split; [exact Hj|]. apply spectrum_undefined_t. exists i, j. auto.
  - apply spectrum_undefined_w. exact H.
Qed.
Lemma sp_some d T W i j : (i < s_Ny (d_slm d))%nat -> (j < s_Nx (d_slm d))%nat ->
  u_spectrum (s_Ny (d_slm d)) (s_Nx (d_slm d)) (lift T) (option_map lift W) i j = Some (windowed d T (dflt W all_ones) i j).
Proof.
  intros Hi Hj. rewrite spectrum_lift. unfold windowed. rewrite <- spectrum_fp by assumption. destruct W; cbn [option_map dflt n_mul]; [reflexivity|].
  unfold lift, all_ones. f_equal. ring.
Qed.
Lemma undefined_beam d F T m W SW kw u i j : let s := d_slm d in scaling_factor s <> 0 -> m <> MUnknown -> (m = MIfta -> SW <> None) ->
  (i < s_Ny s)%nat -> (j < s_Nx s)%nat -> F i j = None -> windowed d T (dflt W all_ones) i j <> RtoC 0 ->
  exists st, u_dmd_state d F (lift T) m (option_map lift W) SW kw u = (with_state d st, Ok NaN) /\ dark s st /\ is_bool_state st = match m with MIdeal => false | _ => true end.
Proof.
  intros s Hs Hm Hw Hi Hj E Hz. apply nan_dark; try assumption. unfold u_max. apply (xmax2_nan _ _ _ i j Hi Hj). fold s.
  unfold s. rewrite sp_some, E by assumption. cbn [u_ratio]. destruct (Req_EM_T _ 0) as [K|]; [|reflexivity].
  apply Cmod_eq_0 in K. contradiction.
Qed.
(** ** Undefined beam where nothing is wanted *)
Lemma ratio_zero f : safe_ratio (Cmod (RtoC 0)) f = Fin 0.
Proof. unfold safe_ratio. rewrite Cmod_0. destruct (Req_EM_T 0 0); [reflexivity|congruence]. Qed.
Lemma beam_holes d F F0 T m W SW kw u : let s := d_slm d in m = MIdeal \/ m = MSimple \/ m = MRandom ->
  (forall i j, (i < s_Ny s)%nat -> (j < s_Nx s)%nat -> F i j = Some (F0 i j) \/ F i j = None /\ windowed d T (dflt W all_ones) i j = RtoC 0) ->
  let r := u_dmd_state d (lift F0) (lift T) m (option_map lift W) SW kw u in
  let r' := u_dmd_state d F (lift T) m (option_map lift W) SW kw u in
  snd r' = snd r /\ holes F (d_state (fst r)) (d_state (fst r')).
Proof.
  intros s Hm H. cbv zeta. set (fp := u_spectrum (s_Ny s) (s_Nx s) (lift T) (option_map lift W)).
  assert (R : forall i j, (i < s_Ny s)%nat -> (j < s_Nx s)%nat -> u_ratio (fp i j) (F i j) = u_ratio (fp i j) (lift F0 i j)).
  { intros i j Hi Hj. unfold fp, s. rewrite sp_some by assumption. destruct (H i j Hi Hj) as [-> | [-> ->]]; [reflexivity|].
    unfold lift. cbn [u_ratio]. rewrite ratio_zero, Cmod_0. destruct (Req_EM_T 0 0); [reflexivity|congruence]. }
  assert (M : u_max (s_Ny s) (s_Nx s) F fp = u_max (s_Ny s) (s_Nx s) (lift F0) fp).
  { unfold u_max. apply xmax2_ext. exact R. }
  unfold u_dmd_state. cbv zeta. fold s. fold fp. rewrite M. rewrite (surjective_pairing (fourier_plane_grid s)).
  destruct Hm as [-> |[-> | ->]]; (destruct (Req_EM_T (scaling_factor s) 0); cbn [fst snd with_state d_state holes]); (split; [reflexivity|]); (split; [reflexivity|]); (split; [reflexivity|]);
    intros i j Hi Hj; rewrite R by assumption; (destruct (H i j Hi Hj) as [-> | [-> _]]; reflexivity).
Qed.
(** ** Iterative methods *)
Lemma ifta_undefined d F T W SW V kw u : let s := d_slm d in SW = Some V -> (1 <= dflt (k_N kw) 200)%Z ->
  undefined s F \/ undefined s T \/ (exists w, W = Some w /\ undefined s w) \/ undefined s V ->
  dark s (d_state (fst (u_dmd_state d F T MIfta W SW kw u))) /\ exists f, d_state (fst (u_dmd_state d F T MIfta W SW kw u)) = DBool (s_Ny s) (s_Nx s) f.
Proof.
  intros s -> HN H. unfold u_dmd_state. cbv zeta. fold s. rewrite (surjective_pairing (fourier_plane_grid s)).
  set (g := fun i j : nat => u_ideal _ _ _ _ _ _ _ _).
  assert (D : forall i j, (i < s_Ny s)%nat -> (j < s_Nx s)%nat -> u_ifta (s_Ny s) (s_Nx s) F V g (dflt (k_N kw) 200%Z) (dflt (k_s kw) 1) i j = false).
  { assert (G : undefined s F \/ (forall i j, (i < s_Ny s)%nat -> (j < s_Nx s)%nat -> g i j = NaN) \/ undefined s V).
    { destruct H as [H|[H|[(w & -> & H)|H]]]; auto; right; left; intros i j _ _; unfold g; (rewrite max_undefined; [rewrite xdiv_nan; apply u_ideal_nan|]).
      - destruct H as (a & b & Ha & Hb & E). exists a, b. split; [exact Ha|]. split; [exact Hb|]. apply spectrum_undefined_t. exists a, b. auto.
      - apply spectrum_undefined_w. exact H. }
    clearbody g. clear H. destruct G as [G|[G|G]]; [|apply u_ifta_dark; exact G|].
    - intros i j Hi Hj. unfold u_ifta. replace (Z.to_nat (dflt (k_N kw) 200%Z)) with (S (Z.to_nat (dflt (k_N kw) 200%Z) - 1)) by lia. cbn [u_loop]. unfold u_step at 1.
      destruct (F i j) as [f|]; [|reflexivity]. destruct (C_dec0 f); [destruct (Rlt_dec 0.5 0); [lra|reflexivity]|].
      rewrite fft_undefined; [reflexivity|]. exists i, j. split; [exact Hi|]. split; [exact Hj|].
      rewrite (ifft_undefined s (fun i0 j0 => u_omul (F i0 j0) (fin_of (xscale (g i0 j0) (dflt (k_s kw) 1))))).
      + unfold u_correct, ifta_correct. destruct (ifftshift2 _ _ _ _ _); [|reflexivity]. destruct (oifft2 _ _ _ _ _); reflexivity.
      + destruct G as (a & b & Ha & Hb & E). exists a, b. rewrite E. auto.
    - intros i j Hi Hj. unfold u_ifta. replace (Z.to_nat (dflt (k_N kw) 200%Z)) with (S (Z.to_nat (dflt (k_N kw) 200%Z) - 1)) by lia. cbn [u_loop]. unfold u_step at 1.
      destruct (F i j) as [f|]; [|reflexivity]. destruct (C_dec0 f); [destruct (Rlt_dec 0.5 0); [lra|reflexivity]|].
      rewrite fft_undefined; [reflexivity|]. apply undefined_shift in G. destruct G as (a & b & Ha & Hb & E). exists a, b. rewrite E. auto. }
  clearbody g. destruct (Req_EM_T (scaling_factor s) 0); cbn [fst d_state with_state dark]; (split; [split; [reflexivity|split; [reflexivity|exact D]]|eexists; reflexivity]).
Qed.
Lemma u_wave_none f : u_wave f None = None. Proof. destruct f; reflexivity. Qed.
Lemma gs_step_undefined s F Tc ph i j : undefined s F \/ undefined s Tc -> (0 < s_Ny s)%nat -> (0 < s_Nx s)%nat -> u_gs_step (s_Ny s) (s_Nx s) F Tc ph i j = None.
Proof.
  intros H Hy Hx. unfold u_gs_step. rewrite fft_undefined; [reflexivity|]. destruct H as [(a & b & Ha & Hb & E)|(a & b & Ha & Hb & E)].
  - exists a, b. split; [exact Ha|]. split; [exact Hb|]. rewrite ifft_undefined; [apply u_wave_none|]. exists a, b. rewrite E. auto.
  - exists a, b. rewrite E. auto.
Qed.
Lemma mraf_step_undefined s F Tc W m ph i j : undefined s F \/ undefined s Tc \/ undefined s W -> u_mraf_step (s_Ny s) (s_Nx s) F Tc W m ph i j = None.
Proof.
  intros H. unfold u_mraf_step. rewrite fft_undefined; [reflexivity|]. destruct H as [(a & b & Ha & Hb & E)|[(a & b & Ha & Hb & E)|(a & b & Ha & Hb & E)]]; exists a, b; (split; [exact Ha|split; [exact Hb|]]).
  - rewrite ifft_undefined; [destruct (Tc a b), (W a b); reflexivity|]. exists a, b. rewrite E. auto.
  - rewrite E. reflexivity.
  - rewrite E. destruct (Tc a b); reflexivity.
Qed.
Lemma undefined_map s (T : nat -> nat -> option R) : undefined s T -> undefined s (fun i j => option_map RtoC (T i j)).
Proof. intros (a & b & Ha & Hb & E). exists a, b. rewrite E. auto. Qed.
Lemma holo_undefined s F T m W kw u : (1 <= dflt (lk_N kw) 200)%Z ->
  m = MGs /\ (undefined s F \/ undefined s T) \/ (exists w, m = MMraf /\ W = Some w /\ (undefined s F \/ undefined s T \/ undefined s w)) ->
  exists phi, u_hologram s F T m W kw u = Ok phi /\ forall i j, phi i j = None.
Proof.
  intros HN [[-> H]|(w & -> & -> & H)]; (eexists; split; [reflexivity|]); intros i j.
  - unfold u_gs. replace (Z.to_nat (dflt (lk_N kw) 200%Z)) with (S (Z.to_nat (dflt (lk_N kw) 200%Z) - 1)) by lia. cbn [iter].
    assert (P : (0 < s_Ny s)%nat /\ (0 < s_Nx s)%nat) by (destruct H as [(a & b & Ha & Hb & _)|(a & b & Ha & Hb & _)]; lia).
    apply gs_step_undefined; [|apply P|apply P]. destruct H as [H|H]; [left; exact H|right; apply undefined_shift, undefined_map, H].
  - unfold u_mraf. replace (Z.to_nat (dflt (lk_N kw) 200%Z)) with (S (Z.to_nat (dflt (lk_N kw) 200%Z) - 1)) by lia. cbn [iter].
    apply mraf_step_undefined. destruct H as [H|[H|H]]; [left; exact H|right; left; apply undefined_shift, undefined_map, H|right; right; apply undefined_shift, H].
Qed.
Lemma holo_kept s F T m W kw u : (dflt (lk_N kw) 200 <= 0)%Z -> m = MGs \/ (m = MMraf /\ W <> None) ->
  u_hologram s F T m W kw u = Ok (fun i j => Some (2 * PI * u i j)).
Proof.
  intros HN H. assert (E : Z.to_nat (dflt (lk_N kw) 200%Z) = 0%nat) by lia. destruct H as [-> |[-> H]]; unfold u_hologram.
  - unfold u_gs. rewrite E. reflexivity.
  - destruct W as [w|]; [|congruence]. unfold u_mraf. rewrite E. reflexivity.
Qed.
