(** Concrete configurations for the DMD properties. *)
From Coq Require Import Reals Lra ZArith Arith List Bool Lia.
From Coquelicot Require Import Complex.
From Verif Require Import Cx Sums DFT PyBase ProfileModel SlmModel LibModel DmdModel OriginFacts SimModel SimSpec GridFacts SimFacts SimFacts2 SimExamples DmdSpec DmdFacts DmdFacts2 DmdFacts3 AmpFacts AmpFacts2 AmpFacts3 DmdThms.
Import ListNotations.
Open Scope R_scope.

(** A 4 x 2 DMD whose grating displaces the first order by exactly two image pixels; complex input, bright everywhere. *)
Definition ex4 : dmd := dmd_new 2 3 2 0 4 2 (/ 2) false.
Definition F4 (i j : nat) : C := (INR i + 1, INR j).
Definition T4 (u v : nat) : C := RtoC (INR (u + 2 * v) + 1).
Definition in4 : parg := AConstC (T2 2 4 F4).
Definition tg4 : parg := AConstC (T2 2 4 T4).
Lemma F4_bright i j : F4 i j <> RtoC 0.
Proof. intros H. injection H. assert (P := pos_INR i). lra. Qed.
Lemma ex4_reads : full_input ex_heap (d_slm ex4) in4 F4 /\ full_target ex_heap (d_slm ex4) tg4 T4 /\
  window_reads ex_heap (d_slm ex4) None (fun _ _ => RtoC 1) /\ d_p ex4 <> 0 /\ (0 < s_Ny (d_slm ex4))%nat /\ (0 < s_Nx (d_slm ex4))%nat /\
  scaling_factor (d_slm ex4) <> 0 /\ pixel_size (d_slm ex4) <> 0.
Proof. unfold scaling_factor. cbn. repeat split; try lia; lra. Qed.
Lemma ex4_bright : (forall i j, in_array ex4 i j -> F4 i j = RtoC 0 -> windowed ex4 T4 (fun _ _ => RtoC 1) i j = RtoC 0) /\
  (exists i j, in_array ex4 i j /\ windowed ex4 T4 (fun _ _ => RtoC 1) i j <> RtoC 0).
Proof.
  apply bright_ok; [reflexivity|intros i j _; apply F4_bright|]. exists 0%nat, 0%nat. split; [split; cbn; lia|].
  unfold T4. intros H. injection H. cbn. lra.
Qed.
Lemma ex4_integer : first_order_origin ex4 = (Fin (IZR 2 * image_pitch_x (d_slm ex4)), Fin (IZR 0 * image_pitch_y (d_slm ex4))).
Proof.
  rewrite origin_fin by (cbn; lra). unfold origin_of, fst, snd, image_pitch_x, image_pitch_y, scaling_factor. cbn [ex4 dmd_new d_slm d_p d_theta wavelength focal_length s_Nx s_Ny pixel_size].
  rewrite cos_0, sin_0. replace (INR 4) with 4 by (cbn; lra). replace (INR 2) with 2 by (cbn; lra). f_equal; f_equal; field; lra.
Qed.
(** A dark pixel in the input, a target with light in its spectrum there. *)
Definition F4d (i j : nat) : C := if Nat.eqb (i + j) 0 then RtoC 0 else RtoC 1.
Definition T4d (u v : nat) : C := if (Nat.eqb u 1 && Nat.eqb v 2)%bool then RtoC 1 else RtoC 0.
Definition in4d : parg := AConstC (T2 2 4 F4d).
Definition tg4d : parg := AConstC (T2 2 4 T4d).
Lemma T4d_spectrum i j : spectrum_of 2 4 T4d i j = RtoC 1.
Proof.
  unfold spectrum_of, csum2. cbn [csum].
  unfold T4d. cbn [Nat.eqb andb].
  assert (E : cconj (wave 2 4 i j 1 2) = RtoC 1).
  { unfold wave, centred. cbn [Nat.div Nat.divmod fst snd]. rewrite !Z.sub_diag, !Z.mul_0_r. unfold Rdiv. rewrite !Rmult_0_l, Rplus_0_r, Rmult_0_r, cis_0. apply cconj_RtoC. }
  rewrite E. ring.
Qed.
Lemma ex4_dark : full_input ex_heap (d_slm ex4) in4d F4d /\ full_target ex_heap (d_slm ex4) tg4d T4d /\
  exists i j, in_array ex4 i j /\ F4d i j = RtoC 0 /\ windowed ex4 T4d (fun _ _ => RtoC 1) i j <> RtoC 0.
Proof.
  split; [reflexivity|]. split; [reflexivity|]. exists 0%nat, 0%nat. split; [split; cbn; lia|]. split; [reflexivity|].
  unfold windowed. change (s_Ny (d_slm ex4)) with 2%nat. change (s_Nx (d_slm ex4)) with 4%nat. rewrite T4d_spectrum, Cmult_1_r.
  intros H. injection H. lra.
Qed.
Lemma dark_refutes : exists h d input target F T d' g,
  full_input h (d_slm d) input F /\ full_target h (d_slm d) target T /\ (exists u v, in_array d u v /\ T u v <> RtoC 0) /\
  (exists i j, in_array d i j /\ F i j <> RtoC 0) /\ 
  calculate_dmd_state h d input target MSimple None no_kwargs (fun _ _ => 0) = (d', Ok (Fin 0)) /\
  d_state d' = DBool (s_Ny (d_slm d)) (s_Nx (d_slm d)) g /\ forall i j, in_array d i j -> g i j = false.
Proof.
  destruct ex4_dark as (HF & HT & HD). destruct ex4_reads as (_ & _ & HW & Hp & _ & _ & Hs & _).
  destruct (dark_spec ex_heap ex4 in4d tg4d None F4d T4d _ no_kwargs (fun _ _ => 0) HF HT HW Hp Hs HD) as (_ & (g & G & V) & _).
  exists ex_heap, ex4, in4d, tg4d, F4d, T4d. do 2 eexists. split; [exact HF|]. split; [exact HT|].
  split; [|split; [|split; [exact G|split; [reflexivity|exact V]]]].
  - exists 1%nat, 2%nat. split; [split; cbn; lia|]. unfold T4d. cbn. intros H. injection H. lra.
  - exists 1%nat, 1%nat. split; [split; cbn; lia|]. unfold F4d. cbn. intros H. injection H. lra.
Qed.
(** The all-zero target replaces a state with all mirrors on and raises. *)
Definition tg0 : parg := AConstC (T2 2 4 (fun _ _ => RtoC 0)).
Lemma zero_refutes : exists h d input target d' e,
  calculate_dmd_state h d input target MSimple None no_kwargs (fun _ _ => 0) = (d', Err e) /\
  cell_at (d_state d) 0 0 = CBool true /\ cell_at (d_state d') 0 0 = CBool false.
Proof.
  destruct ex4_reads as (HF & _ & HW & Hp & Hy & Hx & _ & _). set (d := set_dmd_state_on ex4).
  destruct (zero_spec ex_heap d in4 tg0 None F4 (fun _ _ => RtoC 0) (fun _ _ => RtoC 1) no_kwargs (fun _ _ => 0) HF eq_refl HW Hp Hy Hx ltac:(reflexivity)) as (_ & (g & G & V) & _).
  exists ex_heap, d, in4, tg0. do 2 eexists. split; [exact G|]. split; [reflexivity|]. cbn [d_state with_state cell_at].
  rewrite V; [reflexivity|]. split; cbn; lia.
Qed.
(** An 'ideal' patch over the initial bool state: the mirror at the centre should have level 3/8 but is stored as on. *)
Definition half : parg := AConstR (T0 (3 / 4)). Definition zero_phase : parg := AConstR (T0 0).
Lemma patch_refutes : exists h d d' d2 i j r,
  circular_patch h d 0 0 half zero_phase zero_phase 2 MIdeal no_kwargs (fun _ _ => 0) = (d', Ok tt) /\
  set_dmd_grating_state h d half zero_phase zero_phase MIdeal no_kwargs (fun _ _ => 0) = (d2, Ok tt) /\
  in_array d i j /\ pixel_distance 0 0 i j < 1 /\ cell_at (d_state d2) i j = CFloat (Fin r) /\ 0 < r < 1 /\
  cell_at (d_state d') i j = CBool true.
Proof.
  assert (R1 := reads_const ex_heap (d_slm ex4) (3 / 4)). assert (R2 := reads_const ex_heap (d_slm ex4) 0).
  assert (Hp : d_p ex4 <> 0) by (cbn; lra).
  destruct (ideal_patch_cells ex_heap ex4 0 0 half zero_phase zero_phase 2 no_kwargs (fun _ _ => 0) _ _ _ R1 R2 R2 Hp eq_refl) as (d' & P & V).
  destruct (set_ideal ex_heap ex4 half zero_phase zero_phase _ _ _ R1 R2 R2 Hp no_kwargs (fun _ _ => 0)) as (d2 & g & E & -> & VG).
  assert (Hin : in_array ex4 0 0) by (split; cbn; lia).
  assert (Hd : pixel_distance 0 0 0 0 < Rabs 2 / 2).
  { unfold pixel_distance. rewrite Rabs_pos_eq by lra. replace ((INR 0 - 0) ^ 2 + (INR 0 - 0) ^ 2) with 0 by (cbn; lra). rewrite sqrt_0. lra. }
  assert (Hc : cos (carrier ex4 0 0 - signed (d_neg ex4) (0 - 0)) = 1).
  { unfold carrier, signed, mirror_x, mirror_y. cbn [ex4 dmd_new d_slm d_p d_theta d_neg s_Nx s_Ny pixel_size]. rewrite cos_0, sin_0.
    replace (INR 4) with 4 by (cbn; lra). replace (2 * PI * _ / _ - (0 - 0)) with (- (2 * PI)) by (cbn [INR]; field).
    rewrite cos_neg. apply cos_2PI. }
  exists ex_heap, ex4, d'. eexists. exists 0%nat, 0%nat, (3 / 4 * (1 / 2 + 1 / 2)).
  split; [exact P|]. split; [exact E|]. split; [exact Hin|]. split; [rewrite Rabs_pos_eq in Hd by lra; lra|].
  split; [|split; [lra|]].
  - cbn [d_state with_state cell_at]. rewrite VG by (cbn; lia). rewrite Hc. reflexivity.
  - destruct (V 0%nat 0%nat Hin Hd) as [_ V2]. destruct (V2 eq_refl) as (b & E2 & Hb). rewrite E2. f_equal. apply Hb. rewrite Hc. lra.
Qed.
Lemma pack_accepts d : ((exists l, pack_dmd_state d = Ok l) <-> is_bool_state (d_state d) = true) /\
  (pack_dmd_state d = Err TypeError <-> is_bool_state (d_state d) = false) /\ fst (do_call d CPack) = d.
Proof.
  unfold pack_dmd_state. destruct (d_state d) eqn:E; cbn [is_bool_state do_call fst]; repeat split; intros; eauto; try discriminate.
  destruct H; discriminate.
Qed.
Lemma unknown_methods h d :
  (forall a b c A B D kw u, reads h (d_slm d) a A -> reads h (d_slm d) b B -> reads h (d_slm d) c D ->
    set_dmd_grating_state h d a b c MUnknown kw u = (d, Err ValueError)) /\
  (forall i t F T kw u, full_input h (d_slm d) i F -> full_target h (d_slm d) t T ->
    calculate_dmd_state h d i t MUnknown None kw u = (d, Err ValueError)) /\
  (forall i t F T kw u, full_input h (d_slm d) i F -> full_target h (d_slm d) t T -> k_window kw = None ->
    calculate_dmd_state h d i t MIfta None kw u = (d, Err KeyError)).
Proof.
  split; [|split]; intros.
  - eapply grating_unknown; eassumption.
  - eapply calc_unknown; eassumption.
  - eapply calc_ifta_window; eassumption.
Qed.
Lemma ex_history_ideal : exists d' l, do_calls ex4 [COn; CGrating ex_heap half zero_phase zero_phase MIdeal no_kwargs (fun _ _ => 0); CPack] = (d', l) /\
  map snd l = [Ok tt; Ok tt; Err TypeError].
Proof.
  assert (R1 := reads_const ex_heap (d_slm ex4) (3 / 4)). assert (R2 := reads_const ex_heap (d_slm ex4) 0).
  assert (Hp : d_p (set_dmd_state_on ex4) <> 0) by (cbn; lra).
  destruct (set_ideal ex_heap (set_dmd_state_on ex4) half zero_phase zero_phase _ _ _ R1 R2 R2 Hp no_kwargs (fun _ _ => 0)) as (d2 & g & E & -> & VG).
  do 2 eexists. cbn [do_calls]. change (do_call ex4 COn) with (set_dmd_state_on ex4, Ok tt : res unit). cbv iota beta.
  change (do_call (set_dmd_state_on ex4) (CGrating ex_heap half zero_phase zero_phase MIdeal no_kwargs (fun _ _ => 0)))
    with (set_dmd_grating_state ex_heap (set_dmd_state_on ex4) half zero_phase zero_phase MIdeal no_kwargs (fun _ _ => 0)).
  rewrite E. split; [reflexivity|]. reflexivity.
Qed.
Lemma reads_cases : reads ex_heap (d_slm ex_dmd) half (fun _ _ => 3 / 4) /\
  reads ex_heap (d_slm ex_dmd) (AConstR (T2 2 3 (fun i j => INR i - INR j))) (fun i j => INR i - INR j) /\ d_p ex_dmd <> 0 /\ in_array ex_dmd 1 2.
Proof.
  split; [apply reads_const|]. split; [|split; [cbn; lra|split; cbn; lia]].
  eexists. split; [reflexivity|]. split; [right; reflexivity|]. intros i j Hi Hj. reflexivity.
Qed.
Lemma folded_case : folded (7 * PI / 3) (PI / 3).
Proof. assert (P := PI_RGT_0). split; [lra|]. exists 1%Z. left. lra. Qed.
Lemma asin_half : asin (1 / 2) = PI / 6.
Proof. assert (P := PI_RGT_0). rewrite <- sin_PI6. apply asin_sin. lra. Qed.
Lemma duty_case : 0 < dflt (k_r no_kwargs) 10 /\ asin (1 / 2) = PI / 6 /\ 0 < duty 1 0 (1 / 2).
Proof.
  split; [cbn; lra|]. split; [apply asin_half|]. assert (D := RandomFacts.duty_mono 1 0 0 (1 / 2) ltac:(lra) ltac:(lra) ltac:(lra) ltac:(lra)).
  rewrite RandomFacts.duty_zero in D. exact D.
Qed.
Lemma patch_case : exists d', circular_patch ex_heap ex_dmd 1 1 half zero_phase zero_phase 3 MSimple no_kwargs (fun _ _ => 0) = (d', Ok tt).
Proof.
  assert (R1 := reads_const ex_heap (d_slm ex_dmd) (3 / 4)). assert (R2 := reads_const ex_heap (d_slm ex_dmd) 0).
  assert (Hp : d_p ex_dmd <> 0) by (cbn; lra).
  destruct (set_simple ex_heap ex_dmd half zero_phase zero_phase _ _ _ R1 R2 R2 Hp no_kwargs (fun _ _ => 0)) as (d2 & g & E & -> & VG).
  exact (patch_ok _ _ _ _ _ _ _ _ _ _ _ _ E eq_refl eq_refl).
Qed.
