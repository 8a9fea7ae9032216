(** Properties of the iterative hologram algorithms (C39-C44, C58). *)
From Coq Require Import Reals Lra ZArith Arith List Bool Lia.
From Coquelicot Require Import Complex.
From Verif Require Import Cx Sums DFT PyBase ProfileModel SlmModel LibModel DmdModel SimModel SimSpec SimExamples DmdSpec DmdFacts2 DmdExamples HoloSpec HoloFacts HoloFacts2 HoloThms IftaFacts HoloExamples.
Open Scope R_scope.

(** ** C39 *)
Theorem C39_ifta_of_a_target : forall h d input target w F T W V kw wi u,
  full_input h (d_slm d) input F -> full_target h (d_slm d) target T -> window_reads h (d_slm d) w W -> d_p d <> 0 ->
  k_window kw = Some wi -> full_target h (d_slm d) wi V ->
  exists g r f, calculate_dmd_state h d input target MIdeal w kw u = (with_state d (DFloat (s_Ny (d_slm d)) (s_Nx (d_slm d)) g), r) /\
   calculate_dmd_state h d input target MIfta w kw u = (with_state d (DBool (s_Ny (d_slm d)) (s_Nx (d_slm d)) f), r) /\
   (forall q, (forall i j, in_array d i j -> g i j = Fin (q i j)) ->
      ifta_run (s_Ny (d_slm d)) (s_Nx (d_slm d)) F V (fun i j => q i j * dflt (k_s kw) 1) (dflt (k_N kw) 200%Z) f) /\
   ((exists i j, in_array d i j /\ forall r, g i j <> Fin r) -> (1 <= dflt (k_N kw) 200)%Z -> forall i j, in_array d i j -> f i j = false).
Proof. exact ifta_program. Qed.
Print Assumptions C39_ifta_of_a_target.
Theorem C39_ifta_grating : forall h d amp pin pout A Pi Po kw F V u,
  reads h (d_slm d) amp A -> reads h (d_slm d) pin Pi -> reads h (d_slm d) pout Po -> d_p d <> 0 ->
  complex_array (k_input kw) (T2 (s_Ny (d_slm d)) (s_Nx (d_slm d)) F) -> complex_array (k_window kw) (T2 (s_Ny (d_slm d)) (s_Nx (d_slm d)) V) ->
  exists f, set_dmd_grating_state h d amp pin pout MIfta kw u = (with_state d (DBool (s_Ny (d_slm d)) (s_Nx (d_slm d)) f), Ok tt) /\
   ifta_run (s_Ny (d_slm d)) (s_Nx (d_slm d)) F V
     (fun i j => A i j * (cos (carrier d i j - signed (d_neg d) (Po i j - Pi i j)) / 2 + 1 / 2) * dflt (k_s kw) 1) (dflt (k_N kw) 200%Z) f.
Proof. exact ifta_grating. Qed.
Print Assumptions C39_ifta_grating.
(** Zero iterations threshold the pattern; unlit mirrors end up off; an empty or full signal window thresholds the
    pattern; a pattern that is already binary is kept whatever the window. *)
Theorem C39_what_a_run_gives : forall ny nx F V q N f, ifta_run ny nx F V q N f ->
  ((N <= 0)%Z -> forall i j, (i < ny)%nat -> (j < nx)%nat -> (f i j = true <-> 1 / 2 < q i j)) /\
  ((1 <= N)%Z -> forall i j, (i < ny)%nat -> (j < nx)%nat -> F i j = RtoC 0 -> f i j = false) /\
  ((forall i j, (i < ny)%nat -> (j < nx)%nat -> V i j = RtoC 0) \/ (forall i j, (i < ny)%nat -> (j < nx)%nat -> V i j = RtoC 1) ->
     forall i j, (i < ny)%nat -> (j < nx)%nat -> F i j <> RtoC 0 -> (f i j = true <-> 1 / 2 < q i j)) /\
  ((forall i j, (i < ny)%nat -> (j < nx)%nat -> q i j = 0 \/ q i j = 1) ->
     forall i j, (i < ny)%nat -> (j < nx)%nat -> F i j <> RtoC 0 -> (f i j = true <-> q i j = 1)).
Proof. exact run_consequences. Qed.
Print Assumptions C39_what_a_run_gives.
Theorem C39_no_iterations_is_simple : forall h d input target w F T W V kw wi u,
  full_input h (d_slm d) input F -> full_target h (d_slm d) target T -> window_reads h (d_slm d) w W -> d_p d <> 0 ->
  k_window kw = Some wi -> full_target h (d_slm d) wi V -> (dflt (k_N kw) 200 <= 0)%Z -> dflt (k_s kw) 1 = 1 ->
  exists g r f f', calculate_dmd_state h d input target MIdeal w kw u = (with_state d (DFloat (s_Ny (d_slm d)) (s_Nx (d_slm d)) g), r) /\
    calculate_dmd_state h d input target MIfta w kw u = (with_state d (DBool (s_Ny (d_slm d)) (s_Nx (d_slm d)) f), r) /\
    calculate_dmd_state h d input target MSimple w kw u = (with_state d (DBool (s_Ny (d_slm d)) (s_Nx (d_slm d)) f'), r) /\
    ((forall i j, in_array d i j -> exists q, g i j = Fin q) -> forall i j, in_array d i j -> f i j = f' i j).
Proof. exact ifta_zero_is_simple. Qed.
Print Assumptions C39_no_iterations_is_simple.
Example C39_case : reads ex_heap (d_slm dmd2) one2 (fun _ _ => 1) /\ reads ex_heap (d_slm dmd2) zero2 (fun _ _ => 0) /\ d_p dmd2 <> 0 /\
  exists f, set_dmd_grating_state ex_heap dmd2 one2 zero2 zero2 MIfta kw2 (fun _ _ => 0) = (with_state dmd2 (DBool 1 2 f), Ok tt) /\
    f 0%nat 0%nat = false /\ f 0%nat 1%nat = true.
Proof. exact ifta_case. Qed.
Example C39_target_case : full_input ex_heap (d_slm ex4) in4 F4 /\ full_target ex_heap (d_slm ex4) tg4 T4 /\ window_reads ex_heap (d_slm ex4) None (fun _ _ => RtoC 1) /\
  d_p ex4 <> 0 /\ k_window (ifta_kwargs 7 (1 / 2) tg4) = Some tg4.
Proof. exact ifta_hyps. Qed.

(** ** C40 *)
Theorem C40_error_never_increases : forall h l input target F A c T u N N',
  full_input h (l_slm l) input F -> real_target h (l_slm l) target T ->
  (forall i j, in_slm (l_slm l) i j -> F i j = (RtoC (A i j) * cis c)%C /\ 0 <= A i j) ->
  (forall i j, in_slm (l_slm l) i j -> 0 <= T i j) -> (N <= N')%Z ->
  exists p p', stores (l_slm l) (calculate_hologram h l input target MGs (gs_kwargs N) u) p /\
    stores (l_slm l) (calculate_hologram h l input target MGs (gs_kwargs N') u) p' /\
    image_error (s_Ny (l_slm l)) (s_Nx (l_slm l)) F T p' <= image_error (s_Ny (l_slm l)) (s_Nx (l_slm l)) F T p.
Proof. exact gs_monotone. Qed.
Print Assumptions C40_error_never_increases.
Theorem C40_error_converges : forall h l input target F A c T u,
  full_input h (l_slm l) input F -> real_target h (l_slm l) target T ->
  (forall i j, in_slm (l_slm l) i j -> F i j = (RtoC (A i j) * cis c)%C /\ 0 <= A i j) ->
  (forall i j, in_slm (l_slm l) i j -> 0 <= T i j) ->
  exists p e, (forall N, stores (l_slm l) (calculate_hologram h l input target MGs (gs_kwargs (Z.of_nat N)) u) (p N)) /\
    Un_cv (fun N => image_error (s_Ny (l_slm l)) (s_Nx (l_slm l)) F T (p N)) e /\
    forall N, 0 <= e <= image_error (s_Ny (l_slm l)) (s_Nx (l_slm l)) F T (p N).
Proof. exact gs_error_converges. Qed.
Print Assumptions C40_error_converges.
Example C40_case : full_input ex_heap (l_slm (lcos_new slm3)) flat3 (fun _ _ => RtoC 1) /\ real_target ex_heap (l_slm (lcos_new slm3)) spot3 (spot 0 2) /\
  (forall i j, in_slm slm3 i j -> RtoC 1 = (RtoC 1 * cis 0)%C /\ 0 <= 1 /\ 0 <= spot 0 2 i j) /\
  (exists i j, in_slm slm3 i j /\ spot 0 2 i j = 1) /\
  full_target ex_heap slm3 flat3 (fun _ _ => RtoC 1) /\ scaling_factor slm3 <> 0 /\ pad_x ex_sim0 = 0%Z /\ pad_y ex_sim0 = 0%Z.
Proof. exact gs_case. Qed.

(** ** C41 *)
Theorem C41_refuted : exists h l input target F T u p p',
  full_input h (l_slm l) input F /\ real_target h (l_slm l) target T /\
  (forall i j, in_slm (l_slm l) i j -> Cmod (F i j) = 1 /\ 0 <= T i j /\ 0 <= u i j < 1) /\
  stores (l_slm l) (calculate_hologram h l input target MGs (gs_kwargs 0) u) p /\
  stores (l_slm l) (calculate_hologram h l input target MGs (gs_kwargs 1) u) p' /\
  image_error (s_Ny (l_slm l)) (s_Nx (l_slm l)) F T p = 0 /\ image_error (s_Ny (l_slm l)) (s_Nx (l_slm l)) F T p' = 2.
Proof. exact gs_sign_refutes. Qed.
Print Assumptions C41_refuted.

(** ** C42 *)
Theorem C42_mraf_full_window_is_gs : forall h l input target w F T W u N m,
  full_input h (l_slm l) input F -> real_target h (l_slm l) target T ->
  full_target h (l_slm l) w W -> (forall i j, in_slm (l_slm l) i j -> W i j = RtoC 1) -> 0 < m ->
  same_hologram (l_slm l) (calculate_hologram h l input target MMraf (mraf_kwargs N w m) u) (calculate_hologram h l input target MGs (gs_kwargs N) u).
Proof. exact mraf_contains_gs. Qed.
Print Assumptions C42_mraf_full_window_is_gs.
Theorem C42_mixing_zero_ignores_target : forall h l input target target' w F T T' W u N,
  full_input h (l_slm l) input F -> real_target h (l_slm l) target T -> real_target h (l_slm l) target' T' -> full_target h (l_slm l) w W ->
  same_hologram (l_slm l) (calculate_hologram h l input target MMraf (mraf_kwargs N w 0) u) (calculate_hologram h l input target' MMraf (mraf_kwargs N w 0) u).
Proof. exact mraf_ignores_target. Qed.
Print Assumptions C42_mixing_zero_ignores_target.
Example C42_case : full_input ex_heap slm3 flat3 (fun _ _ => RtoC 1) /\ real_target ex_heap slm3 spot3 (spot 0 2) /\ full_target ex_heap slm3 flat3 (fun _ _ => RtoC 1).
Proof. exact (conj (proj1 gs_case) (conj (proj1 (proj2 gs_case)) (proj1 (proj2 (proj2 (proj2 (proj2 gs_case))))))). Qed.

(** ** C43 *)
Theorem C43_refuted : exists h l input target F T l' phi m m' E,
  full_input h (l_slm l) input F /\ real_target h (l_slm l) target T /\
  calculate_hologram h l input target MGs (gs_kwargs 1) (fun _ _ => 0) = (l', Ok tt) /\
  l_state l' = LReal (s_Ny (l_slm l)) (s_Nx (l_slm l)) phi /\
  image_error (s_Ny (l_slm l)) (s_Nx (l_slm l)) F T phi = 0 /\
  propagate_to_image h (DevLcos l') m input = (m', Ok tt) /\ field_is (f_image m') (s_Ny (l_slm l)) (s_Nx (l_slm l)) E /\
  exists u v, in_slm (l_slm l) u v /\ T u v = 1 /\ E u v = RtoC 0.
Proof. exact lcos_refutes. Qed.
Print Assumptions C43_refuted.
(** What is displayed: the stored phase enters with the opposite sign, so a real beam shows the reflected image. *)
Theorem C43_displayed_image : forall h l input F A phi m,
  full_input h (l_slm l) input F -> l_state l = LReal (s_Ny (l_slm l)) (s_Nx (l_slm l)) phi ->
  scaling_factor (l_slm l) <> 0 -> pad_x m = 0%Z -> pad_y m = 0%Z ->
  exists m' E, propagate_to_image h (DevLcos l) m input = (m', Ok tt) /\ field_is (f_image m') (s_Ny (l_slm l)) (s_Nx (l_slm l)) E /\
    (forall u v, in_slm (l_slm l) u v -> E u v = (RtoC (eta_scale (l_slm l)) * image_of (s_Ny (l_slm l)) (s_Nx (l_slm l)) (modulated F (fun i j => Ropp (phi i j))) u v)%C) /\
    ((forall i j, in_slm (l_slm l) i j -> F i j = RtoC (A i j)) -> forall u v, in_slm (l_slm l) u v ->
       Cmod (E u v) = Rabs (eta_scale (l_slm l)) *
         Cmod (image_of (s_Ny (l_slm l)) (s_Nx (l_slm l)) (modulated F phi) (reflect (s_Ny (l_slm l)) u) (reflect (s_Nx (l_slm l)) v))).
Proof. exact lcos_displayed. Qed.
Print Assumptions C43_displayed_image.
Example C43_case : full_input ex_heap slm3 flat3 (fun _ _ => RtoC 1) /\ scaling_factor slm3 <> 0 /\ reflect 3 0 = 2%nat /\ reflect 3 1 = 1%nat /\ reflect 4 0 = 0%nat.
Proof. exact (conj (proj1 gs_case) (conj (proj1 (proj2 (proj2 (proj2 (proj2 (proj2 gs_case)))))) (conj eq_refl (conj eq_refl eq_refl)))). Qed.

(** ** C44 *)
Theorem C44_phase_ranges : forall h l input target F T kw u,
  full_input h (l_slm l) input F -> real_target h (l_slm l) target T -> (forall i j, in_slm (l_slm l) i j -> 0 <= u i j < 1) ->
  (exists p, stores (l_slm l) (calculate_hologram h l input target MGs kw u) p /\ forall i j, in_slm (l_slm l) i j ->
     ((1 <= dflt (lk_N kw) 200)%Z -> - PI < p i j <= PI) /\ ((dflt (lk_N kw) 200 <= 0)%Z -> 0 <= p i j < 2 * PI)) /\
  (forall w W, lk_window kw = Some w -> full_target h (l_slm l) w W ->
   exists p, stores (l_slm l) (calculate_hologram h l input target MMraf kw u) p /\ forall i j, in_slm (l_slm l) i j ->
     ((1 <= dflt (lk_N kw) 200)%Z -> - PI < p i j <= PI) /\ ((dflt (lk_N kw) 200 <= 0)%Z -> 0 <= p i j < 2 * PI)) /\
  (lk_window kw = None -> calculate_hologram h l input target MMraf kw u = (l, Err KeyError)) /\
  calculate_hologram h l input target MLUnknown kw u = (l, Err ValueError).
Proof. exact ranges. Qed.
Print Assumptions C44_phase_ranges.
Theorem C44_failures_change_nothing : forall h l i t m kw u l' e, calculate_hologram h l i t m kw u = (l', Err e) -> l' = l.
Proof. exact holo_atomic. Qed.
Print Assumptions C44_failures_change_nothing.
Example C44_case : forall i j, in_slm slm3 i j -> 0 <= (fun _ _ : nat => 1 / 2) i j < 1.
Proof. exact range_case. Qed.

(** ** C58 *)
Theorem C58_gs_ignores_scale : forall h l input target input' target' F T a b kw u,
  full_input h (l_slm l) input F -> real_target h (l_slm l) target T ->
  full_input h (l_slm l) input' (fun i j => (RtoC a * F i j)%C) -> real_target h (l_slm l) target' (fun i j => b * T i j) -> 0 < a -> 0 < b ->
  same_hologram (l_slm l) (calculate_hologram h l input' target' MGs kw u) (calculate_hologram h l input target MGs kw u).
Proof. exact gs_scaling. Qed.
Print Assumptions C58_gs_ignores_scale.
Theorem C58_mraf_ignores_common_scale : forall h l input target input' target' F T w W c kw u,
  full_input h (l_slm l) input F -> real_target h (l_slm l) target T ->
  full_input h (l_slm l) input' (fun i j => (RtoC c * F i j)%C) -> real_target h (l_slm l) target' (fun i j => c * T i j) -> 0 < c ->
  lk_window kw = Some w -> full_target h (l_slm l) w W ->
  same_hologram (l_slm l) (calculate_hologram h l input' target' MMraf kw u) (calculate_hologram h l input target MMraf kw u).
Proof. exact mraf_scaling. Qed.
Print Assumptions C58_mraf_ignores_common_scale.
Example C58_case : full_input ex_heap slm3 (AConstC (T2 1 3 (fun i j => (RtoC 3 * RtoC 1)%C))) (fun i j => (RtoC 3 * RtoC 1)%C) /\
  real_target ex_heap slm3 (AConstR (T2 1 3 (fun i j => 2 * spot 0 2 i j))) (fun i j => 2 * spot 0 2 i j).
Proof. exact (conj eq_refl eq_refl). Qed.
