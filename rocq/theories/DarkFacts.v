(** C37: which grey levels are lost when the target needs a dark mirror. *)
From Coq Require Import Reals Lra ZArith Arith List Bool Lia.
From Coquelicot Require Import Complex.
From Verif Require Import Cx Sums DFT PyBase ProfileModel SlmModel LibModel DmdModel SimModel SimSpec GridFacts SimFacts SimFacts2 DmdSpec DmdFacts DmdFacts2 DmdFacts3 AmpFacts AmpFacts2 AmpFacts3.
Import ListNotations.
Open Scope R_scope.

Lemma dark_exactly h d input target w F T W kw u :
  full_input h (d_slm d) input F -> full_target h (d_slm d) target T -> window_reads h (d_slm d) w W -> d_p d <> 0 ->
  scaling_factor (d_slm d) <> 0 ->
  (exists i j, in_array d i j /\ F i j = RtoC 0 /\ windowed d T W i j <> RtoC 0) ->
  exists g, calculate_dmd_state h d input target MIdeal w kw u = (with_state d (DFloat (s_Ny (d_slm d)) (s_Nx (d_slm d)) g), Ok (Fin 0)) /\
    forall i j, in_array d i j ->
      (F i j = RtoC 0 /\ windowed d T W i j <> RtoC 0 -> g i j = NaN) /\
      (F i j <> RtoC 0 \/ windowed d T W i j = RtoC 0 -> g i j = Fin 0).
Proof.
  intros HF HT HW Hp Hs (i0 & j0 & [I0 J0] & E0 & Hz).
  assert (HD : exists i j, (i < s_Ny (d_slm d))%nat /\ (j < s_Nx (d_slm d))%nat /\ F i j = RtoC 0 /\ windowed d T W i j <> RtoC 0) by (exists i0, j0; auto).
  destruct (calc_ideal h d input target w F T W kw u HF HT HW Hp) as (g & E & V).
  pose proof (dark_result d F T W Hs) as R. pose proof (dark_max d F T W) as M.
  exists g. rewrite R in E by exact HD. split; [exact E|].
  intros i j [Hi Hj]. rewrite V by assumption. rewrite M by exact HD. rewrite spectrum_windowed by assumption.
  split.
  - intros (F0 & S0). unfold safe_ratio. rewrite F0, Cmod_0. assert (P := Cmod_gt_0 (windowed d T W i j)). apply P in S0.
    destruct (Req_EM_T (Cmod (windowed d T W i j)) 0); [lra|]. cbn [xdiv]. destruct (Req_EM_T 0 0); [|lra]. destruct (Rlt_dec 0 (Cmod (windowed d T W i j))); [|lra]. reflexivity.
  - intros H. assert (Q : exists r, safe_ratio (Cmod (windowed d T W i j)) (Cmod (F i j)) = Fin r).
    { unfold safe_ratio. destruct (Req_EM_T (Cmod (windowed d T W i j)) 0) as [Z|Z]; [eauto|]. destruct H as [H|H]; [|rewrite H, Cmod_0 in Z; lra].
      apply Cmod_gt_0 in H. cbn [xdiv]. destruct (Req_EM_T (Cmod (F i j)) 0); [lra|eauto]. }
    destruct Q as (r & ->). cbn [xdiv xscale]. f_equal. ring.
Qed.
