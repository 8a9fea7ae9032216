(** C105, C106: the number of IFTA iterations and the error inside the signal window. *)
From Coq Require Import Reals Lra ZArith Arith List Bool Lia.
From Coquelicot Require Import Complex.
From Verif Require Import Cx Sums PyBase ProfileModel SlmModel LibModel DmdModel SimModel SimSpec SimExamples DmdSpec DmdFacts2 HoloSpec ScaleFacts WinSpec WinFacts WinExample.
Open Scope R_scope.

(** C105, refuted: everything else equal, more iterations do not always lower the error inside the signal window ([Ig]: image of the ideal pattern). *)
Theorem C105_more_iterations_refuted : ~ forall h d amp pin pout kw kw' kw2 u u' u2 m a F V w n n' ng I I' Ig, let s := d_slm d in
  k_input kw' = k_input kw -> k_window kw' = k_window kw -> dflt (k_s kw) 1 = 1 -> dflt (k_s kw') 1 = 1 -> (1 <= dflt (k_N kw) 200 <= dflt (k_N kw') 200)%Z ->
  full_input h s a F -> complex_array (k_input kw) (T2 (s_Ny s) (s_Nx s) F) -> complex_array (k_window kw) (T2 (s_Ny s) (s_Nx s) V) ->
  (forall i j, in_array d i j -> V i j = RtoC (w i j) /\ (w i j = 0 \/ w i j = 1)) -> pad_x m = 0%Z -> pad_y m = 0%Z ->
  propagate_to_image h (DevDmd (fst (set_dmd_grating_state h d amp pin pout MIfta kw u))) m a = (n, Ok tt) ->
  propagate_to_image h (DevDmd (fst (set_dmd_grating_state h d amp pin pout MIfta kw' u'))) m a = (n', Ok tt) ->
  propagate_to_image h (DevDmd (fst (set_dmd_grating_state h d amp pin pout MIdeal kw2 u2))) m a = (ng, Ok tt) ->
  field_is (f_image n) (NY s m) (NX s m) I -> field_is (f_image n') (NY s m) (NX s m) I' -> field_is (f_image ng) (NY s m) (NX s m) Ig ->
  window_difference (s_Ny s) (s_Nx s) w I' Ig <= window_difference (s_Ny s) (s_Nx s) w I Ig.
Proof. exact more_iterations_refuted. Qed.
Print Assumptions C105_more_iterations_refuted.
(** Worse: for every number of iterations N >= 2 (the default 200 included) there is a grating of three mirrors for which the N iterations end with
    more than a hundred times the window error of plain thresholding, and of a single iteration. *)
Theorem C105_every_count_can_hurt : forall N, (2 <= N)%Z -> exists fN f1 fs g nN n1 ns ng IN I1 Is Ig,
  let set me kw := set_dmd_grating_state ex_heap row3 (amp3 N) none3 none3 me kw (fun _ _ => 0) in
  let sim d n I := propagate_to_image ex_heap (DevDmd d) sim3 light3 = (n, Ok tt) /\ field_is (f_image n) 1 3 I in
  set MIfta (kwin3 N) = (with_state row3 (DBool 1 3 fN), Ok tt) /\ set MIfta (kwin3 1) = (with_state row3 (DBool 1 3 f1), Ok tt) /\
  set MSimple (kwin3 N) = (with_state row3 (DBool 1 3 fs), Ok tt) /\ set MIdeal (kwin3 N) = (with_state row3 (DFloat 1 3 g), Ok tt) /\
  sim (with_state row3 (DBool 1 3 fN)) nN IN /\ sim (with_state row3 (DBool 1 3 f1)) n1 I1 /\ sim (with_state row3 (DBool 1 3 fs)) ns Is /\ sim (with_state row3 (DFloat 1 3 g)) ng Ig /\
  window_difference 1 3 centre3 I1 Ig <= window_difference 1 3 centre3 Is Ig /\ 0 < window_difference 1 3 centre3 Is Ig /\
  100 * window_difference 1 3 centre3 Is Ig < window_difference 1 3 centre3 IN Ig.
Proof. exact more_iterations. Qed.
Print Assumptions C105_every_count_can_hurt.

(** C106: a single iteration is never worse inside the window than plain thresholding, whatever the beam and for any real window between 0 and 1. *)
Theorem C106_one_iteration_grating : forall h d amp pin pout A Pi Po kw u kw1 u1 kw2 u2 m a F V w nf ns ng If Is Ig, let s := d_slm d in
  reads h s amp A -> reads h s pin Pi -> reads h s pout Po -> d_p d <> 0 -> full_input h s a F -> scaling_factor s <> 0 -> pad_x m = 0%Z -> pad_y m = 0%Z ->
  complex_array (k_input kw) (T2 (s_Ny s) (s_Nx s) F) -> complex_array (k_window kw) (T2 (s_Ny s) (s_Nx s) V) -> k_N kw = Some 1%Z -> dflt (k_s kw) 1 = 1 ->
  (forall i j, in_array d i j -> V i j = RtoC (w i j) /\ 0 <= w i j <= 1) ->
  (forall i j, in_array d i j -> F i j <> RtoC 0 -> A i j * (cos (carrier d i j - signed (d_neg d) (Po i j - Pi i j)) / 2 + 1 / 2) <> 1 / 2) ->
  propagate_to_image h (DevDmd (fst (set_dmd_grating_state h d amp pin pout MIfta kw u))) m a = (nf, Ok tt) ->
  propagate_to_image h (DevDmd (fst (set_dmd_grating_state h d amp pin pout MSimple kw1 u1))) m a = (ns, Ok tt) ->
  propagate_to_image h (DevDmd (fst (set_dmd_grating_state h d amp pin pout MIdeal kw2 u2))) m a = (ng, Ok tt) ->
  field_is (f_image nf) (NY s m) (NX s m) If -> field_is (f_image ns) (NY s m) (NX s m) Is -> field_is (f_image ng) (NY s m) (NX s m) Ig ->
  window_difference (s_Ny s) (s_Nx s) w If Ig <= window_difference (s_Ny s) (s_Nx s) w Is Ig.
Proof. exact one_iteration_grating. Qed.
Print Assumptions C106_one_iteration_grating.
Theorem C106_one_iteration_hologram : forall h d input target win kw wi u kw1 u1 kw2 u2 m F T W V w g nf ns ng If Is Ig, let s := d_slm d in
  full_input h s input F -> full_target h s target T -> window_reads h s win W -> d_p d <> 0 -> scaling_factor s <> 0 -> pad_x m = 0%Z -> pad_y m = 0%Z ->
  k_window kw = Some wi -> full_target h s wi V -> k_N kw = Some 1%Z -> dflt (k_s kw) 1 = 1 -> (forall i j, in_array d i j -> V i j = RtoC (w i j) /\ 0 <= w i j <= 1) ->
  d_state (fst (calculate_dmd_state h d input target MIdeal win kw2 u2)) = DFloat (s_Ny s) (s_Nx s) g ->
  (forall i j, in_array d i j -> exists q, g i j = Fin q /\ (F i j <> RtoC 0 -> q <> 1 / 2)) ->
  propagate_to_image h (DevDmd (fst (calculate_dmd_state h d input target MIfta win kw u))) m input = (nf, Ok tt) ->
  propagate_to_image h (DevDmd (fst (calculate_dmd_state h d input target MSimple win kw1 u1))) m input = (ns, Ok tt) ->
  propagate_to_image h (DevDmd (fst (calculate_dmd_state h d input target MIdeal win kw2 u2))) m input = (ng, Ok tt) ->
  field_is (f_image nf) (NY s m) (NX s m) If -> field_is (f_image ns) (NY s m) (NX s m) Is -> field_is (f_image ng) (NY s m) (NX s m) Ig ->
  window_difference (s_Ny s) (s_Nx s) w If Ig <= window_difference (s_Ny s) (s_Nx s) w Is Ig.
Proof. exact one_iteration_hologram. Qed.
Print Assumptions C106_one_iteration_hologram.
(** In a run of any length the last iteration has this property: it does not increase the error of the pattern it started from ([ifta_patterns] are the
    grey patterns of an IFTA run; [rounded] rounds one to a mirror pattern). *)
Theorem C106_last_iteration : forall ny nx F V w q N G b f, ifta_patterns ny nx F V q N G -> (1 <= N)%Z ->
  (forall u v, (u < ny)%nat -> (v < nx)%nat -> V u v = RtoC (w u v) /\ 0 <= w u v <= 1) ->
  (forall i j, (i < ny)%nat -> (j < nx)%nat -> F i j <> RtoC 0 -> G (Z.to_nat N - 1)%nat i j <> 1 / 2) ->
  rounded ny nx (G (Z.to_nat N - 1)%nat) b -> rounded ny nx (G (Z.to_nat N)) f ->
  window_difference ny nx w (shown ny nx F f) (shown_grey ny nx F q) <= window_difference ny nx w (shown ny nx F b) (shown_grey ny nx F q).
Proof. exact last_iteration. Qed.
Print Assumptions C106_last_iteration.
Theorem C106_runs_have_patterns : forall ny nx F V q N f, ifta_run ny nx F V q N f -> exists G, ifta_patterns ny nx F V q N G /\ rounded ny nx (G (Z.to_nat N)) f.
Proof. exact run_patterns. Qed.
Print Assumptions C106_runs_have_patterns.
(** Hypotheses met: three mirrors in an uneven beam. *)
Example C106_grating_case : let s := d_slm row3 in reads ex_heap s (amp3 7) (grey3 7) /\ reads ex_heap s none3 (fun _ _ => 0) /\ d_p row3 <> 0 /\ full_input ex_heap s light3 F3 /\ scaling_factor s <> 0 /\
  complex_array (k_input (kwin3 1)) (T2 1 3 F3) /\ complex_array (k_window (kwin3 1)) (T2 1 3 V3) /\
  (forall i j, in_array row3 i j -> V3 i j = RtoC (centre3 i j) /\ 0 <= centre3 i j <= 1) /\
  (forall i j, in_array row3 i j -> F3 i j <> RtoC 0 -> grey3 7 i j * (cos (carrier row3 i j - signed (d_neg row3) (0 - 0)) / 2 + 1 / 2) <> 1 / 2).
Proof.
  cbv zeta. split; [apply reads_array|]. split; [apply reads_const|]. split; [cbn; lra|]. split; [reflexivity|]. split; [unfold scaling_factor; cbn; lra|]. split; [right; reflexivity|]. split; [right; reflexivity|]. split.
  - intros i j _. split; [reflexivity|]. unfold centre3. destruct j as [|[|]]; lra.
  - intros i j [Hi Hj] _. change (s_Ny (d_slm row3)) with 1%nat in Hi. change (s_Nx (d_slm row3)) with 3%nat in Hj. rewrite row3_value by assumption. destruct (grey3_bounds 7 ltac:(lia)) as (A & B & C & _). replace i with O by lia. destruct j as [|[|[|]]]; [lra|lra|lra|lia].
Qed.
Example C106_hologram_case : let s := d_slm row3 in let target := AConstC (T2 1 3 V3) in full_input ex_heap s light3 F3 /\ full_target ex_heap s target V3 /\ d_p row3 <> 0 /\ scaling_factor s <> 0 /\
  k_window (kwin3 1) = Some target /\ k_N (kwin3 1) = Some 1%Z /\
  exists g, d_state (fst (calculate_dmd_state ex_heap row3 light3 target MIdeal None no_kwargs (fun _ _ => 0))) = DFloat 1 3 g /\
    (forall i j, in_array row3 i j -> exists q, g i j = Fin q /\ (F3 i j <> RtoC 0 -> q <> 1 / 2)) /\
    exists n, propagate_to_image ex_heap (DevDmd (fst (calculate_dmd_state ex_heap row3 light3 target MIdeal None no_kwargs (fun _ _ => 0)))) sim3 light3 = (n, Ok tt).
Proof.
  cbv zeta. split; [reflexivity|]. split; [reflexivity|]. split; [cbn; lra|]. split; [unfold scaling_factor; cbn; lra|]. split; [reflexivity|]. split; [reflexivity|].
  destruct (hologram3 no_kwargs (fun _ _ => 0)) as (g & E & G0 & G1 & G2). exists g. rewrite E. cbn [fst with_state d_state]. split; [reflexivity|].
  assert (V : forall i j, (i < 1)%nat -> (j < 3)%nat -> g i j = Fin (/ beam3 i j)).
  { intros i j Hi Hj. replace i with O by lia. destruct j as [|[|[|]]]; [rewrite G0|rewrite G1|rewrite G2|lia]; f_equal; cbn [beam3]; lra. }
  split.
  - intros i j [Hi Hj]. exists (/ beam3 i j). split; [apply V; assumption|]. intros _. unfold beam3. destruct j as [|[|[|]]]; lra.
  - destruct (simulate3 (DFloat 1 3 g) _ (AmpFacts4.state_float_in (with_state row3 (DFloat 1 3 g)) 1 3 g _ eq_refl eq_refl eq_refl V)) as (n & P & _). exists n. exact P.
Qed.
