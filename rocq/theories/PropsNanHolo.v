(** Holograms for beams, targets and windows with undefined values (C155). *)
From Coq Require Import Reals Lra ZArith Arith List Bool Lia.
From Coquelicot Require Import Complex.
From Verif Require Import Cx PyBase ProfileModel SlmModel LibModel DmdModel SimModel SimSpec SimExamples DmdSpec DmdExamples HoloSpec NarrowFacts2 NanModel NanHoloModel NanHoloSpec NanHoloFacts.
Open Scope R_scope.

(** One NaN in the target, or in the window: no exception, efficiency NaN, no mirror on. *)
Theorem C155_target_or_window : forall d F T m W SW kw u, let s := d_slm d in scaling_factor s <> 0 -> m <> MUnknown -> (m = MIfta -> SW <> None) ->
  undefined s T \/ (exists w, W = Some w /\ undefined s w) ->
  exists st, u_dmd_state d F T m W SW kw u = (with_state d st, Ok NaN) /\ dark s st /\ is_bool_state st = match m with MIdeal => false | _ => true end.
Proof. exact undefined_target. Qed.
Print Assumptions C155_target_or_window.
(** One NaN in the beam, at a mirror which the target needs. *)
Theorem C155_beam : forall d F T m W SW kw u i j, let s := d_slm d in scaling_factor s <> 0 -> m <> MUnknown -> (m = MIfta -> SW <> None) ->
  (i < s_Ny s)%nat -> (j < s_Nx s)%nat -> F i j = None -> windowed d T (dflt W all_ones) i j <> RtoC 0 ->
  exists st, u_dmd_state d F (lift T) m (option_map lift W) SW kw u = (with_state d st, Ok NaN) /\ dark s st /\ is_bool_state st = match m with MIdeal => false | _ => true end.
Proof. exact undefined_beam. Qed.
Print Assumptions C155_beam.
(** NaNs of the beam only at mirrors where nothing is wanted: these are off; the others, and the efficiency, are as for any beam F0 that is defined there. *)
Theorem C155_unused_mirrors : forall d F F0 T m W SW kw u, let s := d_slm d in m = MIdeal \/ m = MSimple \/ m = MRandom ->
  (forall i j, (i < s_Ny s)%nat -> (j < s_Nx s)%nat -> F i j = Some (F0 i j) \/ F i j = None /\ windowed d T (dflt W all_ones) i j = RtoC 0) ->
  let r := u_dmd_state d (lift F0) (lift T) m (option_map lift W) SW kw u in
  let r' := u_dmd_state d F (lift T) m (option_map lift W) SW kw u in
  snd r' = snd r /\ holes F (d_state (fst r)) (d_state (fst r')).
Proof. exact beam_holes. Qed.
Print Assumptions C155_unused_mirrors.
(** The iterative method spreads each of them over the panel, also those. *)
Theorem C155_ifta : forall d F T W SW V kw u, let s := d_slm d in SW = Some V -> (1 <= dflt (k_N kw) 200)%Z ->
  undefined s F \/ undefined s T \/ (exists w, W = Some w /\ undefined s w) \/ undefined s V ->
  dark s (d_state (fst (u_dmd_state d F T MIfta W SW kw u))) /\ exists f, d_state (fst (u_dmd_state d F T MIfta W SW kw u)) = DBool (s_Ny s) (s_Nx s) f.
Proof. exact ifta_undefined. Qed.
Print Assumptions C155_ifta.
(** Phase holograms: every phase is NaN after one iteration; without iterations the arrays are not looked at. *)
Theorem C155_phases : forall s F T m W kw u, (1 <= dflt (lk_N kw) 200)%Z ->
  m = MGs /\ (undefined s F \/ undefined s T) \/ (exists w, m = MMraf /\ W = Some w /\ (undefined s F \/ undefined s T \/ undefined s w)) ->
  exists phi, u_hologram s F T m W kw u = Ok phi /\ forall i j, phi i j = None.
Proof. exact holo_undefined. Qed.
Print Assumptions C155_phases.
Theorem C155_no_iterations : forall s F T m W kw u, (dflt (lk_N kw) 200 <= 0)%Z -> m = MGs \/ (m = MMraf /\ W <> None) ->
  u_hologram s F T m W kw u = Ok (fun i j => Some (2 * PI * u i j)).
Proof. exact holo_kept. Qed.
Print Assumptions C155_no_iterations.
(** With arrays of finite values these are the holograms of the other properties. *)
Theorem C155_finite_dmd : forall h d input target w F T W kw u SW, full_input h (d_slm d) input F -> full_target h (d_slm d) target T -> window_reads h (d_slm d) w W -> d_p d <> 0 ->
  forall m, match m with MIfta => match SW with Some V => exists wi V0, V = lift V0 /\ k_window kw = Some wi /\ full_target h (d_slm d) wi V0 | None => k_window kw = None end | _ => True end ->
  let r := calculate_dmd_state h d input target m w kw u in
  let r' := u_dmd_state d (lift F) (lift T) m (match w with None => None | Some _ => Some (lift W) end) SW kw u in
  snd r' = snd r /\ same_state (d_state (fst r')) (d_state (fst r)).
Proof. exact fin_dmd. Qed.
Print Assumptions C155_finite_dmd.
Theorem C155_finite_lcos : forall h l input target F T kw u, full_input h (l_slm l) input F -> real_target h (l_slm l) target T ->
  (exists phi, stores (l_slm l) (calculate_hologram h l input target MGs kw u) phi /\ u_hologram (l_slm l) (lift F) (lift T) MGs None kw u = Ok (lift phi)) /\
  forall w W, lk_window kw = Some w -> full_target h (l_slm l) w W ->
  exists phi, stores (l_slm l) (calculate_hologram h l input target MMraf kw u) phi /\ u_hologram (l_slm l) (lift F) (lift T) MMraf (Some (lift W)) kw u = Ok (lift phi).
Proof. exact (fun h l input target F T kw u HF HT => conj (fin_gs h l input target F T kw u HF HT) (fun w W => fin_mraf h l input target F T w W kw u HF HT)). Qed.
Print Assumptions C155_finite_lcos.
(** 2 x 3 mirrors, a target with one bright pixel, a beam whose first sample is NaN: nothing is displayed.  With a window that is 0 there, the rest stays. *)
Example C155_case : let T := fun i j => if (Nat.eqb i 1 && Nat.eqb j 1)%bool then RtoC 1 else RtoC 0 in
  let F := fun i j => if (Nat.eqb i 0 && Nat.eqb j 0)%bool then None else Some (RtoC 1) in
  let W := fun i j => if (Nat.eqb i 0 && Nat.eqb j 0)%bool then RtoC 0 else RtoC 1 in
  let kw := {| k_r := None; k_N := None; k_s := None; k_input := None; k_window := None |} in
  scaling_factor (d_slm ex_dmd) <> 0 /\ windowed ex_dmd T (dflt None all_ones) 0 0 <> RtoC 0 /\ undefined (d_slm ex_dmd) F /\
  (exists st, u_dmd_state ex_dmd F (lift T) MSimple None None kw (fun _ _ => 0) = (with_state ex_dmd st, Ok NaN) /\ dark (d_slm ex_dmd) st) /\
  (let r := u_dmd_state ex_dmd (lift (fun _ _ => RtoC 1)) (lift T) MSimple (Some (lift W)) None kw (fun _ _ => 0) in
   let r' := u_dmd_state ex_dmd F (lift T) MSimple (Some (lift W)) None kw (fun _ _ => 0) in
   snd r' = snd r /\ holes F (d_state (fst r)) (d_state (fst r'))).
Proof.
  cbv zeta. set (T := fun i j : nat => if (Nat.eqb i 1 && Nat.eqb j 1)%bool then RtoC 1 else RtoC 0).
  assert (S0 : scaling_factor (d_slm ex_dmd) <> 0) by (unfold scaling_factor; cbn; lra).
  assert (Z0 : windowed ex_dmd T all_ones 0 0 <> RtoC 0) by (unfold windowed, all_ones; rewrite Cmult_1_r; apply one_pixel; cbn; lia).
  split; [exact S0|]. split; [exact Z0|]. split; [exists 0%nat, 0%nat; cbn; repeat split; lia|]. split.
  - destruct (C155_beam ex_dmd (fun i j => if (Nat.eqb i 0 && Nat.eqb j 0)%bool then None else Some (RtoC 1)) T MSimple None None
      {| k_r := None; k_N := None; k_s := None; k_input := None; k_window := None |} (fun _ _ => 0) 0 0 S0) as (st & E & D & _);
      [discriminate|discriminate|cbn; lia|cbn; lia|reflexivity|exact Z0|]. exists st. split; [exact E|exact D].
  - apply (C155_unused_mirrors ex_dmd _ (fun _ _ => RtoC 1) T MSimple (Some _) None); [auto|]. intros i j _ _.
    destruct (Nat.eqb i 0 && Nat.eqb j 0)%bool eqn:E; [right|left; reflexivity]. split; [reflexivity|]. unfold windowed. cbn [dflt]. rewrite E. apply Cmult_0_r.
Qed.
