(** The window argument of calculate_dmd_state (C122). *)
From Coq Require Import Reals Lra ZArith Arith List Bool Lia.
From Coquelicot Require Import Complex.
From Verif Require Import Cx Sums DFT PyBase ProfileModel SlmModel LibModel DmdModel SimModel SimSpec SimExamples DmdSpec DmdExamples WinFilter.
Open Scope R_scope.

(** Target and window act only through the product of the target's spectrum and the window: every method, every input, errors and NaN included. *)
Theorem C122_only_the_filtered_spectrum_matters : forall h d input F target target' w w' T T' W W' m kw u, let s := d_slm d in
  window_reads h s (Some input) F -> full_target h s target T -> full_target h s target' T' -> window_reads h s w W -> window_reads h s w' W' ->
  (forall i j, in_array d i j -> windowed d T W i j = windowed d T' W' i j) ->
  let r := calculate_dmd_state h d input target m w kw u in let r' := calculate_dmd_state h d input target' m w' kw u in
  snd r = snd r' /\ same_state (d_state (fst r)) (d_state (fst r')).
Proof. exact same_filtered. Qed.
Print Assumptions C122_only_the_filtered_spectrum_matters.
(** A window is the same as giving the filtered target without a window. *)
Theorem C122_window_filters_the_target : forall h d input F target w T W m kw u, let s := d_slm d in
  window_reads h s (Some input) F -> full_target h s target T -> window_reads h s w W ->
  let filtered := AConstC (T2 (s_Ny s) (s_Nx s) (image_of (s_Ny s) (s_Nx s) (fun i j => (spectrum_of (s_Ny s) (s_Nx s) T i j * W i j)%C))) in
  let r := calculate_dmd_state h d input target m w kw u in let r' := calculate_dmd_state h d input filtered m None kw u in
  snd r = snd r' /\ same_state (d_state (fst r)) (d_state (fst r')).
Proof. exact window_filters. Qed.
Print Assumptions C122_window_filters_the_target.
Theorem C122_windows_multiply : forall h d input F target w w2 T W1 W2 m kw u, let s := d_slm d in
  window_reads h s (Some input) F -> full_target h s target T -> window_reads h s w (fun i j => (W1 i j * W2 i j)%C) -> window_reads h s w2 W2 ->
  let filtered := AConstC (T2 (s_Ny s) (s_Nx s) (image_of (s_Ny s) (s_Nx s) (fun i j => (spectrum_of (s_Ny s) (s_Nx s) T i j * W1 i j)%C))) in
  let r := calculate_dmd_state h d input target m w kw u in let r' := calculate_dmd_state h d input filtered m w2 kw u in
  snd r = snd r' /\ same_state (d_state (fst r)) (d_state (fst r')).
Proof. exact windows_compose. Qed.
Print Assumptions C122_windows_multiply.
(** A positive constant: as a window it divides the efficiency, on the input it multiplies it; the pattern stays. *)
Theorem C122_constant_window : forall h d input F target T c m kw u, let s := d_slm d in 0 < c -> full_input h s input F -> full_target h s target T ->
  let plain := calculate_dmd_state h d input target m None kw u in
  let windowed := calculate_dmd_state h d input target m (Some (AConstR (T0 c))) kw u in
  let dimmed := calculate_dmd_state h d (AConstC (T2 (s_Ny s) (s_Nx s) (fun i j => (RtoC c * F i j)%C))) target m None kw u in
  snd windowed = rmap (fun eta => xscale eta (/ c)) (snd plain) /\ same_state (d_state (fst windowed)) (d_state (fst plain)) /\
  snd dimmed = rmap (fun eta => xscale eta c) (snd plain) /\ d_state (fst dimmed) = d_state (fst plain).
Proof. exact constant_window. Qed.
Print Assumptions C122_constant_window.
(** "The window function to be applied to the input_profile" does not describe the code. *)
Theorem C122_window_is_not_on_the_input : exists h d input F target c m kw u eta eta', let s := d_slm d in
  full_input h s input F /\ 0 < c /\
  snd (calculate_dmd_state h d input target m (Some (AConstR (T0 c))) kw u) = Ok (Fin eta) /\
  snd (calculate_dmd_state h d (AConstC (T2 (s_Ny s) (s_Nx s) (fun i j => (RtoC c * F i j)%C))) target m None kw u) = Ok (Fin eta') /\ 0 < eta /\ eta' = 4 * eta.
Proof. exact window_is_not_on_the_input. Qed.
Print Assumptions C122_window_is_not_on_the_input.
(** A low-pass window given as an array, beside a full input and target. *)
Definition low4 : parg := AConstR (T2 2 4 (fun i j => if Nat.eqb j 2 then 1 else 0)).
Example C122_case : window_reads ex_heap (d_slm ex4) (Some in4) F4 /\ full_target ex_heap (d_slm ex4) tg4d T4d /\
  window_reads ex_heap (d_slm ex4) (Some low4) (fun i j => if Nat.eqb j 2 then RtoC 1 else RtoC 0) /\
  windowed ex4 T4d (fun i j => if Nat.eqb j 2 then RtoC 1 else RtoC 0) 1 2 <> RtoC 0 /\ full_input ex_heap (d_slm ex4) in4 F4.
Proof.
  destruct ex4_reads as (HF & _). destruct ex4_dark as (_ & HT & _). split; [|split; [exact HT|split; [|split; [|exact HF]]]].
  - exists (T2 2 4 F4). split; [exact HF|]. split; [right; reflexivity|]. intros i j Hi Hj. cbn in Hi, Hj. apply tget_T2; assumption.
  - exists (tmap RtoC (T2 2 4 (fun i j => if Nat.eqb j 2 then 1 else 0))). split; [reflexivity|]. split; [right; reflexivity|]. intros i j Hi Hj. cbn in Hi, Hj.
    cbn [tmap]. rewrite (tget_T2 2 4) by assumption. destruct (Nat.eqb j 2); reflexivity.
  - unfold windowed. cbn [ex4 dmd_new d_slm s_Ny s_Nx Nat.eqb]. rewrite T4d_spectrum, Cmult_1_l. intros H. injection H. lra.
Qed.
