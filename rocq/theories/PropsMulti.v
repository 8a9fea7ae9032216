(** Targets made of several beams (C129). *)
From Coq Require Import Reals Lra ZArith Arith Lia.
From Coquelicot Require Import Complex.
From Verif Require Import Cx Sums PyBase ProfileModel SlmModel LibModel DmdModel SimModel SimSpec SimExamples DmdSpec DmdExamples MultiSpec MultiFacts.
Open Scope R_scope.

(** One hologram for several beams: the inverse efficiency is at most the weighted sum of the inverse efficiencies, and the simulated first order is the weighted sum of the first orders. *)
Theorem C129_superposition : forall h d input w F W kw u, full_input h (d_slm d) input F -> window_reads h (d_slm d) w W -> d_p d <> 0 -> (0 < s_Ny (d_slm d))%nat -> (0 < s_Nx (d_slm d))%nat ->
  0 < scaling_factor (d_slm d) -> pixel_size (d_slm d) <> 0 -> forall n a T targets target,
  (forall k, (k < n)%nat -> full_target h (d_slm d) (targets k) (T k) /\ displayable d F (T k) W) ->
  full_target h (d_slm d) target (superposed n a T) -> (exists i j, in_array d i j /\ windowed d (superposed n a T) W i j <> RtoC 0) ->
  exists eta etas first, reports h d input target w kw u eta /\ 0 < eta /\ (forall k, (k < n)%nat -> reports h d input (targets k) w kw u (etas k) /\ 0 < etas k) /\
    / eta <= rsum n (fun k => Cmod (a k) / etas k) /\
    (forall m, pad_x m = 0%Z -> pad_y m = 0%Z ->
      (forall k, (k < n)%nat -> displays_first h d input (targets k) w kw u F (windowed d (T k) W) (fun p q => RtoC (etas k) * first k p q)%C m) /\
      displays_first h d input target w kw u F (windowed d (superposed n a T) W) (fun p q => RtoC eta * csum n (fun k => a k * first k p q))%C m).
Proof. exact superposition. Qed.
Print Assumptions C129_superposition.
(** The bound is reached by equal beams in phase. *)
Theorem C129_equal_beams : forall h d input w F W kw u, full_input h (d_slm d) input F -> window_reads h (d_slm d) w W -> d_p d <> 0 -> (0 < s_Ny (d_slm d))%nat -> (0 < s_Nx (d_slm d))%nat ->
  0 < scaling_factor (d_slm d) -> pixel_size (d_slm d) <> 0 -> forall n a T targets target,
  (0 < n)%nat -> (forall k, (k < n)%nat -> 0 < a k /\ full_target h (d_slm d) (targets k) T) -> displayable d F T W ->
  full_target h (d_slm d) target (superposed n (fun k => RtoC (a k)) (fun _ => T)) ->
  exists eta etas, reports h d input target w kw u eta /\ 0 < eta /\ (forall k, (k < n)%nat -> reports h d input (targets k) w kw u (etas k) /\ 0 < etas k) /\ / eta = rsum n (fun k => Cmod (RtoC (a k)) / etas k).
Proof. exact alike. Qed.
Print Assumptions C129_equal_beams.
(** Two different beams, the second one with weight 2i. *)
Example C129_case : full_input ex_heap (d_slm ex4) in4 F4 /\ window_reads ex_heap (d_slm ex4) None (fun _ _ => RtoC 1) /\ d_p ex4 <> 0 /\ (0 < s_Ny (d_slm ex4))%nat /\ (0 < s_Nx (d_slm ex4))%nat /\
  0 < scaling_factor (d_slm ex4) /\ pixel_size (d_slm ex4) <> 0 /\
  (forall k, (k < 2)%nat -> full_target ex_heap (d_slm ex4) (AConstC (T2 2 4 (beams4 k))) (beams4 k) /\ displayable ex4 F4 (beams4 k) (fun _ _ => RtoC 1)) /\
  full_target ex_heap (d_slm ex4) (AConstC (T2 2 4 (superposed 2 weights4 beams4))) (superposed 2 weights4 beams4) /\
  (exists i j, in_array ex4 i j /\ windowed ex4 (superposed 2 weights4 beams4) (fun _ _ => RtoC 1) i j <> RtoC 0).
Proof. exact multi_case. Qed.
