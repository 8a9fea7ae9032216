(** Stacks of targets: arrays with more than two axes (C140), packing and simulating their patterns (C141). *)
From Coq Require Import Reals Lra Lia ZArith Arith List Bool.
From Coquelicot Require Import Complex.
From Verif Require Import Cx Sums PyBase ProfileModel SlmModel LibModel DmdModel SimModel SimSpec DmdSpec DmdExamples RankModel RankSpec RankFacts RankFacts2 RankFacts3 RankFacts4.
Import ListNotations.
Open Scope R_scope.

(** For scalars and arrays with two axes the calls are those of the other theorems. *)
Theorem C140_two_axes : forall h d input target m window kw u v, m <> MIfta -> (forall i j, v [j; i] = u i j) ->
  agrees d (nd_calculate_dmd_state d (nd_of input) (nd_of target) m (option_map nd_of window) (k_r kw) v)
    (calculate_dmd_state h d (ATensorC input) (ATensorC target) m (option_map ATensorC window) kw u).
Proof. exact rank2_agrees. Qed.
Print Assumptions C140_two_axes.
(** Stacks over any leading axes B. Every pattern is the hologram of its own image, but all share one normalisation: the largest mirror amplitude over the whole stack is 1. *)
Theorem C140_stack : forall d B input target w F T W r u,
  stack_of d B input F -> stack_of d B target T -> stack_window d B w W -> deep d B input \/ deep d B target \/ deep_window d B w ->
  d_p d <> 0 -> (0 < s_Ny (d_slm d))%nat -> (0 < s_Nx (d_slm d))%nat -> Forall (fun n => (0 < n)%nat) B -> scaling_factor (d_slm d) <> 0 ->
  (forall b i j, valid B b -> in_array d i j -> F b i j = RtoC 0 -> windowed d (T b) (W b) i j = RtoC 0) ->
  (exists b i j, valid B b /\ in_array d i j /\ windowed d (T b) (W b) i j <> RtoC 0) ->
  exists M, 0 < M /\
  let A := fun b i j => Cmod (windowed d (T b) (W b) i j) / Cmod (F b i j) / M in
  let phase := fun b i j => carrier d i j - signed (d_neg d) (phase_of (windowed d (T b) (W b) i j) - carg (F b i j)) in
  let level := fun b i j => A b i j * (cos (phase b i j) / 2 + 1 / 2) in
  let eta := eta_scale (d_slm d) / M in
  (forall b i j, valid B b -> in_array d i j -> 0 <= A b i j <= 1) /\
  (exists b i j, valid B b /\ in_array d i j /\ A b i j = 1) /\
  (exists t, nd_calculate_dmd_state d input target MIdeal w r u = (Some (NFloat t), Ok (Fin eta)) /\ nsh t = s_Nx (d_slm d) :: s_Ny (d_slm d) :: B /\
     forall b i j, valid B b -> in_array d i j -> nel t (j :: i :: b) = Fin (level b i j)) /\
  (exists t, nd_calculate_dmd_state d input target MSimple w r u = (Some (NBool t), Ok (Fin eta)) /\ nsh t = s_Nx (d_slm d) :: s_Ny (d_slm d) :: B /\
     forall b i j, valid B b -> in_array d i j -> (nel t (j :: i :: b) = true <-> 1 / 2 < level b i j)) /\
  (exists t, nd_calculate_dmd_state d input target MRandom w r u = (Some (NBool t), Ok (Fin eta)) /\ nsh t = s_Nx (d_slm d) :: s_Ny (d_slm d) :: B /\
     forall b i j, valid B b -> in_array d i j -> exists q, folded (phase b i j) q /\ (nel t (j :: i :: b) = true <-> u (j :: i :: b) < duty (dflt r 10) q (A b i j))).
Proof. exact stack_hologram. Qed.
Print Assumptions C140_stack.
(** Against the calls for single images: the returned efficiency is the smallest of theirs and a pattern is scaled down by the quotient; with method
    "simple" a pattern whose own efficiency is at least twice the common one is blank. *)
Theorem C140_slices : forall h d B input target w F T W kw u0 u,
  stack_of d B input F -> stack_of d B target T -> stack_window d B w W -> deep d B input \/ deep d B target \/ deep_window d B w ->
  d_p d <> 0 -> (0 < s_Ny (d_slm d))%nat -> (0 < s_Nx (d_slm d))%nat -> Forall (fun n => (0 < n)%nat) B -> scaling_factor (d_slm d) <> 0 ->
  (forall b i j, valid B b -> in_array d i j -> F b i j = RtoC 0 -> windowed d (T b) (W b) i j = RtoC 0) ->
  (exists b i j, valid B b /\ in_array d i j /\ windowed d (T b) (W b) i j <> RtoC 0) ->
  exists t t' eta,
  nd_calculate_dmd_state d input target MIdeal w (k_r kw) u = (Some (NFloat t), Ok (Fin eta)) /\
  nd_calculate_dmd_state d input target MSimple w (k_r kw) u = (Some (NBool t'), Ok (Fin eta)) /\
  (forall b, valid B b -> (exists i j, in_array d i j /\ windowed d (T b) (W b) i j <> RtoC 0) ->
     exists rho g g' eta_b, 0 < rho <= 1 /\ eta = rho * eta_b /\
       alone h d F T W w b MIdeal kw u0 = (with_state d (DFloat (s_Ny (d_slm d)) (s_Nx (d_slm d)) g), Ok (Fin eta_b)) /\
       alone h d F T W w b MSimple kw u0 = (with_state d (DBool (s_Ny (d_slm d)) (s_Nx (d_slm d)) g'), Ok (Fin eta_b)) /\
       (forall i j, in_array d i j -> exists l, g i j = Fin l /\ nel t (j :: i :: b) = Fin (rho * l)) /\
       (forall i j, in_array d i j -> nel t' (j :: i :: b) = true -> g' i j = true) /\
       (rho <= 1 / 2 -> forall i j, in_array d i j -> nel t' (j :: i :: b) = false)) /\
  (forall b, valid B b -> (forall i j, in_array d i j -> windowed d (T b) (W b) i j = RtoC 0) ->
     forall i j, in_array d i j -> nel t (j :: i :: b) = Fin 0 /\ nel t' (j :: i :: b) = false) /\
  (exists b, valid B b /\ exists g, alone h d F T W w b MIdeal kw u0 = (with_state d (DFloat (s_Ny (d_slm d)) (s_Nx (d_slm d)) g), Ok (Fin eta)) /\
     forall i j, in_array d i j -> nel t (j :: i :: b) = g i j).
Proof. exact stack_slices. Qed.
Print Assumptions C140_slices.
(** Targets with fewer than two axes, stacks of different lengths and stacks along the last axis raise; dmd_state stays. *)
Theorem C140_raises :
  (forall d input target m w r u, (length (nsh target) < 2)%nat -> nd_calculate_dmd_state d input target m w r u = (None, Err ETensorFlow)) /\
  (forall d input target m r u nx ny K L, nsh input = [nx; ny; K] -> nsh target = [nx; ny; L] -> K <> L -> K <> 1%nat -> L <> 1%nat ->
     nd_calculate_dmd_state d input target m None r u = (None, Err ETensorFlow)) /\
  (forall d input target m r u K, nsh input = [s_Nx (d_slm d); s_Ny (d_slm d)] -> nsh target = [K; s_Nx (d_slm d); s_Ny (d_slm d)] ->
     K <> s_Nx (d_slm d) -> K <> 1%nat -> s_Nx (d_slm d) <> 1%nat -> nd_calculate_dmd_state d input target m None r u = (None, Err ETensorFlow)).
Proof. exact (conj flat_target (conj uneven_stacks channels_last)). Qed.
Print Assumptions C140_raises.
(** Two targets, the second one of a quarter the amplitude: its binary pattern is blank, although alone it is that of the first. *)
Example C140_case : exists t eta,
  let target := Nd [4; 2; 2]%nat (fun ix => match ix with [v; u; k] => if Nat.eqb k 0 then T4 u v else (RtoC (1 / 4) * T4 u v)%C | _ => RtoC 0 end) in
  nd_calculate_dmd_state ex4 (nd_of (T2 2 4 F4)) target MSimple None None (fun _ => 0) = (Some (NBool t), Ok (Fin eta)) /\ nsh t = [4; 2; 2]%nat /\
  forall i j, (i < 2)%nat -> (j < 4)%nat -> nel t [j; i; 1%nat] = false.
Proof.
  set (T := fun (b : list nat) u v => match b with [k] => if Nat.eqb k 0 then T4 u v else (RtoC (1 / 4) * T4 u v)%C | _ => RtoC 0 end).
  set (target := Nd [4; 2; 2]%nat (fun ix => match ix with [v; u; k] => if Nat.eqb k 0 then T4 u v else (RtoC (1 / 4) * T4 u v)%C | _ => RtoC 0 end)).
  set (F := fun _ : list nat => F4). set (W := fun (_ : list nat) (_ _ : nat) => RtoC 1).
  assert (V1 : forall k, (k < 2)%nat -> valid [2%nat] [k]) by (intros k Hk; apply Forall2_cons; [exact Hk|apply Forall2_nil]).
  assert (Sc : forall i j, windowed ex4 (T [1%nat]) (W [1%nat]) i j = (RtoC (1 / 4) * windowed ex4 (T [0%nat]) (W [0%nat]) i j)%C).
  { intros i j. unfold windowed, W, spectrum_of. rewrite !Cmult_1_r, <- csum2_scal_l. apply csum2_ext. intros u v _ _. unfold T. cbn [Nat.eqb]. ring. }
  destruct ex4_reads as (_ & _ & _ & Hp & Hy & Hx & Hs & _). destruct ex4_bright as (Hd & i0 & j0 & Hij & Hn).
  destruct (C140_stack ex4 [2%nat] (nd_of (T2 2 4 F4)) target None F T W None (fun _ => 0)) as (M & HM & HA & _ & _ & (t & E & St & V) & _).
  - left. split; [reflexivity|]. intros b i j _ _. reflexivity.
  - right. split; [reflexivity|]. intros b i j Hb _. inversion Hb as [|k ? b' ? Hk Hb']; subst. inversion Hb'; subst. reflexivity.
  - intros b i j. reflexivity.
  - right. left. reflexivity.
  - exact Hp.
  - exact Hy.
  - exact Hx.
  - repeat constructor.
  - exact Hs.
  - intros b i j _ _ Z. destruct (F4_bright i j Z).
  - exists [0%nat], i0, j0. split; [apply V1; lia|]. split; [exact Hij|exact Hn].
  - cbv beta zeta in *. exists t, (eta_scale (d_slm ex4) / M). split; [exact E|]. split; [exact St|]. intros i j Hi Hj.
    destruct (nel t [j; i; 1%nat]) eqn:Q; [|reflexivity]. exfalso. assert (I : in_array ex4 i j) by (split; assumption). apply (V [1%nat] i j (V1 1%nat ltac:(lia)) I) in Q.
    rewrite Sc in Q. rewrite Cmod_mult, Cmod_R, (Rabs_pos_eq (1 / 4)) in Q by lra.
    assert (L := HA [0%nat] i j (V1 0%nat ltac:(lia)) I).
    replace (1 / 4 * Cmod (windowed ex4 (T [0%nat]) (W [0%nat]) i j) / Cmod (F [1%nat] i j) / M) with (1 / 4 * (Cmod (windowed ex4 (T [0%nat]) (W [0%nat]) i j) / Cmod (F [0%nat] i j) / M)) in Q by (unfold F, Rdiv; ring).
    revert L Q. generalize (Cmod (windowed ex4 (T [0%nat]) (W [0%nat]) i j) / Cmod (F [0%nat] i j) / M). intros a L Q.
    match type of Q with context [cos ?x] => assert (K := COS_bound x); revert K Q; generalize (cos x) end. intros c K Q. nra.
Qed.

(** ** C141 *)
(** The packed bytes of a stack are those of its patterns one after the other, provided a pattern fills whole bytes; otherwise there are fewer bytes. *)
Theorem C141_pack : forall d t ny nx K, nsh t = [nx; ny; K] -> ((ny * nx) mod 8 = 0)%nat -> exists p : nat -> list Z,
  nd_pack (NBool t) = Ok (concat (map p (seq 0 K))) /\
  forall k, pack_dmd_state (with_state d (DBool ny nx (fun i j => nel t [j; i; k]))) = Ok (p k).
Proof. exact stack_pack. Qed.
Print Assumptions C141_pack.
Theorem C141_bytes : forall t ny nx K, nsh t = [nx; ny; K] -> exists l, nd_pack (NBool t) = Ok l /\ length l = ((K * (ny * nx) + 7) / 8)%nat.
Proof. exact stack_pack_size. Qed.
Print Assumptions C141_bytes.
(** The simulation accepts no stack: tf.pad raises, and only the input field has been replaced. *)
Theorem C141_simulation :
  (forall s st m inp nx ny n B, (0 <= pad_x m)%Z -> (0 <= pad_y m)%Z -> nsh inp = [nx; ny] ->
     match st with NBool t => nsh t = nx :: ny :: n :: B | NFloat t => nsh t = nx :: ny :: n :: B end ->
     exists fin, nd_propagate s st m inp = (with_fields m (Some fin) (f_output m) (f_image m), Err ETensorFlow) /\
       tf_pad (pad_y m) (pad_x m) (T2 ny nx (fun i j => nel inp [j; i])) = Ok fin) /\
  (forall s st m inp nx ny n B, nsh inp = nx :: ny :: n :: B -> nd_propagate s st m inp = (m, Err ETensorFlow)).
Proof. exact (conj stack_propagate stack_input). Qed.
Print Assumptions C141_simulation.
(** Two patterns of 2 x 4 mirrors, all on and all off; two of 3 x 3 share a byte. *)
Example C141_case :
  nd_pack (NBool (Nd [4; 2; 2]%nat (fun ix => Nat.eqb (nth 2 ix 0%nat) 0))) = Ok [255; 0]%Z /\
  nd_pack (NBool (Nd [3; 3; 2]%nat (fun ix => Nat.eqb (nth 2 ix 0%nat) 0))) = Ok [255; 128; 0]%Z.
Proof. split; reflexivity. Qed.
