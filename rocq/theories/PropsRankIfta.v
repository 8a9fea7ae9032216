(** IFTA on stacks of targets (C144). *)
From Coq Require Import Reals Lra Lia ZArith Arith List Bool.
From Coquelicot Require Import Complex.
From Verif Require Import Cx Sums PyBase ProfileModel SlmModel LibModel DmdModel SimModel SimSpec DmdSpec DmdExamples SimExamples HoloSpec RankModel RankSpec RankLcosModel RankLcosSpec RankIftaModel RankIftaSpec RankIftaFacts RankIftaFacts2.
Import ListNotations.
Open Scope R_scope.

(** For scalars and arrays with two axes the calls are those of the other theorems. *)
Theorem C144_two_axes : forall h d input target w sw N s u v, (forall i j, v [j; i] = u i j) ->
  agrees d (nd_calculate_ifta d (nd_of input) (nd_of target) (option_map nd_of w) (option_map nd_of sw) N s)
    (calculate_dmd_state h d (ATensorC input) (ATensorC target) MIfta (option_map ATensorC w) {| k_r := None; k_N := N; k_s := s; k_window := option_map ATensorC sw; k_input := None |} u).
Proof. exact ifta_two_axes. Qed.
Print Assumptions C144_two_axes.
(** Pattern b of a stack is the pattern of the call for image b alone, with s multiplied by the quotient of the two efficiencies and with the signal window
    half a stack further on; the efficiency is that of method "ideal" for the stack. *)
Theorem C144_stack : forall h d B input target w sw F T W V N s0 u0 u,
  stack_of d B input F -> stack_of d B target T -> stack_window d B w W -> deep d B input \/ deep d B target \/ deep_window d B w ->
  d_p d <> 0 -> (0 < s_Ny (d_slm d))%nat -> (0 < s_Nx (d_slm d))%nat -> Forall (fun n => (0 < n)%nat) B -> scaling_factor (d_slm d) <> 0 ->
  (forall b i j, valid B b -> in_array d i j -> F b i j = RtoC 0 -> windowed d (T b) (W b) i j = RtoC 0) ->
  (exists b i j, valid B b /\ in_array d i j /\ windowed d (T b) (W b) i j <> RtoC 0) ->
  nsh sw <> [] -> spread (d_slm d) B sw V ->
  exists t eta, nd_calculate_ifta d input target w (Some sw) N s0 = (Some (NBool t), Ok (Fin eta)) /\ nsh t = s_Nx (d_slm d) :: s_Ny (d_slm d) :: B /\
  (exists t0, nd_calculate_dmd_state d input target MIdeal w None u = (Some (NFloat t0), Ok (Fin eta))) /\
  (forall b, valid B b -> (exists i j, in_array d i j /\ windowed d (T b) (W b) i j <> RtoC 0) ->
     exists rho f eta_b, 0 < rho <= 1 /\ eta = rho * eta_b /\
       alone_ifta h d F T W V w b (half_on B b) N (dflt s0 1 * rho) u0 = (with_state d (DBool (s_Ny (d_slm d)) (s_Nx (d_slm d)) f), Ok (Fin eta_b)) /\
       forall i j, in_array d i j -> nel t (j :: i :: b) = f i j) /\
  (forall b, valid B b -> (forall i j, in_array d i j -> windowed d (T b) (W b) i j = RtoC 0) -> forall i j, in_array d i j -> nel t (j :: i :: b) = false).
Proof. exact ifta_stack. Qed.
Print Assumptions C144_stack.
(** A missing signal window, one without axes and one that cannot be spread over the patterns raise; dmd_state stays. *)
Theorem C144_raises : forall d B input target w F T W N s0,
  stack_of d B input F -> stack_of d B target T -> stack_window d B w W -> deep d B input \/ deep d B target \/ deep_window d B w ->
  d_p d <> 0 -> (0 < s_Ny (d_slm d))%nat -> (0 < s_Nx (d_slm d))%nat -> Forall (fun n => (0 < n)%nat) B -> scaling_factor (d_slm d) <> 0 ->
  (forall b i j, valid B b -> in_array d i j -> F b i j = RtoC 0 -> windowed d (T b) (W b) i j = RtoC 0) ->
  (exists b i j, valid B b /\ in_array d i j /\ windowed d (T b) (W b) i j <> RtoC 0) ->
  nd_calculate_ifta d input target w None N s0 = (None, Err KeyError) /\
  forall sw, nsh sw = [] \/ ~ fits (nsh sw) (s_Nx (d_slm d) :: s_Ny (d_slm d) :: B) -> nd_calculate_ifta d input target w (Some sw) N s0 = (None, Err ETensorFlow).
Proof.
  intros d B input target w F T W N s0 HF HT HW Hd Hp Hy Hx HB Hs Hk Hl. split; [exact (ifta_stack_missing d B input target w F T W N s0 (fun _ => 0) HF HT HW Hd Hp Hy Hx HB Hs Hk Hl)|].
  exact (ifta_stack_bad d B input target w F T W N s0 (fun _ => 0) HF HT HW Hd Hp Hy Hx HB Hs Hk Hl).
Qed.
Print Assumptions C144_raises.
(** A bright and a dark target with one signal window that is 1 everywhere; three signal windows for the two raise. *)
Example C144_case : exists t eta,
  let target := Nd [4; 2; 2]%nat (fun ix => match ix with [v; u; k] => if Nat.eqb k 0 then T4 u v else RtoC 0 | _ => RtoC 0 end) in
  nd_calculate_ifta ex4 (nd_of (T2 2 4 F4)) target None (Some (Nd [1; 1]%nat (fun _ => RtoC 1))) (Some 3%Z) None = (Some (NBool t), Ok (Fin eta)) /\ nsh t = [4; 2; 2]%nat /\
  (forall i j, (i < 2)%nat -> (j < 4)%nat -> nel t [j; i; 1%nat] = false) /\
  nd_calculate_ifta ex4 (nd_of (T2 2 4 F4)) target None (Some (Nd [4; 2; 3]%nat (fun _ => RtoC 1))) (Some 3%Z) None = (None, Err ETensorFlow).
Proof.
  set (T := fun (b : list nat) u v => match b with [k] => if Nat.eqb k 0 then T4 u v else RtoC 0 | _ => RtoC 0 end).
  set (target := Nd [4; 2; 2]%nat (fun ix => match ix with [v; u; k] => if Nat.eqb k 0 then T4 u v else RtoC 0 | _ => RtoC 0 end)).
  set (F := fun _ : list nat => F4). set (W := fun (_ : list nat) (_ _ : nat) => RtoC 1).
  assert (V1 : forall k, (k < 2)%nat -> valid [2%nat] [k]) by (intros k Hk; apply Forall2_cons; [exact Hk|apply Forall2_nil]).
  assert (Z1 : forall i j, windowed ex4 (T [1%nat]) (W [1%nat]) i j = RtoC 0).
  { intros i j. unfold windowed, W, spectrum_of. rewrite Cmult_1_r. apply csum2_0. intros u v _ _. unfold T. cbn [Nat.eqb]. ring. }
  destruct ex4_reads as (_ & _ & _ & Hp & Hy & Hx & Hs & _). destruct ex4_bright as (Hd & i0 & j0 & Hij & Hn).
  assert (H1 : stack_of ex4 [2%nat] (nd_of (T2 2 4 F4)) F) by (left; split; [reflexivity|]; intros b i j _ _; reflexivity).
  assert (H2 : stack_of ex4 [2%nat] target T) by (right; split; [reflexivity|]; intros b i j Hb _; inversion Hb as [|k ? b' ? Hk Hb']; subst; inversion Hb'; subst; reflexivity).
  assert (H3 : stack_window ex4 [2%nat] None W) by (intros b i j; reflexivity).
  assert (H4 : deep ex4 [2%nat] (nd_of (T2 2 4 F4)) \/ deep ex4 [2%nat] target \/ deep_window ex4 [2%nat] None) by (right; left; reflexivity).
  assert (H5 : Forall (fun n => (0 < n)%nat) [2%nat]) by (repeat constructor).
  assert (H6 : forall b i j, valid [2%nat] b -> in_array ex4 i j -> F b i j = RtoC 0 -> windowed ex4 (T b) (W b) i j = RtoC 0) by (intros b i j _ _ Z; destruct (F4_bright i j Z)).
  assert (H7 : exists b i j, valid [2%nat] b /\ in_array ex4 i j /\ windowed ex4 (T b) (W b) i j <> RtoC 0) by (exists [0%nat], i0, j0; split; [apply V1; lia|]; split; [exact Hij|exact Hn]).
  destruct (C144_stack ex_heap ex4 [2%nat] (nd_of (T2 2 4 F4)) target None (Nd [1; 1]%nat (fun _ => RtoC 1)) F T W W (Some 3%Z) None (fun _ _ => 0) (fun _ => 0) H1 H2 H3 H4 Hp Hy Hx H5 Hs H6 H7) as (t & eta & E & St & _ & _ & Dk).
  - discriminate.
  - split; [cbn; auto|]. intros; reflexivity.
  - exists t, eta. split; [exact E|]. split; [exact St|]. split.
    + intros i j Hi Hj. apply (Dk [1%nat]); [apply V1; lia|intros; apply Z1|split; assumption].
    + apply (C144_raises ex4 [2%nat] (nd_of (T2 2 4 F4)) target None F T W (Some 3%Z) None H1 H2 H3 H4 Hp Hy Hx H5 Hs H6 H7). right. cbn. intros (_ & _ & [Q|Q] & _); discriminate Q.
Qed.
