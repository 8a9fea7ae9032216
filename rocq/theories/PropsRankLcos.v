(** Stacks of LCOS holograms: arrays of any rank (C142), and their order (C143). *)
From Coq Require Import Reals Lra Lia ZArith Arith List Bool.
From Coquelicot Require Import Complex.
From Verif Require Import Cx Sums PyBase ProfileModel SlmModel LibModel DmdModel SimModel SimSpec HoloSpec RankModel RankSpec RankLcosModel RankLcosSpec RankLcosFacts RankLcosFacts2.
Import ListNotations.
Open Scope R_scope.

(** For scalars and arrays with two axes the calls are those of the other theorems. *)
Theorem C142_two_axes : forall h l input target m window N mix u v, (forall i j, v [j; i] = u i j) ->
  agrees_lcos l (nd_calculate_hologram (nd_of input) (nd_of target) m (option_map nd_of window) N mix v)
    (calculate_hologram h l (ATensorC input) (ATensorR target) m {| lk_N := N; lk_window := option_map ATensorC window; lk_mix := mix |} u).
Proof. exact lcos_two_axes. Qed.
Print Assumptions C142_two_axes.
(** A stack of inputs, with targets that can be spread over it: hologram b of the result is what a call stores for input b and random numbers b alone, but
    with the target half a stack further on. *)
Theorem C142_gs : forall h l B input target F T N u, let s := l_slm l in
  nsh input = s_Nx s :: s_Ny s :: B -> spread s B input F -> nsh target <> [] -> spread s B target T -> forall w mix W,
  exists t, nd_calculate_hologram input target MGs w N mix u = (Some t, Ok tt) /\ nsh t = s_Nx s :: s_Ny s :: B /\
  forall b, valid B b -> exists phi, stores s (alone_lcos h l F T W b (half_on B b) MGs N mix u) phi /\ forall i j, in_slm s i j -> nel t (j :: i :: b) = phi i j.
Proof. exact gs_stack. Qed.
Print Assumptions C142_gs.
Theorem C142_mraf : forall h l B input target F T N u, let s := l_slm l in
  nsh input = s_Nx s :: s_Ny s :: B -> spread s B input F -> nsh target <> [] -> spread s B target T -> forall w mix W, nsh w <> [] -> spread s B w W ->
  exists t, nd_calculate_hologram input target MMraf (Some w) N mix u = (Some t, Ok tt) /\ nsh t = s_Nx s :: s_Ny s :: B /\
  forall b, valid B b -> exists phi, stores s (alone_lcos h l F T W b (half_on B b) MMraf N mix u) phi /\ forall i j, in_slm s i j -> nel t (j :: i :: b) = phi i j.
Proof. exact mraf_stack. Qed.
Print Assumptions C142_mraf.
(** All other calls raise and leave slm_state: an unknown method, a missing window, an input with fewer than two axes, a target or window without axes or with
    a shape that cannot be spread over the input, whatever the number of iterations. *)
Theorem C142_raises : forall input target m w N mix u,
  (m = MLUnknown -> nd_calculate_hologram input target m w N mix u = (None, Err ValueError)) /\
  (m = MMraf -> w = None -> nd_calculate_hologram input target m w N mix u = (None, Err KeyError)) /\
  (m = MGs \/ (m = MMraf /\ w <> None) ->
   ~ ((2 <= length (nsh input))%nat /\ (nsh target <> [] /\ fits (nsh target) (nsh input)) /\ (m = MMraf -> forall v, w = Some v -> nsh v <> [] /\ fits (nsh v) (nsh input))) ->
   nd_calculate_hologram input target m w N mix u = (None, Err ETensorFlow)).
Proof. exact raises_any. Qed.
Print Assumptions C142_raises.
(** One input for a stack of targets raises; one target, or one row of a target, for a stack of inputs does not. *)
Example C142_case : let s := row2 in
  (forall u, nd_calculate_hologram (Nd [2; 1]%nat (fun _ => RtoC 1)) spot_stack MGs None None None u = (None, Err ETensorFlow)) /\
  nsh flat_stack = s_Nx s :: s_Ny s :: [2%nat] /\ spread s [2%nat] flat_stack (fun _ _ _ => RtoC 1) /\ spread s [2%nat] spot_stack spot_of /\
  half_on [2%nat] [0%nat] = [1%nat] /\ half_on [3; 5]%nat [2; 4]%nat = [0; 1]%nat /\
  spread s [2%nat] (Nd [2%nat] (fun ix => match ix with [j] => INR j | _ => 0 end)) (fun _ _ j => INR j) /\
  spread s [2%nat] (Nd [1; 1; 1]%nat (fun _ => RtoC 1)) (fun _ _ _ => RtoC 1).
Proof.
  cbv zeta. split; [|split; [reflexivity|split; [exact flat_spread|split; [exact spot_spread|split; [reflexivity|split; [reflexivity|split]]]]]].
  - intros u. apply (proj2 (proj2 (raises_any (Nd [2; 1]%nat (fun _ => RtoC 1)) spot_stack MGs None None None u))); [left; reflexivity|]. intros (_ & (_ & H) & _). cbn in H. tauto.
  - split; [cbn; tauto|]. intros; reflexivity.
  - split; [cbn; tauto|]. intros; reflexivity.
Qed.
(** Not so: the holograms of a stack of targets are in the order of the targets. Two images are exchanged. *)
Theorem C143_in_order_refuted : ~ (forall h l B input target F T W N u, let s := l_slm l in
  nsh input = s_Nx s :: s_Ny s :: B -> nsh target = nsh input -> spread s B input F -> spread s B target T ->
  forall t, nd_calculate_hologram input target MGs None N None u = (Some t, Ok tt) ->
  forall b, valid B b -> exists phi, stores s (alone_lcos h l F T W b b MGs N None u) phi /\ forall i j, in_slm s i j -> nel t (j :: i :: b) = phi i j).
Proof. exact in_order_refuted. Qed.
Print Assumptions C143_in_order_refuted.
