(** Gratings from stacks of arguments, and circular patches with stacks (C152, C153). *)
From Coq Require Import Reals Lra Lia ZArith Arith List Bool.
From Verif Require Import Cx PyBase ProfileModel SlmModel LibModel DmdModel RankModel RankSpec RankPatchModel RankPatchSpec RankPatchFacts RankPatchFacts2 RankPatchFacts3.
Import ListNotations.
Open Scope R_scope.

(** Numbers and arrays with two axes: the calls of the other theorems. *)
Theorem C152_two_axes : forall h d st amp pin pout m kw u v, m <> MIfta -> (forall i j, v [j; i] = u i j) -> same_state st (d_state d) ->
  (same_state (fst (nd_set_grating d st (nd_of amp) (nd_of pin) (nd_of pout) m (k_r kw) v)) (d_state (fst (set_dmd_grating_state h d (ATensorR amp) (ATensorR pin) (ATensorR pout) m kw u))) /\
   snd (nd_set_grating d st (nd_of amp) (nd_of pin) (nd_of pout) m (k_r kw) v) = snd (set_dmd_grating_state h d (ATensorR amp) (ATensorR pin) (ATensorR pout) m kw u)) /\
  forall ci cj diam,
   same_state (fst (nd_circular_patch d st ci cj (nd_of amp) (nd_of pin) (nd_of pout) diam m (k_r kw) v))
     (d_state (fst (circular_patch h d ci cj (ATensorR amp) (ATensorR pin) (ATensorR pout) diam m kw u))) /\
   snd (nd_circular_patch d st ci cj (nd_of amp) (nd_of pin) (nd_of pout) diam m (k_r kw) v) = snd (circular_patch h d ci cj (ATensorR amp) (ATensorR pin) (ATensorR pout) diam m kw u).
Proof. exact (fun h d st amp pin pout m kw u v Hm Hv Hs => conj (set_two h d st amp pin pout m kw u v Hm Hv Hs) (fun ci cj diam => patch_two h d st ci cj amp pin pout diam m kw u v Hm Hv Hs)). Qed.
Print Assumptions C152_two_axes.
(** Whatever the ranks: if the call succeeds, every image of the stack is the grating of what the arguments have for that image. *)
Theorem C152_images : forall h d st amp pin pout m r kw u st', k_r kw = r -> m <> MIfta -> nd_set_grating d st amp pin pout m r u = (st', Ok tt) ->
  exists ny nx B, state_shape st' = nx :: ny :: B /\ forall b, valid B b -> exists s,
    set_dmd_grating_state h d (image_arg amp ny nx b) (image_arg pin ny nx b) (image_arg pout ny nx b) m kw (fun i j => u (j :: i :: b)) = (with_state d s, Ok tt) /\
    same_pattern s (image_state st' ny nx b).
Proof. exact images_ok. Qed.
Print Assumptions C152_images.
(** It does succeed when every argument is a number, an image, one number for every image, or a stack of images. *)
Theorem C152_accepted : forall d B st amp pin pout m r u, stack_arg d B amp -> stack_arg d B pin -> stack_arg d B pout -> deep_arg d B amp \/ deep_arg d B pin \/ deep_arg d B pout ->
  m = MIdeal \/ m = MSimple \/ m = MRandom ->
  exists st', nd_set_grating d st amp pin pout m r u = (st', Ok tt) /\ state_shape st' = s_Nx (d_slm d) :: s_Ny (d_slm d) :: B.
Proof. exact stack_accepted. Qed.
Print Assumptions C152_accepted.
Theorem C152_uneven : forall d st amp pin pout m r u K L nx ny, m <> MUnknown -> m <> MIfta -> nsh amp = [nx; ny; K] -> nsh pin = [nx; ny; L] -> K <> L -> K <> 1%nat -> L <> 1%nat ->
  nd_set_grating d st amp pin pout m r u = (st, Err ETensorFlow).
Proof. exact uneven_gratings. Qed.
Print Assumptions C152_uneven.
(** circular_patch with stacks of arguments raises on a panel showing one pattern ... *)
Theorem C152_patch_of_stack : forall d st ci cj amp pin pout diam m r u, length (state_shape st) = 2%nat -> (2 < length (nsh amp) \/ 2 < length (nsh pin) \/ 2 < length (nsh pout))%nat ->
  exists e, nd_circular_patch d st ci cj amp pin pout diam m r u = (st, Err e).
Proof. exact patch_refuses_stacks. Qed.
Print Assumptions C152_patch_of_stack.
(** ... and on a stack of patterns, unless its first two axes happen to have the sizes of the panel; a stack along one axis on a panel that is not
    square never has. *)
Theorem C152_patch_on_stack : (forall d st ci cj amp pin pout diam m r u, ~ first_axes (state_shape st) (s_Ny (d_slm d)) (s_Nx (d_slm d)) ->
    exists e, nd_circular_patch d st ci cj amp pin pout diam m r u = (st, Err e)) /\
  (forall nx ny K, ny <> nx -> ~ first_axes [nx; ny; K] ny nx).
Proof. exact (conj patch_refuses one_stack_axis). Qed.
Print Assumptions C152_patch_on_stack.
(** On a square panel they do have them if the stack has as many patterns as the panel has rows, and so on for further axes. Then the call still raises
    unless exactly one mirror, or exactly one row's worth of mirrors, lies inside the circle. *)
Theorem C152_patch_counts : forall d n b st ci cj amp pin pout diam m r u, s_Ny (d_slm d) = n -> s_Nx (d_slm d) = n -> stack_arg d (repeat n b) amp -> stack_arg d (repeat n b) pin -> stack_arg d (repeat n b) pout ->
  deep_arg d (repeat n b) amp \/ deep_arg d (repeat n b) pin \/ deep_arg d (repeat n b) pout -> m = MIdeal \/ m = MSimple \/ m = MRandom ->
  state_shape st = repeat n (b + 3) -> length (mirrors_inside n ci cj diam) <> n -> length (mirrors_inside n ci cj diam) <> 1%nat ->
  exists e, nd_circular_patch d st ci cj amp pin pout diam m r u = (st, Err e).
Proof. exact patch_counts. Qed.
Print Assumptions C152_patch_counts.
(** Three of the four mirrors of a small panel. *)
Example C152_three_mirrors : length (mirrors_inside 2 (1 / 2) (1 / 2) 2) = 4%nat /\ mirrors_inside 2 0 0 (5 / 2) = [(0, 0); (0, 1); (1, 0)]%nat.
Proof. exact three_mirrors. Qed.
(** Two phases, given as an array with the axes (2, 1, 1), on a panel of 2 x 4 mirrors; and a patch on the result. *)
Example C152_case : let d := dmd_new 1 1 4 0 4 2 1 false in let phases := Nd [1; 1; 2]%nat (fun ix => match ix with [_; _; k] => PI * INR k | _ => 0 end) in
  exists st', nd_set_grating d (NBool (nd_of (T2 2 4 (fun _ _ => false)))) (Nd [] (fun _ => 1)) (Nd [] (fun _ => 0)) phases MSimple None (fun _ => 0) = (st', Ok tt) /\ state_shape st' = [4; 2; 2]%nat /\
  exists e, nd_circular_patch d st' 0 0 (Nd [] (fun _ => 1)) (Nd [] (fun _ => 0)) (Nd [] (fun _ => 0)) 2 MSimple None (fun _ => 0) = (st', Err e).
Proof.
  intros d phases. destruct (stack_accepted d [2%nat] (NBool (nd_of (T2 2 4 (fun _ _ => false)))) (Nd [] (fun _ => 1)) (Nd [] (fun _ => 0)) phases MSimple None (fun _ => 0)) as (st' & E & S); unfold stack_arg, deep_arg; cbn [nsh phases]; auto.
  exists st'. split; [exact E|]. split; [exact S|]. apply patch_refuses. rewrite S. apply one_stack_axis. cbn. lia.
Qed.

(** The claim: a patch changes mirrors inside its circle only, in every pattern of a stack. False: on a square panel showing as many patterns as it
    has rows, the mask selects patterns and rows instead of mirrors. *)
Definition patch_stays_inside : Prop := forall d t ci cj amp pin pout diam m r u t' nx ny K, nsh t = [nx; ny; K] -> s_Nx (d_slm d) = nx -> s_Ny (d_slm d) = ny ->
  nd_circular_patch d (NBool t) ci cj amp pin pout diam m r u = (NBool t', Ok tt) ->
  forall k i j, (k < K)%nat -> (i < ny)%nat -> (j < nx)%nat -> (diam / 2) ^ 2 <= (INR j - cj) ^ 2 + (INR i - ci) ^ 2 -> nel t' [j; i; k] = nel t [j; i; k].
Theorem C153_patch_stays_inside_refuted : ~ patch_stays_inside.
Proof.
  intros H. destruct (square_patch (fun _ => 0)) as (t & E & S & F & _).
  pose proof (H sq_dmd (Nd [2; 2; 2]%nat (fun _ => true)) _ _ _ _ _ _ _ _ _ t 2%nat 2%nat 2%nat eq_refl eq_refl eq_refl E 0%nat 1%nat 0%nat ltac:(lia) ltac:(lia) ltac:(lia)) as G.
  rewrite (F 1%nat 0%nat) in G by lia. cbn [nel] in G. enough (false = true) by discriminate. apply G. cbn [INR]. lra.
Qed.
Print Assumptions C153_patch_stays_inside_refuted.
(** Two patterns, all mirrors on; a dark patch around the upper two mirrors turns off the whole first pattern and none of the second one. *)
Theorem C153_square_panel : forall u, exists t,
  nd_circular_patch (dmd_new 1 1 4 0 2 2 1 false) (NBool (Nd [2; 2; 2]%nat (fun _ => true))) 0 (1 / 2) (Nd [] (fun _ => 0)) (Nd [] (fun _ => 0)) (Nd [] (fun _ => 0)) (6 / 5) MSimple None u = (NBool t, Ok tt) /\
  nsh t = [2; 2; 2]%nat /\
  (forall i j, (i < 2)%nat -> (j < 2)%nat -> nel t [j; i; 0%nat] = false) /\ (forall i j, (i < 2)%nat -> (j < 2)%nat -> nel t [j; i; 1%nat] = true).
Proof. exact square_patch. Qed.
Print Assumptions C153_square_panel.
