(** Histories of calls on a simulation, its device and the profile objects. *)
From Coq Require Import Reals Lra ZArith Arith List Bool Lia.
From Coquelicot Require Import Complex.
From Verif Require Import Cx Sums DFT PyBase ProfileModel SlmModel LibModel DmdModel SimModel SimSpec GridFacts SimFacts SimFacts2.
Import ListNotations.
Open Scope R_scope.

(** Public actions: the last three change profile attributes or the device between the simulation's calls. *)
Inductive op :=
| Propagate (a : parg) | Block (r : option R) | Clear
| SetHeap (h : heap) | SetDmd (st : dstate) | SetLcos (st : lstate).
Record world := { w_heap : heap; w_dev : device; w_sim : sim }.
Definition step (w : world) (o : op) : world * res unit :=
  match o with
  | Propagate a => let (m, r) := propagate_to_image (w_heap w) (w_dev w) (w_sim w) a in
                   ({| w_heap := w_heap w; w_dev := w_dev w; w_sim := m |}, r)
  | Block r => match w_dev w with
               | DevDmd d => let (m, x) := block_zeroth_order d (w_sim w) r in
                             ({| w_heap := w_heap w; w_dev := w_dev w; w_sim := m |}, x)
               | _ => (w, Err AttributeError)
               end
  | Clear => ({| w_heap := w_heap w; w_dev := w_dev w; w_sim := clear (w_sim w) |}, Ok tt)
  | SetHeap h => ({| w_heap := h; w_dev := w_dev w; w_sim := w_sim w |}, Ok tt)
  | SetDmd st => match w_dev w with
                 | DevDmd d => ({| w_heap := w_heap w; w_dev := DevDmd (with_state d st); w_sim := w_sim w |}, Ok tt)
                 | _ => (w, Err AttributeError)
                 end
  | SetLcos st => match w_dev w with
                  | DevLcos l => ({| w_heap := w_heap w; w_dev := DevLcos {| l_slm := l_slm l; l_state := st |}; w_sim := w_sim w |}, Ok tt)
                  | _ => (w, Err AttributeError)
                  end
  end.
(** Runs in which no call raises. *)
Fixpoint run (w : world) (ops : list op) : option world :=
  match ops with
  | [] => Some w
  | o :: r => match step w o with (w', Ok _) => run w' r | (_, Err _) => None end
  end.
Definition is_result_op (o : op) : bool := match o with Propagate _ | Clear => true | _ => false end.
Definition blocks_of (ops : list op) : list (option R) :=
  flat_map (fun o => match o with Block r => [r] | _ => [] end) ops.
Definition apply_blocks (dev : device) (m : sim) (l : list (option R)) : sim :=
  match dev with DevDmd d => fold_left (fun m r => fst (block_zeroth_order d m r)) l m | _ => m end.
Definition no_result (m : sim) : Prop := f_input m = None /\ f_output m = None /\ f_image m = None.
Definition same_fields (a b : sim) : Prop := f_input a = f_input b /\ f_output a = f_output b /\ f_image a = f_image b.

Lemma run_app w a b : run w (a ++ b) = match run w a with Some w' => run w' b | None => None end.
Proof. revert w; induction a as [|o a IH]; intros w; [reflexivity|]. cbn [app run]. destruct (step w o) as [w' [[]|e]]; auto. Qed.

(** Blocking looks only at geometry and period, never at the mirrors. *)
Definition geom (dev : device) : slm * R :=
  match dev with DevBase s => (s, 0) | DevDmd d => (d_slm d, d_p d) | DevLcos l => (l_slm l, 0) end.
Definition kind (dev : device) : nat := match dev with DevBase _ => 0 | DevDmd _ => 1 | DevLcos _ => 2 end.
Lemma block_geom d d' m r : d_slm d = d_slm d' -> d_p d = d_p d' -> block_zeroth_order d m r = block_zeroth_order d' m r.
Proof. intros H1 H2. unfold block_zeroth_order. rewrite H1, H2. reflexivity. Qed.
Lemma step_geom w o w' : step w o = (w', Ok tt) -> geom (w_dev w') = geom (w_dev w) /\ kind (w_dev w') = kind (w_dev w).
Proof.
  destruct o; cbn [step].
  - destruct propagate_to_image as [m r]; intros E; injection E as <- ->; auto.
  - destruct (w_dev w) eqn:Ed; try discriminate. destruct block_zeroth_order as [m x]; intros E; injection E as <- ->; cbn [w_dev]; auto.
  - intros E; injection E as <-; auto.
  - intros E; injection E as <-; auto.
  - destruct (w_dev w) eqn:Ed; try discriminate. intros E; injection E as <-; auto.
  - destruct (w_dev w) eqn:Ed; try discriminate. intros E; injection E as <-; auto.
Qed.
Lemma run_geom w ops w' : run w ops = Some w' -> geom (w_dev w') = geom (w_dev w) /\ kind (w_dev w') = kind (w_dev w).
Proof.
  revert w; induction ops as [|o ops IH]; cbn [run]; intros w H; [injection H as <-; auto|].
  destruct (step w o) as [w1 [[]|e]] eqn:E; [|discriminate]. apply step_geom in E. apply IH in H. destruct E, H. split; congruence.
Qed.
Lemma block_pads d m r : pad_x (fst (block_zeroth_order d m r)) = pad_x m /\ pad_y (fst (block_zeroth_order d m r)) = pad_y m.
Proof.
  unfold block_zeroth_order. destruct (f_output m); [|auto].
  (destruct image_plane_padded_grid as [x y]; destruct (f_image m); [|auto];
  destruct tmap2; auto).
Qed.
Lemma propagate_pads h dev m a : pad_x (fst (propagate_to_image h dev m a)) = pad_x m /\ pad_y (fst (propagate_to_image h dev m a)) = pad_y m.
Proof.
  unfold propagate_to_image. destruct profile_to_tensor_c; [|auto]. destruct (tf_pad _ _ a0); [|auto].
  destruct (rbind _ _); [|auto]. destruct (tf_pad _ _ a2); [|auto]. destruct Req_EM_T; auto.
Qed.
Lemma step_pads w o : pad_x (w_sim (fst (step w o))) = pad_x (w_sim w) /\ pad_y (w_sim (fst (step w o))) = pad_y (w_sim w).
Proof.
  destruct o; cbn [step]; auto.
  - assert (H := propagate_pads (w_heap w) (w_dev w) (w_sim w) a). destruct propagate_to_image. auto.
  - destruct (w_dev w); auto. assert (H := block_pads d (w_sim w) r). destruct block_zeroth_order. auto.
  - destruct (w_dev w); auto.
  - destruct (w_dev w); auto.
Qed.
Lemma run_pads w ops w' : run w ops = Some w' -> pad_x (w_sim w') = pad_x (w_sim w) /\ pad_y (w_sim w') = pad_y (w_sim w).
Proof.
  revert w; induction ops as [|o ops IH]; cbn [run]; intros w H; [injection H as <-; auto|].
  assert (P := step_pads w o). destruct (step w o) as [w1 [[]|e]]; [|discriminate]. apply IH in H. cbn [fst] in P. destruct P, H. split; congruence.
Qed.
(** A successful propagation overwrites everything: the fields do not depend on the fields before. *)
Lemma propagate_overwrites h dev m1 m2 a m1' : pad_x m1 = pad_x m2 -> pad_y m1 = pad_y m2 ->
  propagate_to_image h dev m1 a = (m1', Ok tt) -> propagate_to_image h dev m2 a = (m1', Ok tt).
Proof.
  intros Ex Ey. unfold propagate_to_image. rewrite <- Ex, <- Ey.
  replace (sim_Nx (dev_slm dev) m2) with (sim_Nx (dev_slm dev) m1) by (unfold sim_Nx; rewrite Ex; reflexivity).
  replace (sim_Ny (dev_slm dev) m2) with (sim_Ny (dev_slm dev) m1) by (unfold sim_Ny; rewrite Ey; reflexivity).
  destruct profile_to_tensor_c; [|discriminate]. destruct (tf_pad _ _ a0); [|discriminate].
  destruct (rbind _ _); [|discriminate]. destruct (tf_pad _ _ a2); [|discriminate]. destruct Req_EM_T; [discriminate|].
  unfold with_fields. rewrite <- Ex, <- Ey. auto.
Qed.

(** What the fields are after a run without failures. *)
Definition history (w0 : world) (ops : list op) (w : world) : Prop :=
  (no_result (w_sim w) /\ exists pre post, (ops = post \/ ops = pre ++ Clear :: post) /\ forallb (fun o => negb (is_result_op o)) post = true)
  \/ exists pre a post wp, ops = pre ++ Propagate a :: post /\ forallb (fun o => negb (is_result_op o)) post = true /\
       run w0 pre = Some wp /\
       w_sim w = apply_blocks (w_dev wp) (fst (propagate_to_image (w_heap wp) (w_dev wp) (clear (w_sim w0)) a)) (blocks_of post).
Lemma history_holds w0 ops w : no_result (w_sim w0) -> run w0 ops = Some w -> history w0 ops w.
Proof.
  intros H0. revert w. induction ops as [|o ops IH] using rev_ind; intros w Hr.
  - injection Hr as <-. left. split; [exact H0|]. exists [], []. auto.
  - rewrite run_app in Hr. destruct (run w0 ops) as [w1|] eqn:E1; [|discriminate]. cbn [run] in Hr.
    destruct (step w1 o) as [w2 [[]|e]] eqn:E2; [|discriminate]. injection Hr as <-.
    specialize (IH w1 eq_refl).
    destruct o.
    + (* Propagate *)
      right. exists ops, a, [], w1. split; [reflexivity|]. split; [reflexivity|]. split; [exact E1|].
      cbn [step] in E2. destruct propagate_to_image as [m r] eqn:Ep. injection E2 as <- ->. cbn [w_sim blocks_of flat_map].
      destruct (run_pads _ _ _ E1) as [P1 P2].
      assert (Hp : propagate_to_image (w_heap w1) (w_dev w1) (clear (w_sim w0)) a = (m, Ok tt))
        by (eapply propagate_overwrites; [| |exact Ep]; assumption).
      rewrite Hp. cbn [fst]. destruct (w_dev w1); reflexivity.
    + (* Block *)
      cbn [step] in E2. destruct (w_dev w1) as [| d |] eqn:Ed; try discriminate.
      destruct (block_zeroth_order d (w_sim w1) r) as [m x] eqn:Eb. injection E2 as <- ->. cbn [w_sim].
      destruct IH as [[Hn _]|(pre & a & post & wp & -> & Hpost & Hpre & Hs)].
      * unfold block_zeroth_order in Eb. destruct Hn as (_ & Hn & _). rewrite Hn in Eb. discriminate.
      * right. exists pre, a, (post ++ [Block r]), wp. split; [rewrite <- app_assoc; reflexivity|].
        split; [rewrite forallb_app, Hpost; reflexivity|]. split; [exact Hpre|].
        assert (G : geom (w_dev w1) = geom (w_dev wp) /\ kind (w_dev w1) = kind (w_dev wp)).
        { rewrite run_app, Hpre in E1. exact (run_geom _ _ _ E1). }
        rewrite Ed in G. destruct G as [G1 G2]. destruct (w_dev wp) as [| dp |]; try discriminate G2.
        cbn [geom] in G1. injection G1 as G1 G3. cbn [w_sim]. cbn [apply_blocks] in Hs |- *. unfold blocks_of. rewrite flat_map_app. cbn [flat_map app].
        rewrite fold_left_app. cbn [fold_left]. unfold blocks_of in Hs. rewrite <- Hs.
        rewrite <- (block_geom d dp) by assumption. rewrite Eb. reflexivity.
    + (* Clear *)
      cbn [step] in E2. injection E2 as <-. left. split; [repeat split|]. exists ops, []. split; [right; reflexivity|reflexivity].
    + cbn [step] in E2. injection E2 as <-. cbn [w_sim].
      destruct IH as [[Hn (pre & post & Hpp & Hpost)]|(pre & a & post & wp & -> & Hpost & Hpre & Hs)].
      * left. split; [exact Hn|]. exists pre, (post ++ [SetHeap h]). split; [|rewrite forallb_app, Hpost; reflexivity].
        destruct Hpp as [-> | ->]; [left; reflexivity|right; rewrite <- app_assoc; reflexivity].
      * right. exists pre, a, (post ++ [SetHeap h]), wp. split; [rewrite <- app_assoc; reflexivity|].
        split; [rewrite forallb_app, Hpost; reflexivity|]. split; [exact Hpre|].
        unfold blocks_of. rewrite flat_map_app. cbn [flat_map]. rewrite app_nil_r. exact Hs.
    + cbn [step] in E2. destruct (w_dev w1) eqn:Ed; try discriminate. injection E2 as <-. cbn [w_sim].
      destruct IH as [[Hn (pre & post & Hpp & Hpost)]|(pre & a & post & wp & -> & Hpost & Hpre & Hs)].
      * left. split; [exact Hn|]. exists pre, (post ++ [SetDmd st]). split; [|rewrite forallb_app, Hpost; reflexivity].
        destruct Hpp as [-> | ->]; [left; reflexivity|right; rewrite <- app_assoc; reflexivity].
      * right. exists pre, a, (post ++ [SetDmd st]), wp. split; [rewrite <- app_assoc; reflexivity|].
        split; [rewrite forallb_app, Hpost; reflexivity|]. split; [exact Hpre|].
        unfold blocks_of. rewrite flat_map_app. cbn [flat_map]. rewrite app_nil_r. exact Hs.
    + cbn [step] in E2. destruct (w_dev w1) eqn:Ed; try discriminate. injection E2 as <-. cbn [w_sim].
      destruct IH as [[Hn (pre & post & Hpp & Hpost)]|(pre & a & post & wp & -> & Hpost & Hpre & Hs)].
      * left. split; [exact Hn|]. exists pre, (post ++ [SetLcos st]). split; [|rewrite forallb_app, Hpost; reflexivity].
        destruct Hpp as [-> | ->]; [left; reflexivity|right; rewrite <- app_assoc; reflexivity].
      * right. exists pre, a, (post ++ [SetLcos st]), wp. split; [rewrite <- app_assoc; reflexivity|].
        split; [rewrite forallb_app, Hpost; reflexivity|]. split; [exact Hpre|].
        unfold blocks_of. rewrite flat_map_app. cbn [flat_map]. rewrite app_nil_r. exact Hs.
Qed.
Lemma block_none_iff d m r : (block_zeroth_order d m r = (m, Err TypeError)) <-> f_output m = None.
Proof.
  unfold block_zeroth_order. destruct (f_output m) eqn:E; [|tauto]. split; [|discriminate].
  (destruct image_plane_padded_grid as [x y]; destruct (f_image m); [|discriminate];
  match goal with |- context [tmap2 ?f ?a ?b] => unfold tmap2, bc2; destruct (bshape (tshape a) (tshape b)) end; discriminate).
Qed.
