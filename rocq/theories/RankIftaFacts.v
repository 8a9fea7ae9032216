(** IFTA on arrays of any rank. *)
From Coq Require Import Reals Lra ZArith Arith List Bool Lia.
From Coquelicot Require Import Complex.
From Verif Require Import Cx Sums DFT PyBase ProfileModel SlmModel LibModel DmdModel SimModel SimSpec DmdSpec HoloSpec RowFacts RankModel RankSpec RankFacts RankFacts2 RankFacts3 RankFacts4 RankLcosModel RankLcosSpec RankLcosFacts RankLcosFacts2 RankIftaModel.
Import ListNotations.
Open Scope R_scope.

Section Shape.
Variables (nx ny : nat) (B : list nat).
Notation over := (RankLcosFacts.over nx ny B).
Notation whole := (RankLcosFacts.whole nx ny B).
Lemma whole_offt a f : whole a f -> exists r, nofft2 a = Ok r /\ whole r (glue None (fun b => offt2 ny nx (cutf f b))).
Proof.
  intros [E V]. unfold nofft2. rewrite E. eexists. split; [reflexivity|]. split; [reflexivity|]. intros ix H. destruct (cut _ _ _ _ H) as (j & i & b & -> & Hi & Hj & Hb). cbn [nel glue].
  apply offt2_ext. intros p q Hp Hq. apply V. apply join3; assumption.
Qed.
Lemma whole_oifft a f : whole a f -> exists r, noifft2 a = Ok r /\ whole r (glue None (fun b => oifft2 ny nx (cutf f b))).
Proof.
  intros [E V]. unfold noifft2. rewrite E. eexists. split; [reflexivity|]. split; [reflexivity|]. intros ix H. destruct (cut _ _ _ _ H) as (j & i & b & -> & Hi & Hj & Hb). cbn [nel glue].
  apply oifft2_ext. intros p q Hp Hq. apply V. apply join3; assumption.
Qed.
Lemma ifta_step_any input F W V ideal q t g p : over input F -> over W V -> whole ideal q -> whole g p ->
  exists r, nd_ifta_step input W ideal t g = Ok r /\ whole r (glue None (fun b => ifta_step ny nx (cutf F b) (cutf V b) (cutf q b) t (cutf p b))).
Proof.
  intros Sf Sw Sq Sg. unfold nd_ifta_step.
  destruct (over_left nx ny B omul _ _ _ _ Sf (whole_map nx ny B (fun v => ifta_binarize v t) _ _ Sg)) as (mo & -> & Sm). cbn [rbind].
  destruct (whole_oifft _ _ Sm) as (im & -> & Si). cbn [rbind]. unfold nd_ifta_correct.
  destruct (over_left nx ny B (olift2 Cminus) _ _ _ _ (whole_over _ _ _ _ _ Sq) Si) as (di & -> & Sd). cbn [rbind].
  destruct (over_right nx ny B (fun a w => olift2 Cmult a (Some w)) _ _ _ _ Sd Sw) as (dw & -> & Sdw). cbn [rbind].
  destruct (over_left nx ny B (olift2 Cplus) _ _ _ _ (whole_over _ _ _ _ _ Sdw) Si) as (co & -> & Sc). cbn [rbind].
  destruct (whole_offt _ _ Sc) as (ba & -> & Sb). cbn [rbind].
  destruct (over_right nx ny B (fun z e => match z with Some z => if C_dec0 e then None else Some (fst (z / e)%C) | None => None end) _ _ _ _ Sb Sf) as (qu & -> & Su). cbn [rbind].
  destruct (over_left nx ny B (fun e v => if C_dec0 e then Some 0 else v) _ _ _ _ Sf Su) as (r & -> & Sr). exists r. split; [reflexivity|].
  eapply whole_ext; [exact Sr|]. intros b i j Hb Hi Hj. cbn [glue]. unfold ifta_step. change (cutf F b i j) with (F (j :: i :: b)). destruct (C_dec0 (F (j :: i :: b))) as [Z|Z]; [reflexivity|].
  rewrite (offt2_ext ny nx (cutf _ b) (fun i0 j0 => ifta_correct (oifft2 ny nx (fun i j => omul (cutf F b i j) (ifta_binarize (cutf p b i j) t)) i0 j0) (cutf q b i0 j0) (cutf V b i0 j0))); [reflexivity|].
  intros i0 j0 _ _. unfold cutf at 1. cbn [glue]. unfold ifta_correct. change (q (j0 :: i0 :: b)) with (cutf q b i0 j0).
  change (oifft2 ny nx (cutf (fun ix => omul (F ix) (ifta_binarize (p ix) t)) b) i0 j0) with (oifft2 ny nx (fun i j => omul (cutf F b i j) (ifta_binarize (cutf p b i j) t)) i0 j0).
  destruct (oifft2 _ _ _ _ _) as [z|], (cutf q b i0 j0) as [z'|]; reflexivity.
Qed.
Lemma ifta_any g0 G input F sw V N s : whole g0 G -> over input F -> nsh sw <> [] -> over sw V ->
  exists t, nd_ifta g0 input sw N s = Ok t /\ whole t (glue false (fun b => ifta_array ny nx (cutf F b) (cutf V (half_on B b)) (cutf G b) N s)).
Proof.
  intros Sg Sf Nw Sw. unfold nd_ifta. assert (Sg' := whole_map nx ny B (fun a => fin_of (xscale a s)) _ _ Sg).
  destruct (over_left nx ny B omul _ _ _ _ Sf Sg') as (li & -> & Sl). cbn [rbind]. destruct (whole_oifft _ _ Sl) as (id & -> & Si). cbn [rbind].
  destruct (over_shift nx ny B _ _ Nw Sw) as (W & -> & SW). cbn [rbind].
  assert (St := fun t g p => ifta_step_any input F W _ id _ t g p Sf SW Si).
  assert (L : exists out, nd_ifta_loop (nd_ifta_step input W id) N (nmap (fun a => fin_of (xscale a s)) g0) = Ok out /\
    whole out (glue None (fun b => ifta_loop ny nx (cutf F b) (cutf (fun ix => V (half_on (nx :: ny :: B) ix)) b) (cutf (glue None (fun b => oifft2 ny nx (cutf (fun ix => omul (F ix) (fin_of (xscale (G ix) s))) b))) b) N (Z.to_nat N) (cutf (fun ix => fin_of (xscale (G ix) s)) b)))).
  { unfold nd_ifta_loop. destruct (St (0.5 / IZR N) _ _ Sg') as (r & -> & Sr). cbn [rbind]. destruct (list_eq_dec Nat.eq_dec _ _) as [_|Q]; [|exfalso; apply Q; rewrite (proj1 Sr), (proj1 Sg'); reflexivity].
    clear r Sr. induction (Z.to_nat N) as [|k IH]; [eexists; split; [reflexivity|]; eapply whole_ext; [exact Sg'|]; intros; reflexivity|].
    destruct IH as (a & Ea & Sa). cbn [nd_ifta_iter]. rewrite Ea. cbn [rbind]. destruct (St ((INR k + 1) * (0.5 / IZR N)) _ _ Sa) as (r & -> & Sr). exists r. split; [reflexivity|]. eapply whole_ext; [exact Sr|]. intros b i j _ _ _. reflexivity. }
  destruct L as (out & -> & So). cbn [rbind]. eexists. split; [reflexivity|]. eapply whole_ext; [exact (whole_map nx ny B _ _ _ So)|]. intros b i j _ _ _. reflexivity.
Qed.
End Shape.
Lemma ifta_bad g0 nx ny B input sw N s : nsh g0 = nx :: ny :: B -> ~ (fits (nsh input) (nsh g0) /\ nsh sw <> [] /\ fits (nsh sw) (nsh g0)) -> nd_ifta g0 input sw N s = Err ETensorFlow.
Proof.
  intros E0 H. unfold nd_ifta, nmap2, nd_ifta_loop, nd_ifta_step, nd_ifta_correct, nmap2. cbn [nmap nsh]. rewrite E0 in *. destruct (nbshape (nsh input) (nx :: ny :: B)) as [r1|] eqn:E1; [|reflexivity]. cbn [rbind].
  unfold noifft2. cbn [nsh]. destruct r1 as [|a1 [|b1 r1]]; try reflexivity. set (R1 := a1 :: b1 :: r1) in *. cbn [rbind]. unfold nd_ifftshift. destruct (nsh sw) as [|w0 wr] eqn:Ew; [reflexivity|]. cbn [rbind nsh nifftshift].
  rewrite nbshape_same. cbn [rbind nsh]. rewrite Ew. destruct (nbshape R1 (w0 :: wr)) as [r2|] eqn:E2; [|reflexivity]. cbn [rbind nsh].
  destruct (nbshape r2 R1) as [r3|] eqn:E3; [|reflexivity]. cbn [rbind nsh]. unfold nofft2. cbn [nsh]. destruct r3 as [|a3 [|b3 r3]]; try reflexivity. set (R3 := a3 :: b3 :: r3) in *. cbn [rbind nsh].
  destruct (nbshape R3 (nsh input)) as [r4|] eqn:E4; [|reflexivity]. cbn [rbind nsh]. destruct (nbshape (nsh input) r4) as [r5|] eqn:E5; [|reflexivity]. cbn [rbind nsh].
  destruct (list_eq_dec Nat.eq_dec r5 (nx :: ny :: B)) as [Q|_]; [|reflexivity]. exfalso. subst r5. destruct (fits_parts _ _ _ _ E5 (fits_refl _)) as [P1 P4]. destruct (fits_parts _ _ _ _ E4 P4) as [P3 _].
  destruct (fits_parts _ _ _ _ E3 P3) as [P2 _]. destruct (fits_parts _ _ _ _ E2 P2) as [_ Pw]. apply H. split; [exact P1|]. split; [discriminate|exact Pw].
Qed.
