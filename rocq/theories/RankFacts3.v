(** Holograms of stacks of targets. *)
From Coq Require Import Reals Lra ZArith Arith List Bool Lia.
From Coquelicot Require Import Complex.
From Verif Require Import Cx Sums DFT PyBase ProfileModel SlmModel LibModel DmdModel SimModel SimSpec DmdSpec GridFacts DmdFacts2 RandomFacts AmpFacts AmpFacts2 AmpFacts3 DmdThms RankModel RankSpec RankFacts2.
Import ListNotations.
Open Scope R_scope.

Lemma valid2 nx ny B ix : valid (nx :: ny :: B) ix -> exists j i b, ix = j :: i :: b /\ (j < nx)%nat /\ (i < ny)%nat /\ valid B b.
Proof. intros H. inversion H as [|j ? ix' ? Hj H']; subst. inversion H' as [|i ? b ? Hi Hb]; subst. exists j, i, b. auto. Qed.
Section Holo.
Variables (d : dmd) (B : list nat) (input target : nd C) (w : option (nd C)) (F T W : list nat -> nat -> nat -> C) (r : option R) (u : list nat -> R).
Let nx := s_Nx (d_slm d). Let ny := s_Ny (d_slm d).
Hypotheses (HF : stack_of d B input F) (HT : stack_of d B target T) (HW : stack_window d B w W)
  (Hdeep : deep d B input \/ deep d B target \/ deep_window d B w)
  (Hp : d_p d <> 0) (Hny : (0 < ny)%nat) (Hnx : (0 < nx)%nat) (HB : Forall (fun n => (0 < n)%nat) B) (Hs : scaling_factor (d_slm d) <> 0)
  (Hdark : forall b i j, valid B b -> in_array d i j -> F b i j = RtoC 0 -> windowed d (T b) (W b) i j = RtoC 0)
  (Hlit : exists b i j, valid B b /\ in_array d i j /\ windowed d (T b) (W b) i j <> RtoC 0).
Let S := fun b i j => windowed d (T b) (W b) i j.
Lemma stack_st a f : stack_of d B a f -> exists X, st nx ny B a f X /\ (deep d B a -> X = B).
Proof.
  intros [[E V]|[E V]].
  - exists []. split; [split; [exact E|split; [left; reflexivity|]]|].
    + intros b i j Hb Hi Hj. cbn [nclip]. apply V; [exact Hb|split; assumption].
    + unfold deep. rewrite E. intros Q. injection Q. auto.
  - exists B. split; [split; [exact E|split; [right; reflexivity|]]|reflexivity].
    intros b i j Hb Hi Hj. rewrite nclip_valid by exact Hb. apply V; [exact Hb|split; assumption].
Qed.
Lemma in_ij i j : in_array d i j <-> (i < ny)%nat /\ (j < nx)%nat. Proof. reflexivity. Qed.
Lemma stack_ratio b i j : valid B b -> (i < ny)%nat -> (j < nx)%nat -> safe_ratio (Cmod (S b i j)) (Cmod (F b i j)) = Fin (Cmod (S b i j) / Cmod (F b i j)).
Proof.
  intros Hb Hi Hj. unfold safe_ratio. destruct (Req_EM_T (Cmod (S b i j)) 0) as [E|E].
  - rewrite E. f_equal. unfold Rdiv. ring.
  - cbn [xdiv]. destruct (Req_EM_T (Cmod (F b i j)) 0) as [E'|E']; [|reflexivity]. apply Cmod_eq_0 in E'.
    exfalso. apply E. unfold S. rewrite (Hdark b i j Hb (conj Hi Hj) E'). apply Cmod_0.
Qed.
(** What _calc_amp_phase returns. *)
Lemma stack_calc : exists M amp pin pout Xi Xo, 0 < M /\
  nd_calc_amp_phase input target w = Ok (amp, pin, pout, Fin M) /\
  st nx ny B amp (fun b i j => Fin (Cmod (S b i j) / Cmod (F b i j) / M)) B /\
  st nx ny B pin (fun b i j => carg (F b i j)) Xi /\ st nx ny B pout (fun b i j => phase_of (S b i j)) Xo /\
  (forall b i j, valid B b -> (i < ny)%nat -> (j < nx)%nat -> 0 <= Cmod (S b i j) / Cmod (F b i j) / M <= 1) /\
  (exists b i j, valid B b /\ (i < ny)%nat /\ (j < nx)%nat /\ Cmod (S b i j) / Cmod (F b i j) / M = 1).
Proof.
  destruct (stack_st input F HF) as (Xi & Si & Di). destruct (stack_st target T HT) as (Xt & St & Dt).
  destruct (st_fp nx ny B target T Xt St) as (fp & Ef & Sf).
  assert (Q : exists q X, match w with None => Ok (nfftshift fp) | Some w => nmap2 Cmult (nfftshift fp) w end = Ok q /\ st nx ny B q S X /\
     (X = B \/ (~ deep d B target /\ ~ deep_window d B w) \/ B = [])).
  { unfold stack_window in HW. destruct w as [v|].
    - destruct (stack_st v W HW) as (Xw & Sw & Dw). destruct (st_map2 nx ny B Cmult _ _ _ _ _ _ Sf Sw) as (q & Eq & Sq). exists q, (join Xt Xw). split; [exact Eq|]. split; [exact Sq|].
      destruct (proj1 (proj2 Sf)) as [Et| Et]; [|left; rewrite Et; apply join_left; apply Sw].
      destruct (proj1 (proj2 Sw)) as [Ew| Ew]; [|left; rewrite Ew; apply join_right; apply Sf].
      destruct B as [|n0 B0]; [auto|]. right. left. split; [intros D; rewrite (Dt D) in Et; discriminate|intros D; rewrite (Dw D) in Ew; discriminate].
    - exists (nfftshift fp), Xt. split; [reflexivity|]. split.
      + eapply st_ext; [exact Sf|]. intros b i j _ _ _. unfold S, windowed. rewrite HW, Cmult_1_r. reflexivity.
      + destruct (proj1 (proj2 Sf)) as [Et| Et]; [|auto]. destruct B as [|n0 B0]; [auto|]. right. left. split; [intros D; rewrite (Dt D) in Et; discriminate|intros []]. }
  destruct Q as (q & X & Eq & Sq & DX).
  destruct (st_map2 nx ny B safe_ratio _ _ _ _ _ _ (st_map nx ny B Cmod _ _ _ Sq) (st_map nx ny B Cmod _ _ _ Si)) as (a & Ea & Sa).
  assert (EB : join X Xi = B).
  { destruct DX as [->|[[N1 N2]|DX]]; [apply join_left; apply Si|destruct Hdeep as [D|[D|D]]; [rewrite (Di D); apply join_right; apply Sq|contradiction|contradiction]|].
    assert (HX := proj1 (proj2 Sq)). assert (HXi := proj1 (proj2 Si)). rewrite DX in *. destruct HX as [->| ->], HXi as [->| ->]; reflexivity. }
  rewrite EB in Sa.
  assert (Sa' := st_ext nx ny B _ _ _ _ Sa stack_ratio). clear Sa.
  destruct (nmax_fin (nx :: ny :: B) (Forall_cons _ Hnx (Forall_cons _ Hny HB)) (nel a) (fun ix => match ix with j :: i :: b => Cmod (S b i j) / Cmod (F b i j) | _ => 0 end)) as (M & EM & H1 & ix & Hix & E1).
  { intros ix Hix. destruct (valid2 _ _ _ _ Hix) as (j & i & b & -> & Hj & Hi & Hb). rewrite <- (nclip_valid B b Hb) at 1. apply (proj2 (proj2 Sa')); assumption. }
  destruct (valid2 _ _ _ _ Hix) as (j1 & i1 & b1 & -> & Hj1 & Hi1 & Hb1). cbn beta iota in E1. subst M.
  assert (H1' : forall b i j, valid B b -> (i < ny)%nat -> (j < nx)%nat -> Cmod (S b i j) / Cmod (F b i j) <= Cmod (S b1 i1 j1) / Cmod (F b1 i1 j1)).
  { intros b i j Hb Hi Hj. apply (H1 (j :: i :: b)). constructor; [exact Hj|]. constructor; [exact Hi|exact Hb]. }
  assert (Pos : forall b i j, 0 <= Cmod (S b i j) / Cmod (F b i j)).
  { intros b i j. destruct (Req_dec (Cmod (F b i j)) 0) as [Z|Z]; [unfold Rdiv; rewrite Z, Rinv_0, Rmult_0_r; lra|]. apply Rmult_le_pos; [apply Cmod_ge_0|]. left. apply Rinv_0_lt_compat. assert (P := Cmod_ge_0 (F b i j)). lra. }
  set (M := Cmod (S b1 i1 j1) / Cmod (F b1 i1 j1)) in *.
  assert (HM : 0 < M).
  { destruct Hlit as (b & i & j & Hb & Hij & Hz). eapply Rlt_le_trans; [|apply (H1' b i j Hb (proj1 Hij) (proj2 Hij))].
    apply Rdiv_lt_0_compat; [apply Cmod_gt_0; exact Hz|]. apply Cmod_gt_0. intros Z. apply Hz. exact (Hdark b i j Hb Hij Z). }
  exists M, (nmap (fun v => xdiv v (Fin M)) a), (nmap carg input), (nmap (fun z => if C_dec0 z then 0 else carg z) q), Xi, X.
  split; [exact HM|]. split.
  { unfold nd_calc_amp_phase. rewrite Ef. cbn [rbind]. rewrite Eq. cbn [rbind]. rewrite Ea. cbn [rbind]. rewrite (proj1 Sa'), EM. reflexivity. }
  split; [|split; [|split; [|split]]].
  - refine (st_ext nx ny B _ _ _ _ (st_map nx ny B _ _ _ _ Sa') _). intros b i j _ _ _. cbn [xdiv]. destruct (Req_EM_T M 0); [lra|]. reflexivity.
  - apply st_map, Si.
  - exact (st_map nx ny B (fun z => if C_dec0 z then 0 else carg z) _ _ _ Sq).
  - intros b i j Hb Hi Hj. assert (P := Pos b i j). assert (L := H1' b i j Hb Hi Hj). split.
    + apply Rmult_le_pos; [exact P|]. left. apply Rinv_0_lt_compat, HM.
    + clearbody M. revert P L. generalize (Cmod (S b i j) / Cmod (F b i j)). intros x P L. apply Rmult_le_reg_r with M; [exact HM|]. replace (x / M * M) with x by (field; lra). lra.
  - exists b1, i1, j1. repeat (split; [assumption|]). fold M. clearbody M. field. lra.
Qed.
Lemma stack_grating {A} (px : xr -> R -> R -> R -> R -> list nat -> A) amp pin pout A0 P0 Q0 Xi Xo :
  st nx ny B amp A0 B -> st nx ny B pin P0 Xi -> st nx ny B pout Q0 Xo ->
  exists t, nd_grating px amp pin pout (nd_of (fst (fourier_plane_grid (d_slm d)))) (nd_of (snd (fourier_plane_grid (d_slm d)))) = Ok t /\ nsh t = nx :: ny :: B /\
    forall b i j, valid B b -> (i < ny)%nat -> (j < nx)%nat ->
      nel t (j :: i :: b) = px (A0 b i j) (P0 b i j) (Q0 b i j) (mirror_x (d_slm d) j) (mirror_y (d_slm d) i) (j :: i :: b).
Proof.
  intros Sa Si So. assert (G := grid_mirrors (d_slm d)). destruct (grid_is_shape _ _ _ _ _ G) as (gx & gy & E). assert (V := fun i j => grid_is_get _ _ _ _ _ i j G). rewrite E in *. cbn [fst snd].
  assert (Sx : st nx ny B (nd_of (T2 (s_Ny (d_slm d)) (s_Nx (d_slm d)) gx)) (fun _ i j => mirror_x (d_slm d) j) []).
  { split; [reflexivity|]. split; [left; reflexivity|]. intros b i j _ Hi Hj. destruct (V i j Hi Hj) as [<- _]. cbn [nd_of nel fst]. rewrite tget_T2 by assumption. reflexivity. }
  assert (Sy : st nx ny B (nd_of (T2 (s_Ny (d_slm d)) (s_Nx (d_slm d)) gy)) (fun _ i j => mirror_y (d_slm d) i) []).
  { split; [reflexivity|]. split; [left; reflexivity|]. intros b i j _ Hi Hj. destruct (V i j Hi Hj) as [_ <-]. cbn [nd_of nel snd]. rewrite tget_T2 by assumption. reflexivity. }
  assert (Step : forall X, X = [] \/ X = B -> nbshape_r (Ok (nx :: ny :: B)) (nx :: ny :: X) = Ok (nx :: ny :: B)).
  { intros X HX. cbn [nbshape_r rbind]. rewrite (nbshape_join nx ny B B X) by auto. rewrite join_left by exact HX. reflexivity. }
  unfold nd_grating. cbn [fold_left]. rewrite (proj1 Sa), (proj1 Si), (proj1 So), (proj1 Sx), (proj1 Sy).
  rewrite (Step Xi (proj1 (proj2 Si))), (Step Xo (proj1 (proj2 So))), (Step [] (or_introl eq_refl)), (Step [] (or_introl eq_refl)). cbn [rbind].
  eexists. split; [reflexivity|]. split; [reflexivity|]. intros b i j Hb Hi Hj. cbn [nel].
  rewrite (st_get nx ny B _ _ _ b i j Sa Hb Hi Hj), (st_get nx ny B _ _ _ b i j Si Hb Hi Hj), (st_get nx ny B _ _ _ b i j So Hb Hi Hj), (st_get nx ny B _ _ _ b i j Sx Hb Hi Hj), (st_get nx ny B _ _ _ b i j Sy Hb Hi Hj). reflexivity.
Qed.
Lemma stack_hologram : exists M, 0 < M /\
  let A := fun b i j => Cmod (windowed d (T b) (W b) i j) / Cmod (F b i j) / M in
  let phase := fun b i j => carrier d i j - signed (d_neg d) (phase_of (windowed d (T b) (W b) i j) - carg (F b i j)) in
  let level := fun b i j => A b i j * (cos (phase b i j) / 2 + 1 / 2) in
  let eta := eta_scale (d_slm d) / M in
  (forall b i j, valid B b -> in_array d i j -> 0 <= A b i j <= 1) /\
  (exists b i j, valid B b /\ in_array d i j /\ A b i j = 1) /\
  (exists t, nd_calculate_dmd_state d input target MIdeal w r u = (Some (NFloat t), Ok (Fin eta)) /\ nsh t = s_Nx (d_slm d) :: s_Ny (d_slm d) :: B /\
     forall b i j, valid B b -> in_array d i j -> nel t (j :: i :: b) = Fin (level b i j)) /\
  (exists t, nd_calculate_dmd_state d input target MSimple w r u = (Some (NBool t), Ok (Fin eta)) /\ nsh t = s_Nx (d_slm d) :: s_Ny (d_slm d) :: B /\
     forall b i j, valid B b -> in_array d i j -> (nel t (j :: i :: b) = true <-> 1 / 2 < level b i j)) /\
  (exists t, nd_calculate_dmd_state d input target MRandom w r u = (Some (NBool t), Ok (Fin eta)) /\ nsh t = s_Nx (d_slm d) :: s_Ny (d_slm d) :: B /\
     forall b i j, valid B b -> in_array d i j -> exists q, folded (phase b i j) q /\ (nel t (j :: i :: b) = true <-> u (j :: i :: b) < duty (dflt r 10) q (A b i j))).
Proof.
  destruct stack_calc as (M & amp & pin & pout & Xi & Xo & HM & E & Sa & Si & So & HA & H1). exists M. split; [exact HM|]. cbv zeta.
  split; [intros b i j Hb [Hi Hj]; apply HA; assumption|]. split; [destruct H1 as (b & i & j & Hb & Hi & Hj & Q); exists b, i, j; split; [exact Hb|split; [split; assumption|exact Q]]|].
  assert (Eta : py_div (pixel_size (d_slm d) ^ 2 / scaling_factor (d_slm d) * INR (s_Nx (d_slm d)) * INR (s_Ny (d_slm d))) (Fin M) = Ok (Fin (eta_scale (d_slm d) / M))).
  { cbn [py_div]. destruct (Req_EM_T M 0); [lra|]. f_equal. f_equal. unfold eta_scale. field. split; [exact Hs|lra]. }
  unfold nd_calculate_dmd_state. rewrite E. rewrite (surjective_pairing (fourier_plane_grid (d_slm d))). cbn [rbind nd_calculate_dmd_grating].
  destruct (Req_EM_T (d_p d) 0) as [Z|_]; [contradiction|]. destruct (Req_EM_T (scaling_factor (d_slm d)) 0) as [Z|_]; [contradiction|].
  split; [|split].
  all: match goal with |- context [nd_grating ?px _ _ _ _ _] => destruct (stack_grating px amp pin pout _ _ _ _ _ Sa Si So) as (t & -> & Ht & V) end.
  all: cbn [rmap rbind]; exists t; split; [rewrite Eta; reflexivity|]; split; [exact Ht|]; intros b i j Hb [Hi Hj]; rewrite V by assumption; unfold px_random, px_simple, px_ideal.
  - rewrite carrier_phase, rel_phase_signed by exact Hp. cbn [xscale]. f_equal. unfold S. lra.
  - rewrite carrier_phase, rel_phase_signed by exact Hp. cbn [xscale xgtb]. unfold S. match goal with |- context [Rlt_dec ?a ?b] => destruct (Rlt_dec a b) as [L|L] end; split; intros; try discriminate; try reflexivity; try lra.
  - rewrite random_duty_in by (apply HA; assumption). eexists. split; [apply folded_acos|]. cbn [xgtb]. rewrite carrier_phase, rel_phase_signed by exact Hp. fold (S b i j).
    match goal with |- context [Rlt_dec ?a ?b] => destruct (Rlt_dec a b) as [L|L] end; split; intros; try discriminate; try reflexivity; try assumption; contradiction.
Qed.
End Holo.
