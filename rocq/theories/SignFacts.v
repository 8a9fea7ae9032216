(** Gerchberg-Saxton with a target that changes sign (C119). *)
From Coq Require Import Reals Lra Psatz ZArith Arith List Bool Lia.
From Coquelicot Require Import Complex.
From Verif Require Import Cx Sums DFT PyBase ProfileModel SlmModel LibModel DmdModel SimModel SimSpec SimExamples DmdSpec DmdFacts2 AmpFacts3 AmpFacts5 DmdExamples HoloSpec HoloFacts HoloFacts2 HoloThms.
Open Scope R_scope.

Lemma one_step h l input target F T u0 : full_input h (l_slm l) input F -> real_target h (l_slm l) target T ->
  exists phi U, stores (l_slm l) (calculate_hologram h l input target MGs (gs_kwargs 1) u0) phi /\
    let ny := s_Ny (l_slm l) in let nx := s_Nx (l_slm l) in let I := image_of ny nx (modulated F (fun i j => 2 * PI * u0 i j)) in
    (forall u v, in_slm (l_slm l) u v -> Cmod (U u v) = 1 /\ I u v = (RtoC (Cmod (I u v)) * U u v)%C) /\
    (forall i j, in_slm (l_slm l) i j -> let B := spectrum_of ny nx (fun u v => (RtoC (T u v) * U u v)%C) i j in B = (RtoC (Cmod B) * cis (phi i j))%C).
Proof.
  intros HF HT. destruct (gs_is_run h l input target F T (gs_kwargs 1) u0 1%Z HF HT (or_introl eq_refl)) as (phi & St & (G & G0 & GS & GN)).
  destruct (GS O ltac:(cbn; lia)) as (U & HU & HB). exists phi, U. split; [exact St|]. cbv zeta in *.
  assert (EI : forall u v, image_of (s_Ny (l_slm l)) (s_Nx (l_slm l)) (modulated F (G O)) u v = image_of (s_Ny (l_slm l)) (s_Nx (l_slm l)) (modulated F (fun i j => 2 * PI * u0 i j)) u v).
  { intros u v. apply image_of_ext. intros i j Hi Hj. unfold modulated. rewrite G0 by assumption. reflexivity. }
  split.
  - intros u v [Hu Hv]. rewrite <- EI. apply HU; assumption.
  - intros i j [Hi Hj]. destruct (HB i j Hi Hj) as (_ & HP & _). rewrite GN by assumption. exact HP.
Qed.
Lemma sign_moves (t : R) (i u w : C) : Cmod u = 1 -> Cmod w = 1 -> i = (RtoC (Cmod i) * u)%C ->
  (i = (RtoC t * w)%C -> (RtoC t * u)%C = (RtoC (Rabs t) * w)%C) /\ (i = (RtoC (Rabs t) * w)%C -> (RtoC t * u)%C = (RtoC t * w)%C).
Proof.
  intros Hu Hw Hi. split; intros E.
  - assert (M : Cmod i = Rabs t) by (rewrite E, Cmod_mult, Cmod_R, Hw; ring). rewrite M, E in Hi. clear E M.
    destruct (Rle_dec 0 t) as [P|P]; [rewrite Rabs_pos_eq in * by exact P; symmetry; exact Hi|].
    rewrite Rabs_left in * by lra. rewrite RtoC_opp in *. transitivity (- (- RtoC t * u))%C; [ring|]. rewrite <- Hi. ring.
  - assert (M : Cmod i = Rabs t) by (rewrite E, Cmod_mult, Cmod_R, Hw, Rabs_Rabsolu; ring). rewrite M, E in Hi. clear E M.
    destruct (Rle_dec 0 t) as [P|P]; [rewrite Rabs_pos_eq in * by exact P; symmetry; exact Hi|].
    rewrite Rabs_left in * by lra. rewrite RtoC_opp in *. transitivity (- (- RtoC t * u))%C; [ring|]. rewrite <- Hi. ring.
Qed.
Lemma sign_dropped h l input target F T u0 W : full_input h (l_slm l) input F -> real_target h (l_slm l) target T ->
  let ny := s_Ny (l_slm l) in let nx := s_Nx (l_slm l) in let I := image_of ny nx (modulated F (fun i j => 2 * PI * u0 i j)) in
  (forall u v, in_slm (l_slm l) u v -> Cmod (W u v) = 1) ->
  exists phi, stores (l_slm l) (calculate_hologram h l input target MGs (gs_kwargs 1) u0) phi /\
    ((forall u v, in_slm (l_slm l) u v -> I u v = (RtoC (T u v) * W u v)%C) ->
      forall i j, in_slm (l_slm l) i j -> let B := spectrum_of ny nx (fun u v => (RtoC (Rabs (T u v)) * W u v)%C) i j in B = (RtoC (Cmod B) * cis (phi i j))%C) /\
    ((forall u v, in_slm (l_slm l) u v -> I u v = (RtoC (Rabs (T u v)) * W u v)%C) ->
      forall i j, in_slm (l_slm l) i j -> let B := spectrum_of ny nx (fun u v => (RtoC (T u v) * W u v)%C) i j in B = (RtoC (Cmod B) * cis (phi i j))%C).
Proof.
  intros HF HT ny nx I HW. destruct (one_step h l input target F T u0 HF HT) as (phi & U & St & HU & HB). cbv zeta in *. exists phi. split; [exact St|].
  split; intros HI i j Hij.
  - rewrite (spectrum_of_ext ny nx _ (fun u v => (RtoC (T u v) * U u v)%C)); [apply HB, Hij|].
    intros u v Hu Hv. assert (P : in_slm (l_slm l) u v) by (split; assumption). destruct (HU u v P) as [H1 H2]. symmetry.
    exact (proj1 (sign_moves (T u v) (I u v) (U u v) (W u v) H1 (HW u v P) H2) (HI u v P)).
  - rewrite (spectrum_of_ext ny nx _ (fun u v => (RtoC (T u v) * U u v)%C)); [apply HB, Hij|].
    intros u v Hu Hv. assert (P : in_slm (l_slm l) u v) by (split; assumption). destruct (HU u v P) as [H1 H2]. symmetry.
    exact (proj2 (sign_moves (T u v) (I u v) (U u v) (W u v) H1 (HW u v P) H2) (HI u v P)).
Qed.

(** ** Three pixels *)
Definition w3 : C := (-1 / 2, sqrt 3 / 2).
Lemma s3 : sqrt 3 * sqrt 3 = 3. Proof. apply sqrt_sqrt. lra. Qed.
Lemma w3_cis : cis (2 * (PI / 3)) = w3.
Proof. unfold cis, w3. rewrite cos_2PI3, sin_2PI3. reflexivity. Qed.
Lemma wave3 j v : (j < 3)%nat -> (v < 3)%nat -> wave 1 3 0 j 0 v =
  match (Z.of_nat j - 1) * (Z.of_nat v - 1) with 0 => RtoC 1 | 1 => w3 | _ => cconj w3 end%Z.
Proof.
  intros Hj Hv. unfold wave. change (centred 1 0) with 0%Z.
  assert (E : (centred 3 j * centred 3 v)%Z = ((Z.of_nat j - 1) * (Z.of_nat v - 1))%Z) by (unfold centred; change (3 / 2)%nat with 1%nat; reflexivity).
  assert (j = 0 \/ j = 1 \/ j = 2)%nat as [-> | [-> | ->]] by lia; assert (v = 0 \/ v = 1 \/ v = 2)%nat as [-> | [-> | ->]] by lia; cbn in E |- *;
  try (rewrite E in *); 
  first [ replace (2 * PI * _) with 0 by (field || (cbn; field)); apply cis_0
        | replace (2 * PI * _) with (2 * (PI / 3)) by (field || (cbn; field)); apply w3_cis
        | replace (2 * PI * _) with (- (2 * (PI / 3))) by (field || (cbn; field)); rewrite cis_neg, w3_cis; reflexivity ].
Qed.
Lemma image3 E v : (v < 3)%nat -> image_of 1 3 E 0 v = ((E O O * wave 1 3 0 0 0 v + E O 1%nat * wave 1 3 0 1 0 v + E O 2%nat * wave 1 3 0 2 0 v) / RtoC 3)%C.
Proof. intros Hv. unfold image_of, csum2. cbn [csum]. replace (RtoC (INR (1 * 3))) with (RtoC 3) by (cbn; f_equal; ring). f_equal. ring. Qed.
Lemma spectrum3 V j : spectrum_of 1 3 V 0 j = (V O O * cconj (wave 1 3 0 j 0 0) + V O 1%nat * cconj (wave 1 3 0 j 0 1) + V O 2%nat * cconj (wave 1 3 0 j 0 2))%C.
Proof. unfold spectrum_of, csum2. cbn [csum]. ring. Qed.
(** The target: two bright points of opposite sign and a faint one on the axis. *)
Definition T3s (u v : nat) : R := match v with O => 2 / 3 | S O => 1 / 3 | _ => - (2 / 3) end.
Definition bright3 : parg := AConstR (T2 1 3 T3s).
Definition u3s (i j : nat) : R := match j with O => 1 / 2 | _ => 0 end.
Definition W3s (u v : nat) : C := match v with O => (- w3)%C | S O => RtoC 1 | _ => (- cconj w3)%C end.
Lemma W3s_unit u v : Cmod (W3s u v) = 1.
Proof.
  assert (M : Cmod w3 = 1) by (unfold Cmod, w3; cbn [fst snd]; replace ((-1 / 2) ^ 2 + (sqrt 3 / 2) ^ 2) with 1 by (pose proof s3; nra); apply sqrt_1).
  destruct v as [|[|v]]; cbn [W3s]; [rewrite Cmod_opp; exact M|apply Cmod_1|rewrite Cmod_opp, Cmod_cconj; exact M].
Qed.
Lemma start3 u v : in_slm slm3 u v -> image_of 1 3 (modulated (fun _ _ => RtoC 1) (fun i j => 2 * PI * u3s i j)) u v = (RtoC (Rabs (T3s u v)) * W3s u v)%C.
Proof.
  intros [Hu Hv]. cbn in Hu, Hv. assert (u = O) as -> by lia. rewrite image3 by exact Hv. pose proof s3 as S.
  assert (E0 : modulated (fun _ _ => RtoC 1) (fun i j => 2 * PI * u3s i j) 0 0 = RtoC (-1)).
  { unfold modulated, u3s. replace (2 * PI * (1 / 2)) with PI by field. rewrite cis_PI. apply C_eq; cbn; ring. }
  assert (E1 : forall j, modulated (fun _ _ => RtoC 1) (fun i j => 2 * PI * u3s i j) 0 (Datatypes.S j) = RtoC 1).
  { intros j. unfold modulated, u3s. rewrite Rmult_0_r, cis_0. apply C_eq; cbn; ring. }
  rewrite E0, !E1. assert (v = 0 \/ v = 1 \/ v = 2)%nat as [-> | [-> | ->]] by lia; rewrite !wave3 by lia; cbn [Z.of_nat Pos.of_succ_nat Pos.succ Z.sub Z.add Z.mul Z.opp Z.pos_sub Pos.pred_double Pos.mul T3s W3s];
    rewrite ?(Rabs_pos_eq (2 / 3)), ?(Rabs_pos_eq (1 / 3)), ?(Rabs_left (- (2 / 3))) by lra;
    unfold w3, cconj, Cdiv, Cinv, Cminus, Cplus, Copp, Cmult, RtoC; cbn [fst snd]; apply C_eq; cbn [fst snd]; field_simplify; nra.
Qed.
Lemma Re_le z : fst z <= Cmod z.
Proof. eapply Rle_trans; [apply Rle_abs|]. eapply Rle_trans; [|apply Rmax_Cmod]. apply Rmax_l. Qed.
Lemma next3 phi : (forall i j, in_slm slm3 i j -> let B := spectrum_of 1 3 (fun u v => (RtoC (T3s u v) * W3s u v)%C) i j in B = (RtoC (Cmod B) * cis (phi i j))%C) ->
  4 / 117 <= image_error 1 3 (fun _ _ => RtoC 1) (fun u v => Rabs (T3s u v)) phi.
Proof.
  intros H. pose proof s3 as S. cbv zeta in H.
  assert (B0 : spectrum_of 1 3 (fun u v => (RtoC (T3s u v) * W3s u v)%C) 0 0 = (1 / 3, 0)).
  { rewrite spectrum3, !wave3 by lia. cbn [Z.of_nat Pos.of_succ_nat Pos.succ Z.sub Z.add Z.mul Z.opp Z.pos_sub Pos.pred_double Pos.mul T3s W3s].
    unfold w3, cconj, Cdiv, Cinv, Cminus, Cplus, Copp, Cmult, RtoC; cbn [fst snd]; apply C_eq; cbn [fst snd]; field_simplify; nra. }
  assert (B1 : spectrum_of 1 3 (fun u v => (RtoC (T3s u v) * W3s u v)%C) 0 1 = (1 / 3, - (2 * sqrt 3 / 3))).
  { rewrite spectrum3, !wave3 by lia. cbn [Z.of_nat Pos.of_succ_nat Pos.succ Z.sub Z.add Z.mul Z.opp Z.pos_sub Pos.pred_double Pos.mul T3s W3s].
    unfold w3, cconj, Cdiv, Cinv, Cminus, Cplus, Copp, Cmult, RtoC; cbn [fst snd]; apply C_eq; cbn [fst snd]; field_simplify; nra. }
  assert (B2 : spectrum_of 1 3 (fun u v => (RtoC (T3s u v) * W3s u v)%C) 0 2 = (1 / 3, 2 * sqrt 3 / 3)).
  { rewrite spectrum3, !wave3 by lia. cbn [Z.of_nat Pos.of_succ_nat Pos.succ Z.sub Z.add Z.mul Z.opp Z.pos_sub Pos.pred_double Pos.mul T3s W3s].
    unfold w3, cconj, Cdiv, Cinv, Cminus, Cplus, Copp, Cmult, RtoC; cbn [fst snd]; apply C_eq; cbn [fst snd]; field_simplify; nra. }
  set (r := sqrt 13 / 3). assert (S13 : sqrt 13 * sqrt 13 = 13) by (apply sqrt_sqrt; lra). assert (P13 : 0 < sqrt 13) by (apply sqrt_lt_R0; lra).
  assert (M : forall y, y * y = 4 / 3 -> Cmod (1 / 3, y) = r).
  { intros y Hy. unfold Cmod, r. cbn [fst snd]. rewrite <- (sqrt_Rsqr (sqrt 13 / 3)) by lra. f_equal. unfold Rsqr. nra. }
  pose proof (H 0%nat 0%nat ltac:(split; cbn; lia)) as H0. pose proof (H 0%nat 1%nat ltac:(split; cbn; lia)) as H1. pose proof (H 0%nat 2%nat ltac:(split; cbn; lia)) as H2.
  rewrite B0 in H0. rewrite B1, (M (- (2 * sqrt 3 / 3))) in H1 by nra. rewrite B2, (M (2 * sqrt 3 / 3)) in H2 by nra.
  assert (M0 : Cmod (1 / 3, 0) = 1 / 3) by (change (1 / 3, 0) with (RtoC (1 / 3)); rewrite Cmod_R, Rabs_pos_eq; lra). rewrite M0 in H0.
  apply (f_equal fst) in H0. apply (f_equal fst) in H1. apply (f_equal fst) in H2. unfold cis, Cmult, RtoC in H0, H1, H2. cbn [fst snd] in H0, H1, H2.
  assert (I1 : 1 / 3 + 2 / (3 * sqrt 13) <= Cmod (image_of 1 3 (modulated (fun _ _ => RtoC 1) phi) 0 1)).
  { eapply Rle_trans; [|apply Re_le]. rewrite image3 by lia. rewrite !wave3 by lia. cbn [Z.of_nat Pos.of_succ_nat Pos.succ Z.sub Z.add Z.mul Z.opp Z.pos_sub Pos.pred_double Pos.mul].
    unfold modulated, cis, Cdiv, Cinv, Cplus, Cmult, RtoC. cbn [fst snd].
    assert (C1 : cos (phi 0%nat 1%nat) = / sqrt 13) by (apply (Rmult_eq_reg_l r); [|unfold r; lra]; unfold r in *; field_simplify; lra).
    assert (C2 : cos (phi 0%nat 2%nat) = / sqrt 13) by (apply (Rmult_eq_reg_l r); [|unfold r; lra]; unfold r in *; field_simplify; lra).
    assert (C0 : cos (phi 0%nat 0%nat) = 1) by lra. rewrite C0, C1, C2. apply Req_le. field. lra. }
  assert (P : 0 < 2 / (3 * sqrt 13)) by (apply Rdiv_lt_0_compat; lra).
  assert (Q : (2 / (3 * sqrt 13)) ^ 2 = 4 / 117) by (replace (4 / 117) with (4 / (9 * (sqrt 13 * sqrt 13))) by (rewrite S13; field); field; lra).
  unfold image_error, rsum2. cbn [rsum T3s]. rewrite (Rabs_pos_eq (1 / 3)) by lra.
  set (a := Cmod (image_of 1 3 (modulated (fun _ _ => RtoC 1) phi) 0 1)) in *.
  assert ((2 / (3 * sqrt 13)) ^ 2 <= (a - 1 / 3) ^ 2) by (apply pow_incr; lra).
  pose proof (pow2_ge_0 (Cmod (image_of 1 3 (modulated (fun _ _ => RtoC 1) phi) 0 0) - Rabs (2 / 3))).
  pose proof (pow2_ge_0 (Cmod (image_of 1 3 (modulated (fun _ _ => RtoC 1) phi) 0 2) - Rabs (- (2 / 3)))). lra.
Qed.
Lemma signed_refutes : exists h l input target F T u p p',
  full_input h (l_slm l) input F /\ real_target h (l_slm l) target T /\
  (forall i j, in_slm (l_slm l) i j -> F i j = RtoC 1 /\ 0 <= u i j < 1) /\
  stores (l_slm l) (calculate_hologram h l input target MGs (gs_kwargs 0) u) p /\
  stores (l_slm l) (calculate_hologram h l input target MGs (gs_kwargs 1) u) p' /\
  image_error (s_Ny (l_slm l)) (s_Nx (l_slm l)) F (fun i j => Rabs (T i j)) p = 0 /\ 4 / 117 <= image_error (s_Ny (l_slm l)) (s_Nx (l_slm l)) F (fun i j => Rabs (T i j)) p'.
Proof.
  destruct (sign_dropped ex_heap (lcos_new slm3) flat3 bright3 (fun _ _ => RtoC 1) T3s u3s W3s eq_refl eq_refl ltac:(intros; apply W3s_unit)) as (p' & St & _ & D).
  destruct (gs_is_run ex_heap (lcos_new slm3) flat3 bright3 (fun _ _ => RtoC 1) T3s (gs_kwargs 0) u3s 0%Z eq_refl eq_refl (or_introl eq_refl)) as (p & St0 & (G & G0 & _ & GN)).
  exists ex_heap, (lcos_new slm3), flat3, bright3, (fun _ _ => RtoC 1), T3s, u3s, p, p'.
  split; [reflexivity|]. split; [reflexivity|]. split; [intros i j _; split; [reflexivity|unfold u3s; destruct j; lra]|].
  split; [exact St0|]. split; [exact St|]. change (s_Ny (l_slm (lcos_new slm3))) with 1%nat in *. change (s_Nx (l_slm (lcos_new slm3))) with 3%nat in *. split.
  - unfold image_error. rewrite (rsum2_ext 1 3 _ (fun _ _ => 0)); [apply rsum2_0|]. intros u v Hu Hv.
    rewrite (image_of_ext 1 3 _ (modulated (fun _ _ => RtoC 1) (fun i j => 2 * PI * u3s i j))) by (intros i j Hi Hj; unfold modulated; rewrite GN, G0 by assumption; reflexivity).
    rewrite start3 by (split; cbn; assumption). rewrite Cmod_mult, Cmod_R, W3s_unit, Rabs_Rabsolu. ring.
  - apply next3. apply D. intros u v Huv. apply start3, Huv.
Qed.
