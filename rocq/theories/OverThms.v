(** Powers of beams made of Hermite-Gauss and Laguerre-Gauss modes (C116, C117). *)
From Coq Require Import Reals Lra Psatz ZArith Arith List Bool Lia.
From Coquelicot Require Import Rcomplements Complex.
From Verif Require Import Cx Sums PyBase ProfileModel ProfSpec SlmModel LibModel DmdModel SimModel SimSpec ModeSpec DFT ModeFacts ModeThms ProfFacts ProfFacts2 GridFacts GridFacts2 SimFacts SimFacts2 SimFacts4 TensorThms ErfInt GaussSum GaussSum2 GaussFacts HermSpec HermSum HermSum2 HermFacts RingSpec RingAlg RingFacts OverlapSpec OverSum OverFacts.
Import ListNotations.
Open Scope R_scope.

Lemma re_mod z : Rabs (fst z) <= Cmod z.
Proof. eapply Rle_trans; [apply Rmax_l|apply Rmax_Cmod]. Qed.
Lemma uniform_powers h dev m a F c S : let s := dev_slm dev in
  full_input h s a F -> 0 < pixel_size s -> (0 < s_Nx s)%nat -> (0 < s_Ny s)%nat -> scaling_factor s <> 0 -> (0 <= pad_x m)%Z -> (0 <= pad_y m)%Z ->
  full_state dev S -> (forall i j, (i < s_Ny s)%nat -> (j < s_Nx s)%nat -> S i j = c) ->
  let P := power_of (pixel_size s ^ 2) (s_Ny s) (s_Nx s) F in
  exists m', propagate_to_image h dev m a = (m', Ok tt) /\ get_input_power s m' = Ok P /\ get_output_power s m' = Ok (Cmod c ^ 2 * P) /\ get_image_plane_power s m' = Ok (Cmod c ^ 2 * P).
Proof.
  intros s HF Hps Hnx Hny Hsf Px Py HS Hc P. destruct (propagate_succeeds h dev m a F S HF HS Py Px Hsf) as [m' Q].
  destruct (powers_after h dev m a F S m' HF HS Q Hnx Hny ltac:(fold s; lra)) as (P1 & P2 & P3). fold s in P1, P2, P3.
  assert (EO : power_of (pixel_size s ^ 2) (s_Ny s) (s_Nx s) (fun i j => (F i j * S i j)%C) = Cmod c ^ 2 * P).
  { unfold P, power_of. rewrite (rsum2_ext (s_Ny s) (s_Nx s) _ (fun i j => Cmod c ^ 2 * Cmod (F i j) ^ 2)) by (intros i j Hi Hj; rewrite Hc, Cmod_mult by assumption; ring). rewrite rsum2_scal_l. ring. }
  rewrite EO in P2, P3. exists m'. repeat apply conj; assumption.
Qed.
Lemma power_ext area ny nx F G : (forall i j, (i < ny)%nat -> (j < nx)%nat -> F i j = G i j) -> power_of area ny nx F = power_of area ny nx G.
Proof. intros H. unfold power_of. f_equal. apply rsum2_ext. intros i j Hi Hj. rewrite H by assumption. reflexivity. Qed.
Lemma power_scal area ny nx F z : power_of area ny nx (fun i j => z * F i j)%C = Cmod z ^ 2 * power_of area ny nx F.
Proof. unfold power_of. rewrite (rsum2_ext ny nx _ (fun i j => Cmod z ^ 2 * Cmod (F i j) ^ 2)) by (intros; rewrite Cmod_mult; ring). rewrite rsum2_scal_l. ring. Qed.
(** *** Sums of Hermite-Gauss modes *)
Lemma csum2_swap a b c d (f : nat -> nat -> nat -> nat -> C) : csum2 a b (fun i j => csum2 c d (fun n m => f n m i j)) = csum2 c d (fun n m => csum2 a b (f n m)).
Proof.
  unfold csum2. transitivity (csum a (fun i => csum c (fun n => csum b (fun j => csum d (fun m => f n m i j))))); [apply csum_ext; intros; apply csum_swap|]. rewrite csum_swap. apply csum_ext. intros n _.
  transitivity (csum a (fun i => csum d (fun m => csum b (fun j => f n m i j)))); [apply csum_ext; intros; apply csum_swap|apply csum_swap].
Qed.
Lemma csum2_sub n m f g : (csum2 n m f + - csum2 n m g = csum2 n m (fun i j => f i j + (- RtoC 1) * g i j))%C.
Proof. rewrite csum2_plus, csum2_scal_l. ring. Qed.
Lemma csum2_mod n m f : Cmod (csum2 n m f) <= rsum2 n m (fun i j => Cmod (f i j)).
Proof.
  assert (V : forall n f, Cmod (csum n f) <= rsum n (fun i => Cmod (f i))).
  { clear. induction n as [|n IH]; intros f; cbn [csum rsum]; [rewrite Cmod_0; lra|]. eapply Rle_trans; [apply Cmod_triangle|]. apply Rplus_le_compat_r, IH. }
  unfold csum2, rsum2. eapply Rle_trans; [apply V|]. apply rsum_le. intros i _. apply V.
Qed.
Lemma modes_power h w x0 y0 ny nx N M (a : nat -> nat -> C) : 0 < h -> 0 < w -> Rabs x0 <= INR nx / 2 * h -> Rabs y0 <= INR ny / 2 * h ->
  Rabs (power_of (h ^ 2) ny nx (fun i j => csum2 N M (fun n m => a n m * RtoC (phi h w x0 y0 ny nx n m i j))%C) - PI * w ^ 2 / 2 * rsum2 N M (fun n m => 2 ^ (n + m) * INR (fact n * fact m) * Cmod (a n m) ^ 2))
  <= rsum2 N M (fun n m => rsum2 N M (fun n' m' => Cmod (a n m) * Cmod (a n' m') * panel_error h ny nx x0 y0 w n m n' m')).
Proof.
  intros Hh Hw Hx Hy. rewrite <- Cmod_R, RtoC_minus, <- ip_self. unfold ip.
  rewrite (csum2_ext ny nx _ (fun i j => csum2 N M (fun n m => csum2 N M (fun n' m' => a n m * cconj (a n' m') * RtoC (phi h w x0 y0 ny nx n m i j * phi h w x0 y0 ny nx n' m' i j))%C))).
  - rewrite (csum2_swap ny nx N M (fun n m i j => csum2 N M (fun n' m' => a n m * cconj (a n' m') * RtoC (phi h w x0 y0 ny nx n m i j * phi h w x0 y0 ny nx n' m' i j))%C)).
    rewrite <- csum2_scal_l.
    assert (E1 : RtoC (PI * w ^ 2 / 2 * rsum2 N M (fun n m => 2 ^ (n + m) * INR (fact n * fact m) * Cmod (a n m) ^ 2)) = csum2 N M (fun n m => csum2 N M (fun n' m' => a n m * cconj (a n' m') * RtoC (mode_overlap n m n' m' w))%C)).
    { rewrite RtoC_mult, <- csum2_RtoC, <- csum2_scal_l. apply csum2_ext. intros n m Hn Hm. symmetry. rewrite (csum2_single N M n m).
      - unfold mode_overlap. rewrite !Nat.eqb_refl. cbn [andb]. rewrite mult_cconj, <- !RtoC_mult. f_equal. rewrite cnorm2_Cmod. ring.
      - exact Hn.
      - exact Hm.
      - intros n' m' _ _ D. unfold mode_overlap. replace ((n =? n')%nat && (m =? m')%nat)%bool with false; [ring|]. symmetry. apply andb_false_iff. destruct (Nat.eqb_spec n n'), (Nat.eqb_spec m m'); try (left; reflexivity); try (right; reflexivity). subst. exfalso. apply D. reflexivity. }
    rewrite E1. unfold Cminus.
    rewrite csum2_sub.
    eapply Rle_trans; [apply csum2_mod|]. apply rsum2_le. intros n m Hn Hm. rewrite (csum2_swap ny nx N M (fun n' m' i j => a n m * cconj (a n' m') * RtoC (phi h w x0 y0 ny nx n m i j * phi h w x0 y0 ny nx n' m' i j))%C), <- csum2_scal_l, <- csum2_scal_l, <- csum2_plus.
    eapply Rle_trans; [apply csum2_mod|]. apply rsum2_le. intros n' m' Hn' Hm'. rewrite csum2_scal_l, csum2_RtoC.
    match goal with |- Cmod ?z <= _ => replace z with (a n m * cconj (a n' m') * RtoC (gram h w x0 y0 ny nx n m n' m' - mode_overlap n m n' m' w))%C by (rewrite RtoC_minus; unfold gram; rewrite RtoC_mult; ring) end.
    rewrite !Cmod_mult, Cmod_cconj, Cmod_R. apply Rmult_le_compat_l; [apply Rmult_le_pos; apply Cmod_ge_0|]. apply gram_val; assumption.
  - intros i j _ _. rewrite csum2_conj, <- csum2_scal_r. apply csum2_ext. intros n m _ _. rewrite <- csum2_scal_l. apply csum2_ext. intros n' m' _ _. rewrite cconj_mult, cconj_RtoC, RtoC_mult. ring.
Qed.
Lemma superposition_power h dev m b F N M (a : nat -> nat -> C) x0 y0 w c S : let s := dev_slm dev in
  full_input h s b F -> (forall i j, (i < s_Ny s)%nat -> (j < s_Nx s)%nat -> F i j = csum2 N M (fun n k => a n k * RtoC (hg_mode x0 y0 1 w n k ((INR j - INR (s_Nx s) / 2) * pixel_size s) ((INR (s_Ny s) / 2 - INR i) * pixel_size s)))%C) ->
  0 < w -> 0 < pixel_size s -> (0 < s_Nx s)%nat -> (0 < s_Ny s)%nat -> scaling_factor s <> 0 -> (0 <= pad_x m)%Z -> (0 <= pad_y m)%Z ->
  Rabs x0 <= INR (s_Nx s) / 2 * pixel_size s -> Rabs y0 <= INR (s_Ny s) / 2 * pixel_size s ->
  full_state dev S -> (forall i j, (i < s_Ny s)%nat -> (j < s_Nx s)%nat -> S i j = c) ->
  exists m' P, propagate_to_image h dev m b = (m', Ok tt) /\ get_input_power s m' = Ok P /\ get_output_power s m' = Ok (Cmod c ^ 2 * P) /\ get_image_plane_power s m' = Ok (Cmod c ^ 2 * P) /\
  Rabs (P - PI * w ^ 2 / 2 * rsum2 N M (fun n k => 2 ^ (n + k) * INR (fact n * fact k) * Cmod (a n k) ^ 2)) <=
  rsum2 N M (fun n k => rsum2 N M (fun n' k' => Cmod (a n k) * Cmod (a n' k') * panel_error (pixel_size s) (s_Ny s) (s_Nx s) x0 y0 w n k n' k')).
Proof.
  intros s HF VF Hw Hps Hnx Hny Hsf Px Py Hx Hy HS Hc. destruct (uniform_powers h dev m b F c S HF Hps Hnx Hny Hsf Px Py HS Hc) as (m' & E1 & E2 & E3 & E4). fold s in E2, E3, E4.
  exists m'. eexists. split; [exact E1|]. split; [exact E2|]. split; [exact E3|]. split; [exact E4|].
  rewrite (power_ext _ _ _ _ _ VF). apply modes_power; assumption.
Qed.
Lemma hermite_power h dev m x0 y0 a w n k c S : let s := dev_slm dev in
  0 < w -> 0 < pixel_size s -> (0 < s_Nx s)%nat -> (0 < s_Ny s)%nat -> scaling_factor s <> 0 -> (0 <= pad_x m)%Z -> (0 <= pad_y m)%Z ->
  Rabs x0 <= INR (s_Nx s) / 2 * pixel_size s -> Rabs y0 <= INR (s_Ny s) / 2 * pixel_size s ->
  full_state dev S -> (forall i j, (i < s_Ny s)%nat -> (j < s_Nx s)%nat -> S i j = c) ->
  exists h1 p m' P, hg_new h x0 y0 a w (Z.of_nat n) (Z.of_nat k) = Ok (h1, p) /\ propagate_to_image h1 dev m (AProf p) = (m', Ok tt) /\
  get_input_power s m' = Ok P /\ get_output_power s m' = Ok (Cmod c ^ 2 * P) /\ get_image_plane_power s m' = Ok (Cmod c ^ 2 * P) /\
  Rabs (P - PI * a ^ 2 * w ^ 2 / 2 * (2 ^ (n + k) * INR (fact n * fact k))) <= a ^ 2 * panel_error (pixel_size s) (s_Ny s) (s_Nx s) x0 y0 w n k n k.
Proof.
  intros s Hw Hps Hnx Hny Hsf Px Py Hx Hy HS Hc. destruct (hg_input h s x0 y0 a w n k ltac:(lra)) as (h1 & p & F & E & HF & VF).
  destruct (uniform_powers h1 dev m (AProf p) F c S HF Hps Hnx Hny Hsf Px Py HS Hc) as (m' & E1 & E2 & E3 & E4). fold s in E2, E3, E4.
  exists h1, p, m'. eexists. split; [exact E|]. split; [exact E1|]. split; [exact E2|]. split; [exact E3|]. split; [exact E4|].
  assert (Q := gram_val (pixel_size s) w x0 y0 (s_Ny s) (s_Nx s) Hps Hw Hx Hy n k n k). change (gerr _ _ _ _ _ _ n k n k) with (panel_error (pixel_size s) (s_Ny s) (s_Nx s) x0 y0 w n k n k) in Q.
  assert (A2 : 0 <= a ^ 2) by apply pow2_ge_0. apply (Rmult_le_compat_l (a ^ 2) _ _ A2) in Q. eapply Rle_trans; [|exact Q]. right. rewrite <- (Rabs_pos_eq (a ^ 2)) at 2 by exact A2. rewrite <- Rabs_mult. f_equal. rewrite Rmult_minus_distr_l. f_equal.
  - unfold power_of, gram. rewrite <- Rmult_assoc, (Rmult_comm (a ^ 2)), Rmult_assoc. f_equal. rewrite <- rsum2_scal_l. apply rsum2_ext. intros i j Hi Hj. rewrite VF, Cmod_R, pow2_abs by assumption. unfold phi. rewrite !mode_product by lra. ring.
  - unfold mode_overlap. rewrite !Nat.eqb_refl. cbn [andb]. field.
Qed.
(** *** Laguerre-Gauss beams *)
Lemma scale_norm p q : Rabs (ring_norm p q) = ring_scale p q.
Proof. unfold ring_norm, ring_scale. rewrite !Rabs_mult, <- !RPow_abs, (Rabs_left (-4)), (Rabs_pos_eq 2), (Rabs_pos_eq (INR _)) by (lra || apply pos_INR). replace (- -4) with 4 by lra. reflexivity. Qed.
Lemma lg_overlap h w x0 y0 ny nx a l p a' l' p' : 0 < h -> 0 < w -> Rabs x0 <= INR nx / 2 * h -> Rabs y0 <= INR ny / 2 * h ->
  let q := Z.abs_nat l in let q' := Z.abs_nat l' in
  let F := fun i k => (RtoC (a / ring_norm p q) * rings (helix l) p q (fun n m => RtoC (phi h w x0 y0 ny nx n m i k)))%C in
  let G := fun i k => (RtoC (a' / ring_norm p' q') * rings (helix l') p' q' (fun n m => RtoC (phi h w x0 y0 ny nx n m i k)))%C in
  Cmod (ip h ny nx F G - if ((l =? l')%Z && (p =? p')%nat)%bool then RtoC (PI * (a * a') * w ^ 2 / 2 * (INR (fact (p + q)) / INR (fact p))) else RtoC 0)%C
  <= lg_error (panel_error h ny nx x0 y0 w) a l p a' l' p'.
Proof.
  intros Hh Hw Hx Hy q q' F G. assert (N := norm_nz p q). assert (N' := norm_nz p' q').
  assert (Q := ip_rings_err h w x0 y0 ny nx Hh Hw Hx Hy (helix l) p q (helix l') p' q' (helix_mod l) (helix_mod l')). rewrite <- ip_rings in Q. assert (X := lg_exact l p l' p' w). cbv zeta in X. fold q q' in X. rewrite X in Q. clear X.
  match type of Q with Cmod ?z <= _ => set (d := z) in Q end.
  match goal with |- Cmod ?z <= _ => replace z with (RtoC (a / ring_norm p q * (a' / ring_norm p' q')) * d)%C end.
  - rewrite Cmod_mult, Cmod_R, Rabs_mult. unfold Rdiv at 1 2. rewrite !Rabs_mult, !Rabs_inv, !scale_norm. unfold lg_error. fold q q'. cbv zeta. apply Rmult_le_compat_l; [|exact Q].
    rewrite <- !scale_norm. assert (0 < / Rabs (ring_norm p q)) by (apply Rinv_0_lt_compat, Rabs_pos_lt, N). assert (0 < / Rabs (ring_norm p' q')) by (apply Rinv_0_lt_compat, Rabs_pos_lt, N'). assert (0 <= Rabs a) by apply Rabs_pos. assert (0 <= Rabs a') by apply Rabs_pos. repeat apply Rmult_le_pos; lra.
  - unfold d, Cminus. rewrite Cmult_plus_distr_l. f_equal.
    + unfold ip, F, G. rewrite Cmult_assoc, (Cmult_comm (RtoC (a / _ * _))), <- Cmult_assoc. f_equal. rewrite <- csum2_scal_l. apply csum2_ext. intros i k _ _. rewrite cconj_mult, cconj_RtoC, RtoC_mult. ring.
    + destruct (Z.eqb_spec l l') as [<-|]; [|cbn [andb]; ring]. destruct (Nat.eqb_spec p p') as [<-|]; [|cbn [andb]; ring]. cbn [andb]. fold q in N'. change q' with q in *.
      assert (FP := INR_fact_neq_0 p). assert (P4 : 4 ^ (2 * p + q) * INR (fact p * fact (p + q)) = ring_norm p q ^ 2 * (INR (fact (p + q)) / INR (fact p))).
      { unfold ring_norm. rewrite mult_INR, !Rpow_mult_distr, pow_add, pow_mult. rewrite <- (pow_mult (-4)), (Nat.mul_comm p 2), pow_mult. replace ((-4) ^ 2) with (4 ^ 2) by ring. rewrite <- (pow_mult 2), (Nat.mul_comm q 2), pow_mult. replace (2 ^ 2) with 4 by ring. field. exact FP. }
      rewrite P4. match goal with |- (RtoC ?u * - RtoC ?v = - RtoC ?t)%C => replace (RtoC t) with (RtoC u * RtoC v)%C; [ring|] end. rewrite <- RtoC_mult. f_equal. field. split; assumption.
Qed.
Lemma laguerre_power h dev m x0 y0 a w l p c S : let s := dev_slm dev in
  0 < w -> 0 < pixel_size s -> (0 < s_Nx s)%nat -> (0 < s_Ny s)%nat -> scaling_factor s <> 0 -> (0 <= pad_x m)%Z -> (0 <= pad_y m)%Z ->
  Rabs x0 <= INR (s_Nx s) / 2 * pixel_size s -> Rabs y0 <= INR (s_Ny s) / 2 * pixel_size s ->
  full_state dev S -> (forall i j, (i < s_Ny s)%nat -> (j < s_Nx s)%nat -> S i j = c) ->
  exists h1 b m' P, lg_new h x0 y0 a w l (Z.of_nat p) = Ok (h1, b) /\ propagate_to_image h1 dev m (AProf b) = (m', Ok tt) /\
  get_input_power s m' = Ok P /\ get_output_power s m' = Ok (Cmod c ^ 2 * P) /\ get_image_plane_power s m' = Ok (Cmod c ^ 2 * P) /\
  Rabs (P - lg_power a w l p) <= lg_error (panel_error (pixel_size s) (s_Ny s) (s_Nx s) x0 y0 w) a l p a l p.
Proof.
  intros s Hw Hps Hnx Hny Hsf Px Py Hx Hy HS Hc. destruct (lg_input h s x0 y0 a w l p ltac:(lra)) as (h1 & b & F & E & HF & VF).
  destruct (uniform_powers h1 dev m (AProf b) F c S HF Hps Hnx Hny Hsf Px Py HS Hc) as (m' & E1 & E2 & E3 & E4). fold s in E2, E3, E4.
  exists h1, b, m'. eexists. split; [exact E|]. split; [exact E1|]. split; [exact E2|]. split; [exact E3|]. split; [exact E4|].
  assert (Q := lg_overlap (pixel_size s) w x0 y0 (s_Ny s) (s_Nx s) a l p a l p Hps Hw Hx Hy). cbv zeta in Q. rewrite Z.eqb_refl, Nat.eqb_refl in Q. cbn [andb] in Q. rewrite ip_self, <- RtoC_minus, Cmod_R in Q.
  rewrite (power_ext _ _ _ _ _ VF). eapply Rle_trans; [|exact Q]. right. f_equal. f_equal. unfold lg_power. replace (a * a) with (a ^ 2) by ring. reflexivity.
Qed.
Lemma laguerre_sum h dev m x0 y0 w a l p a' l' p' c S : let s := dev_slm dev in
  (l <> l' \/ p <> p') -> 0 < w -> 0 < pixel_size s -> (0 < s_Nx s)%nat -> (0 < s_Ny s)%nat -> scaling_factor s <> 0 -> (0 <= pad_x m)%Z -> (0 <= pad_y m)%Z ->
  Rabs x0 <= INR (s_Nx s) / 2 * pixel_size s -> Rabs y0 <= INR (s_Ny s) / 2 * pixel_size s ->
  full_state dev S -> (forall i j, (i < s_Ny s)%nat -> (j < s_Nx s)%nat -> S i j = c) ->
  exists h1 b1 h2 b2 r m' P, lg_new h x0 y0 a w l (Z.of_nat p) = Ok (h1, b1) /\ lg_new h1 x0 y0 a' w l' (Z.of_nat p') = Ok (h2, b2) /\ p_binop Oadd h2 b1 (OProf b2) = (h2, Ok r) /\
  propagate_to_image h2 dev m (AProf r) = (m', Ok tt) /\
  get_input_power s m' = Ok P /\ get_output_power s m' = Ok (Cmod c ^ 2 * P) /\ get_image_plane_power s m' = Ok (Cmod c ^ 2 * P) /\
  let E := lg_error (panel_error (pixel_size s) (s_Ny s) (s_Nx s) x0 y0 w) in
  Rabs (P - (lg_power a w l p + lg_power a' w l' p')) <= E a l p a l p + E a' l' p' a' l' p' + 2 * E a l p a' l' p'.
Proof.
  intros s D Hw Hps Hnx Hny Hsf Px Py Hx Hy HS Hc.
  assert (G : forall h a l p, exists h1 b, lg_new h x0 y0 a w l (Z.of_nat p) = Ok (h1, b) /\ keeps h h1 /\ lives h1 b /\ ~ Forall constant_leaf (leaves b) /\
    forall x y, gives h1 b x y (RtoC (a / ring_norm p (Z.abs_nat l)) * rings (helix l) p (Z.abs_nat l) (fun n m => RtoC (hg_mode x0 y0 1 w n m x y)))%C true).
  { clear - Hw. intros h a l p. destruct (lg_evaluates h x0 y0 a w l p ltac:(lra)) as (h1 & b & E & K & L & G). exists h1, b. split; [exact E|]. split; [exact K|]. split; [exact L|]. split.
    - unfold lg_new in E. destruct (Z.of_nat p <? 0)%Z; [discriminate|]. destruct (alloc_reals h [x0; y0; a; w]) as [h2 ls]. apply ok_pair in E. destruct E as [_ <-]. intros F. inversion F as [|u l0 [c C]]. discriminate C.
    - intros x y. destruct (to_polar x0 y0 x y) as (r & ph & Hr & -> & ->). assert (Q := lg_rings x0 y0 a w l p r ph ltac:(lra)). cbv zeta in Q. rewrite <- Q. apply G, Hr. }
  destruct (G h a l p) as (h1 & b1 & E1 & K1 & L1 & N1 & G1). destruct (G h1 a' l' p') as (h2 & b2 & E2 & K2 & L2 & N2 & G2). clear G.
  assert (NC : ~ Forall constant_leaf (leaves (PBin Oadd b1 b2))) by (cbn [leaves]; intros F; apply Forall_app in F; apply N1, F).
  assert (GS : forall x y, gives h2 (PBin Oadd b1 b2) x y (arith Oadd (RtoC (a / ring_norm p (Z.abs_nat l)) * rings (helix l) p (Z.abs_nat l) (fun n m => RtoC (hg_mode x0 y0 1 w n m x y))) (RtoC (a' / ring_norm p' (Z.abs_nat l')) * rings (helix l') p' (Z.abs_nat l') (fun n m => RtoC (hg_mode x0 y0 1 w n m x y))))%C true).
  { intros x y. destruct (binop_profiles Oadd h2 b1 b2 x y _ true _ true (keeps_gives _ _ _ _ _ _ _ K2 L1 (G1 x y)) (G2 x y) ltac:(discriminate)) as (r & Er & Gr). injection Er as <-. exact Gr. }
  destruct (to_tensor_full h2 s (PBin Oadd b1 b2) true _ _ _ true NC (fourier_plane_grid_is s) (fun i j _ _ => GS _ _)) as [(t & Et & Ht) _].
  destruct t as [z|ny nx F]; [destruct Ht|]. destruct Ht as (-> & -> & VF). assert (HF : full_input h2 s (AProf (PBin Oadd b1 b2)) F) by exact Et.
  destruct (uniform_powers h2 dev m (AProf (PBin Oadd b1 b2)) F c S HF Hps Hnx Hny Hsf Px Py HS Hc) as (m' & F1 & F2 & F3 & F4). fold s in F2, F3, F4.
  exists h1, b1, h2, b2, (PBin Oadd b1 b2), m'. eexists. split; [exact E1|]. split; [exact E2|]. split; [reflexivity|]. split; [exact F1|]. split; [exact F2|]. split; [exact F3|]. split; [exact F4|]. intros E.
  rewrite (power_ext _ _ _ _ _ VF). unfold arith. rewrite power_sum.
  assert (Q1 := lg_overlap (pixel_size s) w x0 y0 (s_Ny s) (s_Nx s) a l p a l p Hps Hw Hx Hy). cbv zeta in Q1. rewrite Z.eqb_refl, Nat.eqb_refl in Q1. cbn [andb] in Q1. rewrite ip_self, <- RtoC_minus, Cmod_R in Q1.
  assert (Q2 := lg_overlap (pixel_size s) w x0 y0 (s_Ny s) (s_Nx s) a' l' p' a' l' p' Hps Hw Hx Hy). cbv zeta in Q2. rewrite Z.eqb_refl, Nat.eqb_refl in Q2. cbn [andb] in Q2. rewrite ip_self, <- RtoC_minus, Cmod_R in Q2.
  assert (Q3 := lg_overlap (pixel_size s) w x0 y0 (s_Ny s) (s_Nx s) a l p a' l' p' Hps Hw Hx Hy). cbv zeta in Q3.
  replace ((l =? l')%Z && (p =? p')%nat)%bool with false in Q3 by (symmetry; apply andb_false_iff; destruct D; [left; apply Z.eqb_neq; assumption|right; apply Nat.eqb_neq; assumption]).
  match type of Q1 with Rabs (?u - _) <= _ => set (u1 := u) in Q1 end. match type of Q2 with Rabs (?u - _) <= _ => set (u2 := u) in Q2 end. match type of Q3 with Cmod (?u - _)%C <= _ => set (u3 := u) in Q3 end.
  change (Rabs (u1 + u2 + 2 * fst u3 - (lg_power a w l p + lg_power a' w l' p')) <= E a l p a l p + E a' l' p' a' l' p' + 2 * E a l p a' l' p').
  assert (R3 : Rabs (fst u3) <= E a l p a' l' p') by (eapply Rle_trans; [|exact Q3]; replace (u3 - RtoC 0)%C with u3 by ring; apply re_mod).
  unfold lg_power. replace (a * a) with (a ^ 2) in Q1 by ring. replace (a' * a') with (a' ^ 2) in Q2 by ring.
  match goal with |- Rabs (u1 + u2 + 2 * fst u3 - (?v1 + ?v2)) <= _ => replace (u1 + u2 + 2 * fst u3 - (v1 + v2)) with ((u1 - v1) + ((u2 - v2) + 2 * fst u3)) by ring end.
  eapply Rle_trans; [apply Rabs_triang|]. eapply Rle_trans; [apply Rplus_le_compat_l, Rabs_triang|]. rewrite (Rabs_mult 2), (Rabs_pos_eq 2) by lra. unfold E in *. lra.
Qed.
