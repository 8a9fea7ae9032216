(** The image of a sampled Hermite-Gauss beam (C113). *)
From Coq Require Import Reals Lra Psatz ZArith Arith List Bool Lia.
From Coquelicot Require Import Rcomplements Complex.
From Verif Require Import Cx Sums PyBase ProfileModel ProfSpec SlmModel LibModel DmdModel SimModel SimSpec ModeSpec DFT ModeFacts ModeThms ProfFacts2 GridFacts GridFacts2 SimFacts SimFacts2 SimFacts4 ModeThms TensorThms ErfInt GaussSum GaussSum2 GaussFacts HermSpec HermSum HermSum2.
Import ListNotations.
Open Scope R_scope.

Definition serr (q : nat) (n A B k : R) : R := (B - A) * n ^ 2 / 12 * (sup2 q + 2 * Rabs k * sup1 q + k ^ 2 * sup0 q) + n / 2 * edge q A B + fst (tails A B k q).
Lemma herm_sum_cx q A n N k : 0 < n -> A <= 0 -> 0 <= A + INR N * n ->
  Cmod (RtoC n * csum N (fun j => RtoC (hf q (A + INR j * n)) * cis (k * (A + INR j * n))) - cis (INR q * (PI / 2)) * RtoC (sqrt PI * H q (k / sqrt 2) * exp (- (k ^ 2 / 4))))%C
    <= serr q n A (A + INR N * n) k.
Proof.
  intros Hn HA HB. match goal with |- Cmod ?z <= _ => set (d := z) end.
  assert (E : Cmod d = fst (d * cis (- carg d))%C).
  { rewrite (polar d) at 2. rewrite <- Cmult_assoc, <- cis_plus, Rplus_opp_r, cis_0. cbn. ring. }
  assert (P := herm_sum_real q A n N k (carg d) Hn HA HB). cbv zeta in P. fold (serr q n A (A + INR N * n) k) in P. apply (Rle_trans _ (Rabs (Cmod d))); [apply Rle_abs|]. rewrite E.
  replace (fst (d * cis (- carg d))%C) with (n * rsum N (fun j => ha q k (carg d) (A + INR j * n)) - T q k (carg d)); [exact P|].
  set (phi := carg d). unfold d.
  match goal with |- context [(cis ?a * RtoC ?b)%C] => set (b0 := b); set (a0 := a) end.
  replace ((RtoC n * csum N (fun j => RtoC (hf q (A + INR j * n)) * cis (k * (A + INR j * n))) - cis a0 * RtoC b0) * cis (- phi))%C
    with (RtoC n * csum N (fun j => RtoC (hf q (A + INR j * n)) * cis (k * (A + INR j * n) - phi)) - RtoC b0 * cis (a0 - phi))%C.
  - unfold Cminus, Cplus, Copp. cbn [fst]. rewrite !re_scal, csum_fst. cbn [fst cis]. unfold Rminus at 1. f_equal.
    + f_equal. apply rsum_ext. intros j _. rewrite re_scal. reflexivity.
    + unfold T. fold b0. f_equal. f_equal. rewrite <- cos_neg. f_equal. unfold a0. ring.
  - unfold Cminus. rewrite Cmult_plus_distr_r. f_equal.
    + rewrite <- Cmult_assoc, <- csum_scal_r. f_equal. apply csum_ext. intros j _. rewrite <- Cmult_assoc, <- cis_plus. do 2 f_equal.
    + unfold Rminus. rewrite cis_plus. ring.
Qed.
Definition hpeak (q : nat) (w kappa : R) : R := sqrt PI * w * (H q (w * kappa / sqrt 2) * exp (- ((w * kappa) ^ 2 / 4))).
Lemma haxis_x q h w c N kappa : 0 < h -> 0 < w -> Rabs c <= INR N / 2 * h ->
  Cmod (RtoC h * csum N (fun j => RtoC (hf q (((INR j - INR N / 2) * h - c) / w)) * cis (kappa * ((INR j - INR N / 2) * h)))
        - cis (kappa * c + INR q * (PI / 2)) * RtoC (hpeak q w kappa))%C <= hg_axis_error q h (INR N / 2 * h) c w kappa.
Proof.
  intros Hh Hw Hc. apply Rabs_le_between in Hc. set (L := INR N / 2 * h) in *. set (A := - (L + c) / w). set (n := h / w). assert (Hn : 0 < n) by (apply Rdiv_lt_0_compat; assumption).
  assert (EB : A + INR N * n = (L - c) / w) by (unfold A, n, L; field; lra).
  assert (HA : A <= 0). { unfold A. assert (0 < / w) by (apply Rinv_0_lt_compat, Hw). unfold Rdiv. nra. }
  assert (HB : 0 <= A + INR N * n). { rewrite EB. apply Rmult_le_pos; [lra|]. left. apply Rinv_0_lt_compat, Hw. }
  assert (P := herm_sum_cx q A n N (w * kappa) Hn HA HB). rewrite EB in P.
  match type of P with Cmod ?z <= _ => set (d := z) in P end.
  match goal with |- Cmod ?z <= _ => replace z with (cis (kappa * c) * (RtoC w * d))%C end.
  - rewrite Cmod_mult, Cmod_cis, Rmult_1_l, Cmod_pos_scal by lra. unfold hg_axis_error. cbv zeta. fold A n. apply Rmult_le_compat_l; [lra|]. eapply Rle_trans; [exact P|]. unfold serr.
    replace ((L - c) / w - A) with (2 * L / w) by (unfold A; field; lra). lra.
  - unfold d, Cminus. rewrite !Cmult_plus_distr_l. f_equal.
    + rewrite !Cmult_assoc. replace (cis (kappa * c) * RtoC w * RtoC n)%C with (RtoC h * cis (kappa * c))%C.
      * rewrite <- Cmult_assoc, <- csum_scal_l. f_equal. apply csum_ext. intros j _. assert (ET : A + INR j * n = ((INR j - INR N / 2) * h - c) / w) by (unfold A, n, L; field; lra). rewrite ET.
        rewrite Cmult_comm, <- Cmult_assoc, <- cis_plus. do 2 f_equal. field. lra.
      * rewrite <- Cmult_assoc, <- RtoC_mult. replace (w * n) with h by (unfold n; field; lra). ring.
    + rewrite cis_plus. unfold hpeak.
      match goal with |- context [RtoC (sqrt PI * w * (?a * ?b))] => replace (RtoC (sqrt PI * w * (a * b))) with (RtoC w * RtoC (sqrt PI * a * b))%C by (rewrite <- RtoC_mult; f_equal; ring) end. ring.
Qed.
Lemma H_parity q x : H q (- x) = (-1) ^ q * H q x.
Proof. rewrite !H_hermite. apply hermite_parity. Qed.
Lemma hf_parity q t : hf q (- t) = (-1) ^ q * hf q t.
Proof. unfold hf. replace (sqrt 2 * - t) with (- (sqrt 2 * t)) by ring. rewrite H_parity. replace ((- t) ^ 2) with (t ^ 2) by ring. ring. Qed.
Lemma edge_flip q A B : edge q A B = edge q (- B) (- A).
Proof.
  unfold edge. rewrite <- !H_hermite. replace (sqrt 2 * - A) with (- (sqrt 2 * A)) by ring. replace (sqrt 2 * - B) with (- (sqrt 2 * B)) by ring. rewrite !H_parity, !Rabs_mult, pow_1_abs, !Rmult_1_l.
  replace ((- A) ^ 2) with (A ^ 2) by ring. replace ((- B) ^ 2) with (B ^ 2) by ring. ring.
Qed.
Lemma tails_flip q A B k : tails A B k q = tails (- B) (- A) (- k) q.
Proof.
  induction q as [|q IH]; cbn [tails]; [|rewrite IH; destruct (tails (- B) (- A) (- k) q)]; rewrite Rabs_Ropp, (edge_flip _ A B); [|reflexivity].
  replace ((- A) ^ 2) with (A ^ 2) by ring. replace ((- B) ^ 2) with (B ^ 2) by ring. rewrite (Rplus_comm (exp (- A ^ 2))). reflexivity.
Qed.
Lemma haxis_y q h w c N kappa : 0 < h -> 0 < w -> Rabs c <= INR N / 2 * h ->
  Cmod (RtoC h * csum N (fun i => RtoC (hf q (((INR N / 2 - INR i) * h - c) / w)) * cis (kappa * ((INR N / 2 - INR i) * h)))
        - cis (kappa * c + INR q * (PI / 2)) * RtoC (hpeak q w kappa))%C <= hg_axis_error q h (INR N / 2 * h) c w kappa.
Proof.
  intros Hh Hw Hc. assert (P := haxis_x q h w (- c) N (- kappa) Hh Hw ltac:(rewrite Rabs_Ropp; exact Hc)).
  replace (hg_axis_error q h (INR N / 2 * h) (- c) w (- kappa)) with (hg_axis_error q h (INR N / 2 * h) c w kappa) in P.
  - eapply Rle_trans; [|exact P]. right. assert (M : ((-1) ^ q * (-1) ^ q = 1)%R) by apply m1_sq.
    match goal with |- _ = Cmod ?z => transitivity (Cmod (RtoC ((-1) ^ q) * z)%C) end.
    + f_equal. unfold Cminus. rewrite Cmult_plus_distr_l. f_equal.
      * rewrite !Cmult_assoc, (Cmult_comm (RtoC ((-1) ^ q))), <- Cmult_assoc. f_equal. rewrite <- csum_scal_l. apply csum_ext. intros i _.
        replace (((INR i - INR N / 2) * h - - c) / w) with (- (((INR N / 2 - INR i) * h - c) / w)) by (field; lra). rewrite hf_parity, RtoC_mult.
        replace (- kappa * ((INR i - INR N / 2) * h)) with (kappa * ((INR N / 2 - INR i) * h)) by ring.
        rewrite !Cmult_assoc, <- RtoC_mult, M. ring.
      * unfold hpeak. replace (w * - kappa / sqrt 2) with (- (w * kappa / sqrt 2)) by (field; pose proof sqrt2_pos; lra). rewrite H_parity.
        replace ((w * - kappa) ^ 2) with ((w * kappa) ^ 2) by ring. replace (- kappa * - c) with (kappa * c) by ring. set (a := H q (w * kappa / sqrt 2)). set (b := exp _).
        replace (RtoC (sqrt PI * w * ((-1) ^ q * a * b))) with (RtoC ((-1) ^ q) * RtoC (sqrt PI * w * (a * b)))%C by (rewrite <- RtoC_mult; f_equal; ring).
        assert (Ms : (RtoC ((-1) ^ q) * RtoC ((-1) ^ q) = RtoC 1)%C) by (rewrite <- RtoC_mult, M; reflexivity). set (u := cis _). set (v := RtoC (sqrt PI * w * (a * b))).
        transitivity (- ((RtoC ((-1) ^ q) * RtoC ((-1) ^ q)) * (u * v)))%C; [rewrite Ms|]; ring.
    + rewrite Cmod_mult, Cmod_R, pow_1_abs. ring.
  - unfold hg_axis_error. cbv zeta. replace (w * - kappa) with (- (w * kappa)) by ring. rewrite Rabs_Ropp. set (L := INR N / 2 * h). replace ((- (w * kappa)) ^ 2) with ((w * kappa) ^ 2) by ring.
    rewrite (edge_flip q (- (L + c) / w)), (tails_flip q (- (L + c) / w)).
    replace (- (- (L + c) / w)) with ((L - - c) / w) by (field; lra). replace (- ((L - c) / w)) with (- (L + - c) / w) by (field; lra). reflexivity.
Qed.

Lemma over_sqrt2 x : x / sqrt 2 = sqrt 2 * (x / 2).
Proof.
  assert (Q := sqrt2_pos). assert (Q2 := sqrt2_sq). apply (Rmult_eq_reg_r (sqrt 2)); [|lra]. transitivity x; [field; lra|]. transitivity ((sqrt 2 * sqrt 2) * (x / 2)); [rewrite Q2; field|ring].
Qed.
Lemma hpeak_le q w kappa a : 0 < w -> Cmod (cis a * RtoC (hpeak q w kappa))%C <= sqrt PI * w * sup0 q.
Proof.
  intros Hw. assert (S0 := sqrtPI_pos). rewrite Cmod_mult, Cmod_cis, Rmult_1_l, Cmod_R. unfold hpeak. rewrite Rabs_mult, (Rabs_pos_eq (sqrt PI * w)) by (apply Rmult_le_pos; lra).
  apply Rmult_le_compat_l; [apply Rmult_le_pos; lra|]. assert (B := hf_bound q (w * kappa / 2)). unfold hf in B.
  rewrite over_sqrt2.
  replace ((w * kappa) ^ 2 / 4) with ((w * kappa / 2) ^ 2) by field. exact B.
Qed.
Lemma prod_err2 (S1 S2 T1 T2 : C) e1 e2 t1 t2 : Cmod (S1 - T1)%C <= e1 -> Cmod (S2 - T2)%C <= e2 -> Cmod T1 <= t1 -> Cmod T2 <= t2 -> Cmod (S1 * S2 - T1 * T2)%C <= product_error t1 t2 e1 e2.
Proof.
  intros H1 H2 B1 B2. replace (S1 * S2 - T1 * T2)%C with ((S1 - T1) * (S2 - T2) + ((S1 - T1) * T2 + T1 * (S2 - T2)))%C by ring.
  eapply Rle_trans; [apply Cmod_triangle|]. eapply Rle_trans; [apply Rplus_le_compat_l, Cmod_triangle|]. rewrite !Cmod_mult.
  assert (P1 := Cmod_ge_0 (S1 - T1)%C). assert (P2 := Cmod_ge_0 (S2 - T2)%C). assert (P3 := Cmod_ge_0 T1). assert (P4 := Cmod_ge_0 T2).
  assert (Cmod (S1 - T1)%C * Cmod (S2 - T2)%C <= e1 * e2) by (apply Rmult_le_compat; assumption).
  assert (Cmod (S1 - T1)%C * Cmod T2 <= e1 * t2) by (apply Rmult_le_compat; assumption).
  assert (Cmod T1 * Cmod (S2 - T2)%C <= t1 * e2) by (apply Rmult_le_compat; assumption). unfold product_error. lra.
Qed.
(** The mode is a product over the axes. *)
Lemma mode_product x0 y0 a w n m x y : w <> 0 -> hg_mode x0 y0 a w n m x y = a * (hf m ((y - y0) / w) * hf n ((x - x0) / w)).
Proof.
  intros Hw. unfold hg_mode, hf. rewrite <- !H_hermite. replace (sqrt 2 * (x - x0) / w) with (sqrt 2 * ((x - x0) / w)) by (field; exact Hw). replace (sqrt 2 * (y - y0) / w) with (sqrt 2 * ((y - y0) / w)) by (field; exact Hw).
  replace (- ((x - x0) ^ 2 + (y - y0) ^ 2) / w ^ 2) with (- ((x - x0) / w) ^ 2 + - ((y - y0) / w) ^ 2) by (field; exact Hw). rewrite exp_plus. ring.
Qed.
Lemma hplane_sum n m h w x0 y0 ny nx kx ky : 0 < h -> 0 < w -> Rabs x0 <= INR nx / 2 * h -> Rabs y0 <= INR ny / 2 * h ->
  Cmod (RtoC (h ^ 2) * csum2 ny nx (fun i j => RtoC (hg_mode x0 y0 1 w n m ((INR j - INR nx / 2) * h) ((INR ny / 2 - INR i) * h)) *
           cis (kx * ((INR j - INR nx / 2) * h) + ky * ((INR ny / 2 - INR i) * h)))
        - cis (kx * x0 + ky * y0 + INR (n + m) * (PI / 2)) * RtoC (hpeak n w kx * hpeak m w ky))%C
  <= product_error (sqrt PI * w * sup0 m) (sqrt PI * w * sup0 n) (hg_axis_error m h (INR ny / 2 * h) y0 w ky) (hg_axis_error n h (INR nx / 2 * h) x0 w kx).
Proof.
  intros Hh Hw Hx Hy. assert (P := prod_err2 _ _ _ _ _ _ _ _ (haxis_y m h w y0 ny ky Hh Hw Hy) (haxis_x n h w x0 nx kx Hh Hw Hx) (hpeak_le m w ky (ky * y0 + INR m * (PI / 2)) Hw) (hpeak_le n w kx (kx * x0 + INR n * (PI / 2)) Hw)).
  eapply Rle_trans; [|exact P]. right. f_equal. f_equal.
  - match goal with |- _ = (?p * csum _ ?f * (?q * csum _ ?g))%C => replace (p * csum ny f * (q * csum nx g))%C with ((p * q) * (csum ny f * csum nx g))%C by ring end.
    rewrite <- RtoC_mult. replace (h * h) with (h ^ 2) by ring. f_equal. rewrite <- csum_scal_r. unfold csum2. apply csum_ext; intros i _. rewrite <- csum_scal_l. apply csum_ext; intros j _.
    rewrite mode_product by lra. match goal with |- _ = (RtoC ?a * ?b * (RtoC ?c * ?d))%C => replace (RtoC a * b * (RtoC c * d))%C with (RtoC (a * c) * (b * d))%C by (rewrite RtoC_mult; ring) end. rewrite <- cis_plus. f_equal; f_equal; ring.
  - match goal with |- _ = (?b * RtoC ?a * (?d * RtoC ?c))%C => replace (b * RtoC a * (d * RtoC c))%C with (b * d * RtoC (a * c))%C by (rewrite RtoC_mult; ring) end. rewrite <- cis_plus, plus_INR. f_equal; f_equal; ring.
Qed.
Lemma hg_input h s x0 y0 a w n m : w <> 0 -> exists h1 p F, hg_new h x0 y0 a w (Z.of_nat n) (Z.of_nat m) = Ok (h1, p) /\ full_input h1 s (AProf p) F /\ forall i j, (i < s_Ny s)%nat -> (j < s_Nx s)%nat ->
  F i j = RtoC (hg_mode x0 y0 a w n m ((INR j - INR (s_Nx s) / 2) * pixel_size s) ((INR (s_Ny s) / 2 - INR i) * pixel_size s)).
Proof.
  intros Hw. destruct (hg_evaluates h x0 y0 a w n m Hw) as (h1 & p & E & _ & _ & G). assert (E' := E).
  assert (NC : ~ Forall constant_leaf (leaves p)).
  { unfold hg_new in E. destruct ((Z.of_nat n <? 0)%Z || (Z.of_nat m <? 0)%Z)%bool; [discriminate|]. destruct (alloc_reals h [x0; y0; a; w]) as [h2 l]. apply ok_pair in E. destruct E as [_ <-]. intros F. inversion F as [|q l0 [c C]]. discriminate C. }
  destruct (to_tensor_full h1 s p true _ _ _ false NC (fourier_plane_grid_is s) (fun i j _ _ => G _ _)) as [(t & Et & Ht) _].
  destruct t as [z|ny nx F]; [destruct Ht|]. destruct Ht as (-> & -> & HF). exists h1, p, F. split; [exact E'|]. split; [exact Et|].
  intros i j Hi Hj. rewrite HF by assumption. reflexivity.
Qed.
Lemma hg_image h dev m x0 y0 a w n n' c S X Y :
  let s := dev_slm dev in
  0 < w -> 0 < pixel_size s -> (0 < s_Nx s)%nat -> (0 < s_Ny s)%nat -> scaling_factor s <> 0 -> (0 <= pad_x m)%Z -> (0 <= pad_y m)%Z ->
  Rabs x0 <= INR (s_Nx s) / 2 * pixel_size s -> Rabs y0 <= INR (s_Ny s) / 2 * pixel_size s ->
  full_state dev S -> (forall i j, (i < s_Ny s)%nat -> (j < s_Nx s)%nat -> S i j = c) ->
  grid_is (image_plane_padded_grid s m) (NY s m) (NX s m) X Y ->
  exists h1 p m' I, hg_new h x0 y0 a w (Z.of_nat n) (Z.of_nat n') = Ok (h1, p) /\ propagate_to_image h1 dev m (AProf p) = (m', Ok tt) /\ field_is (f_image m') (NY s m) (NX s m) I /\
  let waist := wavelength s * focal_length s / (PI * w) in
  forall u v, (u < NY s m)%nat -> (v < NX s m)%nat ->
  Cmod (I u v - c * odd_phase (NY s m) (NX s m) u v * cis (2 * PI * (x0 * X u v + y0 * Y u v) / scaling_factor s + INR (n + n') * (PI / 2))
                * RtoC (hg_mode 0 0 (a * (w / waist)) waist n n' (X u v) (Y u v)))%C
  <= Cmod c * Rabs a / Rabs (scaling_factor s) *
     product_error (sqrt PI * w * sup0 n') (sqrt PI * w * sup0 n)
       (hg_axis_error n' (pixel_size s) (INR (s_Ny s) / 2 * pixel_size s) y0 w (2 * PI * Y u v / scaling_factor s))
       (hg_axis_error n (pixel_size s) (INR (s_Nx s) / 2 * pixel_size s) x0 w (2 * PI * X u v / scaling_factor s)).
Proof.
  intros s Hw Hps Hnx Hny Hsf Px Py Hx Hy HS Hc GX. destruct (hg_input h s x0 y0 a w n n' ltac:(lra)) as (h1 & p & F & E & HF & VF).
  destruct (propagate_succeeds h1 dev m (AProf p) F S HF HS Py Px Hsf) as [m' P]. assert (IS := image_sampled h1 dev m (AProf p) F S m' X Y HF HS P Hnx Hny ltac:(fold s; lra) GX). fold s in IS.
  exists h1, p, m'. eexists. split; [exact E|]. split; [exact P|]. split; [exact IS|]. intros waist u v Hu Hv. cbv beta.
  change (wavelength s * focal_length s) with (scaling_factor s) in waist. set (sf := scaling_factor s) in *. set (ps := pixel_size s) in *.
  assert (Q := hplane_sum n n' ps w x0 y0 (s_Ny s) (s_Nx s) (2 * PI * X u v / sf) (2 * PI * Y u v / sf) Hps Hw Hx Hy). match type of Q with Cmod ?z <= _ => set (d := z) in Q end.
  unfold image_function. fold sf ps. assert (OP := offset_phase s m X Y u v Py Px Hsf Hnx Hny ltac:(fold ps; lra) GX Hu Hv). fold sf ps in OP. rewrite OP. set (o := odd_phase _ _ u v).
  assert (PP := PI_RGT_0).
  match goal with |- Cmod ?z <= _ => replace z with (o * (c * (RtoC (a / sf) * d)))%C end.
  - rewrite !Cmod_mult, Cmod_R. unfold o, odd_phase. rewrite Cmod_cis, Rmult_1_l. unfold Rdiv at 1. rewrite Rabs_mult, Rabs_inv. fold sf.
    match goal with |- ?x * (?y * ?i * ?z) <= _ => replace (x * (y * i * z)) with (x * y / Rabs sf * z) by (unfold Rdiv; ring) end.
    apply Rmult_le_compat_l; [|exact Q]. apply Rmult_le_pos; [apply Rmult_le_pos; [apply Cmod_ge_0|apply Rabs_pos]|]. left. apply Rinv_0_lt_compat, Rabs_pos_lt, Hsf.
  - rewrite (csum2_ext (s_Ny s) (s_Nx s) _ (fun i j => (RtoC a * c) * (RtoC (hg_mode x0 y0 1 w n n' ((INR j - INR (s_Nx s) / 2) * ps) ((INR (s_Ny s) / 2 - INR i) * ps)) *
       cis (2 * PI * X u v / sf * ((INR j - INR (s_Nx s) / 2) * ps) + 2 * PI * Y u v / sf * ((INR (s_Ny s) / 2 - INR i) * ps))))%C).
    + rewrite csum2_scal_l. unfold d. replace (RtoC (a / sf)) with (RtoC a * RtoC (/ sf))%C by (symmetry; apply RtoC_mult). match goal with |- (o * (c * (?k * (?h * ?z - ?e * RtoC ?q))) = _)%C => set (Z := z); set (Q0 := q) end.
      replace (RtoC (ps ^ 2 / sf)) with (RtoC (/ sf) * RtoC (ps ^ 2))%C by (rewrite <- RtoC_mult; f_equal; field; exact Hsf).
      replace (RtoC (hg_mode 0 0 (a * (w / waist)) waist n n' (X u v) (Y u v))) with (RtoC a * RtoC (/ sf) * RtoC Q0)%C.
      * replace (2 * PI * X u v / sf * x0 + 2 * PI * Y u v / sf * y0) with (2 * PI * (x0 * X u v + y0 * Y u v) / sf) by (field; exact Hsf). ring.
      * rewrite <- !RtoC_mult. f_equal. assert (Hwa : waist <> 0).
        { unfold waist, Rdiv. apply Rmult_integral_contrapositive. split; [exact Hsf|]. apply Rinv_neq_0_compat. apply Rmult_integral_contrapositive. split; lra. }
        rewrite mode_product by exact Hwa. rewrite !Rminus_0_r. unfold Q0, hpeak, hf.
        assert (Q2 := sqrt2_pos). assert (Q3 := sqrt2_sq).
        assert (Ea : forall z, w * (2 * PI * z / sf) / sqrt 2 = sqrt 2 * (z / waist)).
        { intros z. apply (Rmult_eq_reg_r (sqrt 2)); [|lra]. transitivity ((sqrt 2 * sqrt 2) * (z / waist)); [rewrite Q3; unfold waist; field; repeat split; lra|ring]. }
        assert (Eb : forall z, (w * (2 * PI * z / sf)) ^ 2 / 4 = (z / waist) ^ 2) by (intros z; unfold waist; field; repeat split; lra).
        rewrite !Ea, !Eb. assert (SP : sqrt PI * sqrt PI = PI) by (apply sqrt_sqrt; lra).
        match goal with |- a * / sf * (sqrt PI * w * ?x * (sqrt PI * w * ?y)) = _ => transitivity (a * (w * ((sqrt PI * sqrt PI) * w / sf)) * (y * x)); [field; exact Hsf|rewrite SP] end.
        replace (w * (PI * w / sf)) with (w / waist) by (unfold waist; field; repeat split; lra). ring.
    + intros i j Hi Hj. rewrite VF, Hc by assumption. fold ps. rewrite !mode_product by lra. rewrite Rmult_1_l, RtoC_mult.
      match goal with |- (_ * cis ?a1 = _ * (_ * cis ?a2))%C => replace a2 with a1 by (field; exact Hsf) end. ring.
Qed.
