(** The image and the power of a sampled Gaussian beam (C91, C92). *)
From Coq Require Import Reals Lra Psatz ZArith Arith List Bool Lia.
From Coquelicot Require Import Rcomplements Complex.
From Verif Require Import Cx Sums PyBase ProfileModel ProfSpec SlmModel LibModel DmdModel SimModel SimSpec ModeSpec DFT ModeFacts ModeThms ProfFacts2 GridFacts GridFacts2 SimFacts SimFacts2 SimFacts4 ModeThms TensorThms GaussSum GaussSum2 GaussSpec.
Import ListNotations.
Open Scope R_scope.

Lemma Cmod_pos_scal r (z : C) : 0 <= r -> Cmod (RtoC r * z)%C = r * Cmod z.
Proof. intros H. rewrite Cmod_mult, Cmod_R, Rabs_pos_eq by exact H. reflexivity. Qed.
Lemma axis_x h w c N kappa : 0 < h -> 0 < w -> Rabs c <= INR N / 2 * h ->
  Cmod (RtoC h * csum N (fun j => RtoC (exp (- (((INR j - INR N / 2) * h - c) / w) ^ 2)) * cis (kappa * ((INR j - INR N / 2) * h)))
        - cis (kappa * c) * RtoC (sqrt PI * w * exp (- ((w * kappa) ^ 2 / 4))))%C <= axis_error h (INR N / 2 * h) c w kappa.
Proof.
  intros Hh Hw Hc. apply Rabs_le_between in Hc. set (L := INR N / 2 * h) in *. set (A := (- L - c) / w). set (n := h / w). assert (Hn : 0 < n) by (apply Rdiv_lt_0_compat; assumption).
  assert (EB : A + INR N * n = (L - c) / w) by (unfold A, n, L; field; lra).
  assert (HA : A <= 0). { unfold A. assert (0 < / w) by (apply Rinv_0_lt_compat, Hw). unfold Rdiv. nra. }
  assert (HB : 0 <= A + INR N * n). { rewrite EB. apply Rmult_le_pos; [lra|]. left. apply Rinv_0_lt_compat, Hw. }
  assert (P := sum_cx A n N (w * kappa) Hn HA HB). rewrite EB in P.
  match type of P with Cmod ?z <= _ => set (d := z) in P end.
  match goal with |- Cmod ?z <= _ => replace z with (cis (kappa * c) * (RtoC w * d))%C end.
  - rewrite Cmod_mult, Cmod_cis, Rmult_1_l, Cmod_pos_scal by lra. apply Rle_trans with (w * gerr n A ((L - c) / w) (w * kappa)); [apply Rmult_le_compat_l; lra|]. unfold gerr, axis_error.
    replace ((- A ^ 2)) with (- ((L + c) / w) ^ 2) by (unfold A; field; lra). right. unfold n. field. split; [|lra]. assert (S := sqrtPI_pos). lra.
  - unfold d, Cminus. rewrite !Cmult_plus_distr_l. f_equal.
    + rewrite !Cmult_assoc. replace (cis (kappa * c) * RtoC w * RtoC n)%C with (RtoC h * cis (kappa * c))%C.
      * rewrite <- Cmult_assoc, <- csum_scal_l. f_equal. apply csum_ext. intros j _. assert (ET : A + INR j * n = ((INR j - INR N / 2) * h - c) / w) by (unfold A, n, L; field; lra). rewrite ET.
        rewrite Cmult_comm, <- Cmult_assoc, <- cis_plus. do 2 f_equal. field. lra.
      * rewrite <- Cmult_assoc, <- RtoC_mult. replace (w * n) with h by (unfold n; field; lra). ring.
    + replace (RtoC (sqrt PI * w * exp (- ((w * kappa) ^ 2 / 4)))) with (RtoC w * RtoC (sqrt PI * exp (- ((w * kappa) ^ 2 / 4))))%C by (rewrite <- RtoC_mult; f_equal; ring). ring.
Qed.
Lemma axis_y h w c N kappa : 0 < h -> 0 < w -> Rabs c <= INR N / 2 * h ->
  Cmod (RtoC h * csum N (fun i => RtoC (exp (- (((INR N / 2 - INR i) * h - c) / w) ^ 2)) * cis (kappa * ((INR N / 2 - INR i) * h)))
        - cis (kappa * c) * RtoC (sqrt PI * w * exp (- ((w * kappa) ^ 2 / 4))))%C <= axis_error h (INR N / 2 * h) c w kappa.
Proof.
  intros Hh Hw Hc. assert (P := axis_x h w (- c) N (- kappa) Hh Hw ltac:(rewrite Rabs_Ropp; exact Hc)).
  replace (axis_error h (INR N / 2 * h) (- c) w (- kappa)) with (axis_error h (INR N / 2 * h) c w kappa) in P.
  - eapply Rle_trans; [|exact P]. right. f_equal. f_equal.
    + f_equal. apply csum_ext. intros i _. f_equal; [|f_equal; ring]. do 3 f_equal. field. lra.
    + f_equal; [f_equal; ring|]. do 4 f_equal. field.
  - unfold axis_error. replace (w * - kappa) with (- (w * kappa)) by ring. rewrite Rabs_Ropp. replace (INR N / 2 * h + - c) with (INR N / 2 * h - c) by ring. replace (INR N / 2 * h - - c) with (INR N / 2 * h + c) by ring.
    rewrite (Rplus_comm (exp (- ((INR N / 2 * h + c) / w) ^ 2))). reflexivity.
Qed.
Lemma peak_le w kappa c : 0 < w -> Cmod (cis c * RtoC (sqrt PI * w * exp (- ((w * kappa) ^ 2 / 4))))%C <= sqrt PI * w.
Proof.
  intros Hw. assert (S0 := sqrtPI_pos). rewrite Cmod_mult, Cmod_cis, Rmult_1_l, Cmod_R. assert (E : 0 < exp (- ((w * kappa) ^ 2 / 4)) <= 1) by (replace ((w * kappa) ^ 2 / 4) with ((w * kappa / 2) ^ 2) by field; apply exp_sq_le).
  assert (0 < sqrt PI * w) by (apply Rmult_lt_0_compat; assumption). rewrite Rabs_pos_eq by (apply Rmult_le_pos; lra). nra.
Qed.
Lemma plane_sum h w x0 y0 ny nx kx ky : 0 < h -> 0 < w -> Rabs x0 <= INR nx / 2 * h -> Rabs y0 <= INR ny / 2 * h ->
  Cmod (RtoC (h ^ 2) * csum2 ny nx (fun i j => RtoC (exp (- (((INR j - INR nx / 2) * h - x0) ^ 2 + ((INR ny / 2 - INR i) * h - y0) ^ 2) / w ^ 2)) *
           cis (kx * ((INR j - INR nx / 2) * h) + ky * ((INR ny / 2 - INR i) * h)))
        - cis (kx * x0 + ky * y0) * RtoC (PI * w ^ 2 * exp (- (w ^ 2 * (kx ^ 2 + ky ^ 2) / 4))))%C
  <= plane_error w (axis_error h (INR ny / 2 * h) y0 w ky) (axis_error h (INR nx / 2 * h) x0 w kx).
Proof.
  intros Hh Hw Hx Hy. assert (P := prod_err _ _ _ _ _ _ _ (axis_y h w y0 ny ky Hh Hw Hy) (axis_x h w x0 nx kx Hh Hw Hx) (peak_le w ky (ky * y0) Hw) (peak_le w kx (kx * x0) Hw)).
  assert (SP : sqrt PI * sqrt PI = PI) by (apply sqrt_sqrt; pose proof PI_RGT_0; lra).
  unfold plane_error. assert (SP2 : (sqrt PI * w) ^ 2 = PI * w ^ 2) by (transitivity ((sqrt PI * sqrt PI) * w ^ 2); [ring|rewrite SP; ring]). rewrite SP2 in P. eapply Rle_trans; [|exact P]. right. f_equal. f_equal.
  - match goal with |- _ = (?p * csum _ ?f * (?q * csum _ ?g))%C => replace (p * csum ny f * (q * csum nx g))%C with ((p * q) * (csum ny f * csum nx g))%C by ring end.
    rewrite <- RtoC_mult. replace (h * h) with (h ^ 2) by ring. f_equal. rewrite <- csum_scal_r. unfold csum2. apply csum_ext; intros i _. rewrite <- csum_scal_l. apply csum_ext; intros j _.
    match goal with |- _ = (RtoC ?a * ?b * (RtoC ?c * ?d))%C => replace (RtoC a * b * (RtoC c * d))%C with (RtoC (a * c) * (b * d))%C by (rewrite RtoC_mult; ring) end. rewrite <- exp_plus, <- cis_plus. f_equal; [do 2 f_equal; field; lra|f_equal; ring].
  - match goal with |- _ = (?b * RtoC ?a * (?d * RtoC ?c))%C => replace (b * RtoC a * (d * RtoC c))%C with (b * d * RtoC (a * c))%C by (rewrite RtoC_mult; ring) end. rewrite <- cis_plus. f_equal; [f_equal; ring|]. f_equal.
    match goal with |- _ = ?s * ?ww * exp ?a * (?s' * ?w' * exp ?b) => transitivity ((s * s') * w ^ 2 * (exp a * exp b)); [rewrite <- exp_plus, SP|ring] end. f_equal. f_equal. field.
Qed.
Lemma offset_phase s m X Y u v : (0 <= pad_y m)%Z -> (0 <= pad_x m)%Z -> scaling_factor s <> 0 -> (0 < s_Nx s)%nat -> (0 < s_Ny s)%nat -> pixel_size s <> 0 ->
  grid_is (image_plane_padded_grid s m) (NY s m) (NX s m) X Y -> (u < NY s m)%nat -> (v < NX s m)%nat ->
  cis (2 * PI * (half_offset (s_Nx s) * X u v - half_offset (s_Ny s) * Y u v) * pixel_size s / scaling_factor s) = odd_phase (NY s m) (NX s m) u v.
Proof.
  intros Hy Hx Hsf Hnx Hny Hps GX Hu Hv.
  destruct (grid_is_get _ _ _ _ _ u v GX Hu Hv) as [E5 E6].
  destruct (grid_is_get _ _ _ _ _ u v (image_grid_of_is (NX s m) (NY s m) (pixel_size s) (scaling_factor s) Hps) Hu Hv) as [E7 E8]. cbv beta in E7, E8.
  assert (EX : X u v = IZR (Z.of_nat v - Z.of_nat (NX s m / 2)) * scaling_factor s / (INR (NX s m) * pixel_size s)) by (rewrite <- E5; exact E7).
  assert (EY : Y u v = - (IZR (Z.of_nat u - Z.of_nat (NY s m / 2)) * scaling_factor s / (INR (NY s m) * pixel_size s))) by (rewrite <- E6; exact E8).
  assert (HNx : NX s m = (s_Nx s + 2 * Z.to_nat (pad_x m))%nat) by (rewrite <- NX_eq by assumption; lia).
  assert (HNy : NY s m = (s_Ny s + 2 * Z.to_nat (pad_y m))%nat) by (rewrite <- NY_eq by assumption; lia).
  unfold odd_phase. f_equal. fold (half_offset (NY s m)) (half_offset (NX s m)).
  rewrite <- (half_offset_pad (s_Nx s) (Z.to_nat (pad_x m))), <- HNx. rewrite <- (half_offset_pad (s_Ny s) (Z.to_nat (pad_y m))), <- HNy.
  rewrite EX, EY. field. repeat split; try assumption; apply INR_neq_0; lia.
Qed.
(** A Gaussian beam as an input of a simulation. *)
Lemma gauss_input h s x0 y0 a w : w <> 0 -> exists h1 p F, hg_new h x0 y0 a w 0 0 = Ok (h1, p) /\ full_input h1 s (AProf p) F /\
  forall i j, (i < s_Ny s)%nat -> (j < s_Nx s)%nat ->
  F i j = RtoC (a * exp (- (((INR j - INR (s_Nx s) / 2) * pixel_size s - x0) ^ 2 + ((INR (s_Ny s) / 2 - INR i) * pixel_size s - y0) ^ 2) / w ^ 2)).
Proof.
  intros Hw. destruct (hg_evaluates h x0 y0 a w 0 0 Hw) as (h1 & p & E & _ & _ & G). cbn [Z.of_nat] in E.
  assert (NC : ~ Forall constant_leaf (leaves p)).
  { unfold hg_new in E. cbn [Z.ltb Z.compare orb] in E. destruct (alloc_reals h [x0; y0; a; w]) as [h2 l]. apply ok_pair in E. destruct E as [_ <-]. intros F. inversion F as [|q l0 [c C]]. discriminate C. }
  destruct (to_tensor_full h1 s p true _ _ _ false NC (fourier_plane_grid_is s) (fun i j _ _ => G _ _)) as [(t & Et & Ht) _].
  destruct t as [z|ny nx F]; [destruct Ht|]. destruct Ht as (-> & -> & HF). exists h1, p, F. split; [exact E|]. split; [exact Et|].
  intros i j Hi Hj. rewrite HF by assumption. f_equal. unfold hg_mode. rewrite !(proj1 (hermite_low_orders _)), !Rmult_1_r. reflexivity.
Qed.

Lemma gauss_image h dev m x0 y0 a w c S X Y :
  let s := dev_slm dev in
  0 < w -> 0 < pixel_size s -> (0 < s_Nx s)%nat -> (0 < s_Ny s)%nat -> scaling_factor s <> 0 -> (0 <= pad_x m)%Z -> (0 <= pad_y m)%Z ->
  Rabs x0 <= INR (s_Nx s) / 2 * pixel_size s -> Rabs y0 <= INR (s_Ny s) / 2 * pixel_size s ->
  full_state dev S -> (forall i j, (i < s_Ny s)%nat -> (j < s_Nx s)%nat -> S i j = c) ->
  grid_is (image_plane_padded_grid s m) (NY s m) (NX s m) X Y ->
  exists h1 p m' I, hg_new h x0 y0 a w 0 0 = Ok (h1, p) /\ propagate_to_image h1 dev m (AProf p) = (m', Ok tt) /\ field_is (f_image m') (NY s m) (NX s m) I /\
  let waist := wavelength s * focal_length s / (PI * w) in
  forall u v, (u < NY s m)%nat -> (v < NX s m)%nat ->
  Cmod (I u v - c * odd_phase (NY s m) (NX s m) u v * cis (2 * PI * (x0 * X u v + y0 * Y u v) / scaling_factor s)
                * RtoC (a * (w / waist) * exp (- (X u v ^ 2 + Y u v ^ 2) / waist ^ 2)))%C
  <= Cmod c * Rabs a / Rabs (scaling_factor s) *
     plane_error w (axis_error (pixel_size s) (INR (s_Ny s) / 2 * pixel_size s) y0 w (2 * PI * Y u v / scaling_factor s))
                   (axis_error (pixel_size s) (INR (s_Nx s) / 2 * pixel_size s) x0 w (2 * PI * X u v / scaling_factor s)).
Proof.
  intros s Hw Hps Hnx Hny Hsf Px Py Hx Hy HS Hc GX. destruct (gauss_input h s x0 y0 a w ltac:(lra)) as (h1 & p & F & E & HF & VF).
  destruct (propagate_succeeds h1 dev m (AProf p) F S HF HS Py Px Hsf) as [m' P]. assert (IS := image_sampled h1 dev m (AProf p) F S m' X Y HF HS P Hnx Hny ltac:(fold s; lra) GX). fold s in IS.
  exists h1, p, m'. eexists. split; [exact E|]. split; [exact P|]. split; [exact IS|]. intros waist u v Hu Hv. cbv beta.
  change (wavelength s * focal_length s) with (scaling_factor s) in waist. set (sf := scaling_factor s) in *. set (ps := pixel_size s) in *.
  assert (Q := plane_sum ps w x0 y0 (s_Ny s) (s_Nx s) (2 * PI * X u v / sf) (2 * PI * Y u v / sf) Hps Hw Hx Hy). match type of Q with Cmod ?z <= _ => set (d := z) in Q end.
  unfold image_function. fold sf ps. assert (OP := offset_phase s m X Y u v Py Px Hsf Hnx Hny ltac:(fold ps; lra) GX Hu Hv). fold sf ps in OP. rewrite OP. set (o := odd_phase _ _ u v).
  assert (PP := PI_RGT_0).
  match goal with |- Cmod ?z <= _ => replace z with (o * (c * (RtoC (a / sf) * d)))%C end.
  - rewrite !Cmod_mult, Cmod_R. unfold o, odd_phase. rewrite Cmod_cis, Rmult_1_l. unfold Rdiv at 1. rewrite Rabs_mult, Rabs_inv. fold sf.
    match goal with |- ?x * (?y * ?i * ?z) <= _ => replace (x * (y * i * z)) with (x * y / Rabs sf * z) by (unfold Rdiv; ring) end.
    apply Rmult_le_compat_l; [|exact Q]. apply Rmult_le_pos; [apply Rmult_le_pos; [apply Cmod_ge_0|apply Rabs_pos]|]. left. apply Rinv_0_lt_compat, Rabs_pos_lt, Hsf.
  - rewrite (csum2_ext (s_Ny s) (s_Nx s) _ (fun i j => (RtoC a * c) * (RtoC (exp (- (((INR j - INR (s_Nx s) / 2) * ps - x0) ^ 2 + ((INR (s_Ny s) / 2 - INR i) * ps - y0) ^ 2) / w ^ 2)) *
       cis (2 * PI * X u v / sf * ((INR j - INR (s_Nx s) / 2) * ps) + 2 * PI * Y u v / sf * ((INR (s_Ny s) / 2 - INR i) * ps))))%C).
    + rewrite csum2_scal_l. unfold d. replace (RtoC (a / sf)) with (RtoC a * RtoC (/ sf))%C by (symmetry; apply RtoC_mult). match goal with |- (o * (c * (?k * (?h * ?z - ?e * RtoC ?q))) = _)%C => set (Z := z); set (Q0 := q) end.
      replace (RtoC (ps ^ 2 / sf)) with (RtoC (/ sf) * RtoC (ps ^ 2))%C by (rewrite <- RtoC_mult; f_equal; field; exact Hsf).
      replace (RtoC (a * (w / waist) * exp (- (X u v ^ 2 + Y u v ^ 2) / waist ^ 2))) with (RtoC a * RtoC (/ sf) * RtoC Q0)%C.
      * replace (2 * PI * X u v / sf * x0 + 2 * PI * Y u v / sf * y0) with (2 * PI * (x0 * X u v + y0 * Y u v) / sf) by (field; exact Hsf). ring.
      * rewrite <- !RtoC_mult. f_equal. unfold Q0, waist. replace (- (w ^ 2 * ((2 * PI * X u v / sf) ^ 2 + (2 * PI * Y u v / sf) ^ 2) / 4)) with (- (X u v ^ 2 + Y u v ^ 2) / (sf / (PI * w)) ^ 2) by (field; repeat split; lra). field. repeat split; lra.
    + intros i j Hi Hj. rewrite VF, Hc, RtoC_mult by assumption. fold ps.
      match goal with |- (_ * cis ?a1 = _ * (_ * cis ?a2))%C => replace a2 with a1 by (field; exact Hsf) end. ring.
Qed.

(** *** Power *)
Lemma span_x h w c N : 0 < h -> 0 < w -> Rabs c < INR N / 2 * h ->
  Rabs (h * rsum N (fun j => exp (- (((INR j - INR N / 2) * h - c) / w) ^ 2)) - sqrt PI * w) <= span_error h (INR N / 2 * h) c w.
Proof.
  intros Hh Hw Hc. apply Rabs_lt_between in Hc. set (L := INR N / 2 * h) in *. set (A := (- L - c) / w). set (n := h / w). assert (Hn : 0 < n) by (apply Rdiv_lt_0_compat; assumption).
  assert (EB : A + INR N * n = (L - c) / w) by (unfold A, n, L; field; lra). assert (W : 0 < / w) by (apply Rinv_0_lt_compat, Hw).
  assert (HA : A < 0) by (unfold A, Rdiv; nra). assert (HB : 0 < A + INR N * n) by (rewrite EB; unfold Rdiv; nra).
  assert (P := sum_second A n N Hn HA HB). cbv zeta in P. rewrite EB in P. match type of P with Rabs ?z <= _ => set (d := z) in P end.
  match goal with |- Rabs ?z <= _ => replace z with (w * d) end.
  - rewrite Rabs_mult, (Rabs_pos_eq w) by lra. eapply Rle_trans; [apply Rmult_le_compat_l; [lra|exact P]|]. unfold span_error, ErfInt.g. replace (- A ^ 2) with (- ((L + c) / w) ^ 2) by (unfold A; field; lra). right. unfold A, n. field. repeat split; lra.
  - unfold d. rewrite Rmult_minus_distr_l, <- Rmult_assoc. replace (w * n) with h by (unfold n; field; lra). f_equal; [|ring]. f_equal. apply rsum_ext. intros j _. unfold ErfInt.g. do 3 f_equal. unfold A, n, L. field. lra.
Qed.
Lemma span_y h w c N : 0 < h -> 0 < w -> Rabs c < INR N / 2 * h ->
  Rabs (h * rsum N (fun i => exp (- (((INR N / 2 - INR i) * h - c) / w) ^ 2)) - sqrt PI * w) <= span_error h (INR N / 2 * h) c w.
Proof.
  intros Hh Hw Hc. assert (P := span_x h w (- c) N Hh Hw ltac:(rewrite Rabs_Ropp; exact Hc)). replace (span_error h (INR N / 2 * h) (- c) w) with (span_error h (INR N / 2 * h) c w) in P.
  - eapply Rle_trans; [|exact P]. right. f_equal. f_equal. f_equal. apply rsum_ext. intros i _. f_equal. field. lra.
  - unfold span_error. cbv zeta. replace (INR N / 2 * h + - c) with (INR N / 2 * h - c) by ring. replace (INR N / 2 * h - - c) with (INR N / 2 * h + c) by ring. rewrite (Rabs_minus_sym (exp (- ((INR N / 2 * h - c) / w) ^ 2))). ring.
Qed.
Lemma prod_err_r s1 s2 t e1 e2 : 0 <= t -> Rabs (s1 - t) <= e1 -> Rabs (s2 - t) <= e2 -> Rabs (s1 * s2 - t ^ 2) <= (t + e1) * (t + e2) - t ^ 2.
Proof.
  intros Ht H1 H2. replace (s1 * s2 - t ^ 2) with ((s1 - t) * (s2 - t) + ((s1 - t) * t + t * (s2 - t))) by ring.
  eapply Rle_trans; [apply Rabs_triang|]. eapply Rle_trans; [apply Rplus_le_compat_l, Rabs_triang|]. rewrite !Rabs_mult, (Rabs_pos_eq t) by exact Ht.
  assert (P1 := Rabs_pos (s1 - t)). assert (P2 := Rabs_pos (s2 - t)). assert (Rabs (s1 - t) * Rabs (s2 - t) <= e1 * e2) by (apply Rmult_le_compat; assumption). nra.
Qed.
Lemma plane_span h w x0 y0 ny nx : 0 < h -> 0 < w -> Rabs x0 < INR nx / 2 * h -> Rabs y0 < INR ny / 2 * h ->
  Rabs (h ^ 2 * rsum2 ny nx (fun i j => exp (- (((INR j - INR nx / 2) * h - x0) ^ 2 + ((INR ny / 2 - INR i) * h - y0) ^ 2) / w ^ 2)) - PI * w ^ 2)
  <= plane_error w (span_error h (INR ny / 2 * h) y0 w) (span_error h (INR nx / 2 * h) x0 w).
Proof.
  intros Hh Hw Hx Hy. assert (S0 := sqrtPI_pos). assert (SP : sqrt PI * sqrt PI = PI) by (apply sqrt_sqrt; pose proof PI_RGT_0; lra).
  assert (P := prod_err_r _ _ (sqrt PI * w) _ _ ltac:(apply Rmult_le_pos; lra) (span_y h w y0 ny Hh Hw Hy) (span_x h w x0 nx Hh Hw Hx)).
  assert (SP2 : (sqrt PI * w) ^ 2 = PI * w ^ 2) by (transitivity ((sqrt PI * sqrt PI) * w ^ 2); [ring|rewrite SP; ring]). rewrite SP2 in P. unfold plane_error. eapply Rle_trans; [|exact P]. right. f_equal. f_equal.
  match goal with |- _ = ?p * rsum _ ?f * (?q * rsum _ ?g) => replace (p * rsum ny f * (q * rsum nx g)) with ((p * q) * (rsum ny f * rsum nx g)) by ring end.
  replace (h * h) with (h ^ 2) by ring. f_equal. rewrite <- rsum_scal_r. unfold rsum2. apply rsum_ext; intros i _. rewrite <- rsum_scal_l. apply rsum_ext; intros j _. rewrite <- exp_plus. f_equal. field. lra.
Qed.
Lemma gauss_power h dev m x0 y0 a w c S :
  let s := dev_slm dev in
  0 < w -> 0 < pixel_size s -> scaling_factor s <> 0 -> (0 <= pad_x m)%Z -> (0 <= pad_y m)%Z ->
  Rabs x0 < INR (s_Nx s) / 2 * pixel_size s -> Rabs y0 < INR (s_Ny s) / 2 * pixel_size s ->
  full_state dev S -> (forall i j, (i < s_Ny s)%nat -> (j < s_Nx s)%nat -> S i j = c) ->
  let w' := w / sqrt 2 in let e := plane_error w' (span_error (pixel_size s) (INR (s_Ny s) / 2 * pixel_size s) y0 w') (span_error (pixel_size s) (INR (s_Nx s) / 2 * pixel_size s) x0 w') in
  exists h1 p m' P, hg_new h x0 y0 a w 0 0 = Ok (h1, p) /\ propagate_to_image h1 dev m (AProf p) = (m', Ok tt) /\
  get_input_power s m' = Ok P /\ get_output_power s m' = Ok (Cmod c ^ 2 * P) /\ get_image_plane_power s m' = Ok (Cmod c ^ 2 * P) /\
  Rabs (P - PI * a ^ 2 * w ^ 2 / 2) <= a ^ 2 * e.
Proof.
  intros s Hw Hps Hsf Px Py Hx Hy HS Hc w' e. destruct (gauss_input h s x0 y0 a w ltac:(lra)) as (h1 & p & F & E & HF & VF).
  assert (Hnx : (0 < s_Nx s)%nat). { destruct (s_Nx s); [|lia]. exfalso. cbn [INR] in Hx. assert (Q := Rabs_pos x0). lra. }
  assert (Hny : (0 < s_Ny s)%nat). { destruct (s_Ny s); [|lia]. exfalso. cbn [INR] in Hy. assert (Q := Rabs_pos y0). lra. }
  destruct (propagate_succeeds h1 dev m (AProf p) F S HF HS Py Px Hsf) as [m' P]. destruct (powers_after h1 dev m (AProf p) F S m' HF HS P Hnx Hny ltac:(fold s; lra)) as (P1 & P2 & P3). fold s in P1, P2, P3.
  assert (EO : power_of (pixel_size s ^ 2) (s_Ny s) (s_Nx s) (fun i j => (F i j * S i j)%C) = Cmod c ^ 2 * power_of (pixel_size s ^ 2) (s_Ny s) (s_Nx s) F).
  { unfold power_of. rewrite (rsum2_ext (s_Ny s) (s_Nx s) _ (fun i j => Cmod c ^ 2 * Cmod (F i j) ^ 2)) by (intros i j Hi Hj; rewrite Hc, Cmod_mult by assumption; ring). rewrite rsum2_scal_l. ring. }
  exists h1, p, m', (power_of (pixel_size s ^ 2) (s_Ny s) (s_Nx s) F). split; [exact E|]. split; [exact P|]. split; [exact P1|]. rewrite EO in P2, P3. split; [exact P2|]. split; [exact P3|].
  assert (S2 : 0 < sqrt 2) by (apply sqrt_lt_R0; lra). assert (S2' : sqrt 2 * sqrt 2 = 2) by (apply sqrt_sqrt; lra). assert (Hw' : 0 < w') by (apply Rdiv_lt_0_compat; assumption).
  assert (W2 : w' ^ 2 = w ^ 2 / 2). { unfold w'. unfold Rdiv. rewrite Rpow_mult_distr, pow_inv. replace (sqrt 2 ^ 2) with 2 by (rewrite <- S2' at 1; ring). reflexivity. }
  assert (Q := plane_span (pixel_size s) w' x0 y0 (s_Ny s) (s_Nx s) Hps Hw' Hx Hy). fold e in Q. rewrite W2 in Q.
  match type of Q with Rabs ?z <= _ => replace (power_of (pixel_size s ^ 2) (s_Ny s) (s_Nx s) F - PI * a ^ 2 * w ^ 2 / 2) with (a ^ 2 * z) end.
  - assert (0 <= a ^ 2) by apply pow2_ge_0. rewrite Rabs_mult, (Rabs_pos_eq (a ^ 2)) by assumption. apply Rmult_le_compat_l; assumption.
  - rewrite Rmult_minus_distr_l. f_equal; [|field]. unfold power_of. symmetry. match goal with |- _ = a ^ 2 * (?h2 * ?r) => transitivity (h2 * (a ^ 2 * r)); [f_equal|ring] end. rewrite <- rsum2_scal_l. apply rsum2_ext. intros i j Hi Hj. rewrite VF, Cmod_R, pow2_abs, Rpow_mult_distr by assumption. f_equal.
    rewrite <- Rsqr_pow2. unfold Rsqr. rewrite <- exp_plus. f_equal. field. lra.
Qed.

(** *** The unit test of the input power *)
Lemma exp_small x : 7.5 <= x -> exp (- x) <= 0.00142.
Proof.
  intros H. assert (E1 : 1.3 <= exp 0.3) by (left; apply Rle_lt_trans with (1 + 0.3); [lra|apply exp_ineq1; lra]).
  assert (E2 : exp 7.5 = exp 0.3 ^ 25). { change 25%nat with (S 24). rewrite <- (exp_ln (exp 0.3 ^ S 24)) by (apply pow_lt, exp_pos). rewrite ln_pow, ln_exp by apply exp_pos. f_equal. rewrite INR_IZR_INZ. cbn [Z.of_nat Pos.of_succ_nat Pos.succ]. lra. }
  assert (E3 : 1.3 ^ 25 <= exp 7.5) by (rewrite E2; apply pow_incr; lra). assert (E4 : 705 <= 1.3 ^ 25) by (cbn [pow]; lra).
  assert (E5 : exp 7.5 <= exp x) by (destruct (Req_dec 7.5 x) as [->|N]; [lra|left; apply exp_increasing; lra]).
  rewrite exp_Ropp. apply Rle_trans with (/ 705); [apply Rinv_le_contravar; lra|lra].
Qed.
Lemma span_small L W : W ^ 2 = 4.5 / 1000000 -> 0 < W -> (L = 5.832 / 1000 \/ L = 10.368 / 1000) -> 0 <= span_error (10.8 / 1000000) L 0 W <= 0.0004 * (sqrt PI * W).
Proof.
  intros H2 HW HL. unfold span_error. cbv zeta. rewrite Rplus_0_r, Rminus_0_r, Rminus_eq_0, Rabs_R0. set (G := exp (- (L / W) ^ 2)).
  assert (HL0 : 5.832 / 1000 <= L <= 10.368 / 1000) by (destruct HL as [-> | ->]; lra). assert (G0 : 0 < G) by apply exp_pos.
  assert (HG : G <= 0.00142). { apply exp_small. unfold Rdiv. rewrite Rpow_mult_distr, pow_inv, H2. destruct HL as [-> | ->]; lra. }
  assert (HW2 : 2.12 / 1000 <= W) by nra. assert (S3 : 1.73 <= sqrt PI). { rewrite <- (sqrt_pow2 1.73) by lra. apply sqrt_le_1_alt. assert (P := PI2_3_2). lra. }
  assert (R0 : 0.0004 * (1.73 * (2.12 / 1000)) <= 0.0004 * (sqrt PI * W)) by (apply Rmult_le_compat_l; [lra|apply Rmult_le_compat; lra]).
  assert (T2 : W ^ 2 * (G / (2 * L) + G / (2 * L)) = 4.5 / 1000000 * (G / L)) by (rewrite H2; field; lra). rewrite T2, H2.
  assert (GL : 0 <= G / L) by (apply Rmult_le_pos; [lra|left; apply Rinv_0_lt_compat; lra]).
  assert (GL2 : G / L <= 0.00142 / (5.832 / 1000)) by (apply Rmult_le_compat; [lra|left; apply Rinv_0_lt_compat; lra|exact HG|apply Rinv_le_contravar; lra]).
  split; [|destruct HL as [-> | ->]; lra]. rewrite Rmult_0_r. assert (0 <= L * (10.8 / 1000000) ^ 2 / (3 * (4.5 / 1000000))) by lra. lra.
Qed.
Lemma test_input_power h wl fl per th neg m a : wl * fl <> 0 -> (0 <= pad_x m)%Z -> (0 <= pad_y m)%Z ->
  let d := DLP9500 wl fl per th neg in let w := 3 / 1000 in
  exists h1 p m' P, hg_new h 0 0 a w 0 0 = Ok (h1, p) /\ propagate_to_image h1 (DevDmd d) m (AProf p) = (m', Ok tt) /\ get_input_power (d_slm d) m' = Ok P /\
  Rabs (P - 0.5 * PI * a ^ 2 * w ^ 2) <= 0.001 * (0.5 * PI * a ^ 2 * w ^ 2).
Proof.
  intros Hsf Px Py d w. assert (EX : INR 1920 = 1920) by (rewrite INR_IZR_INZ; reflexivity). assert (EY : INR 1080 = 1080) by (rewrite INR_IZR_INZ; reflexivity).
  assert (Ehs : pixel_size (d_slm d) = 10.8 / 1000000) by (cbn; unfold micro; lra).
  assert (ENx : s_Nx (d_slm d) = 1920%nat) by reflexivity. assert (ENy : s_Ny (d_slm d) = 1080%nat) by reflexivity.
  destruct (gauss_power h (DevDmd d) m 0 0 a w (RtoC 0) (fun i j => RtoC (if false then 1 else 0))) as (h1 & p & m' & P & E1 & E2 & E3 & _ & _ & B); cbn [dev_slm]; rewrite ?Ehs, ?ENx, ?ENy, ?EX, ?EY, ?Rabs_R0; try (unfold w; lra); try assumption.
  - exact (state_bool d (fun _ _ => false) eq_refl).
  - reflexivity.
  - cbn [dev_slm] in E3, B. rewrite Ehs, ENx, ENy, EX, EY in B. exists h1, p, m', P. split; [exact E1|]. split; [exact E2|]. split; [exact E3|].
    replace (0.5 * PI * a ^ 2 * w ^ 2) with (PI * a ^ 2 * w ^ 2 / 2) by lra. eapply Rle_trans; [exact B|].
    assert (S2 : 0 < sqrt 2) by (apply sqrt_lt_R0; lra). assert (S2' : sqrt 2 * sqrt 2 = 2) by (apply sqrt_sqrt; lra). set (w' := w / sqrt 2). assert (Hw' : 0 < w') by (apply Rdiv_lt_0_compat; unfold w; lra).
    assert (W2 : w' ^ 2 = 4.5 / 1000000). { unfold w', w. unfold Rdiv. rewrite Rpow_mult_distr, pow_inv. replace (sqrt 2 ^ 2) with 2 by (rewrite <- S2' at 1; ring). lra. }
    assert (A1 := span_small (1080 / 2 * (10.8 / 1000000)) w' W2 Hw' ltac:(left; lra)). assert (A2 := span_small (1920 / 2 * (10.8 / 1000000)) w' W2 Hw' ltac:(right; lra)).
    set (e1 := span_error _ _ _ _) in A1 |- *. set (e2 := span_error _ _ _ _) in A2 |- *. unfold plane_error. assert (S0 := sqrtPI_pos). set (t := sqrt PI * w') in *. assert (Ht : 0 < t) by (apply Rmult_lt_0_compat; assumption).
    assert (ET : t ^ 2 = PI * w' ^ 2). { unfold t. rewrite Rpow_mult_distr. f_equal. rewrite <- Rsqr_pow2. apply Rsqr_sqrt. pose proof PI_RGT_0. lra. }
    assert (D : (t + e1) * (t + e2) - t ^ 2 <= 0.001 * t ^ 2) by nra. rewrite <- ET.
    replace (0.001 * (PI * a ^ 2 * w ^ 2 / 2)) with (a ^ 2 * (0.001 * t ^ 2)) by (rewrite ET, W2; unfold w; lra). apply Rmult_le_compat_l; [apply pow2_ge_0|exact D].
Qed.

(** *** A beam of waist 1 mm on a DLP9500 with all mirrors on: the image peaks within 3 % of a * w / waist. *)
Lemma on_state d : full_state (DevDmd (set_dmd_state_on d)) (fun _ _ => RtoC (if true then 1 else 0)).
Proof. apply (state_bool (set_dmd_state_on d) (fun _ _ => true)). reflexivity. Qed.
Lemma Cmod_triangle_abs (x y : C) : Rabs (Cmod x - Cmod y) <= Cmod (x - y)%C.
Proof.
  assert (A := Cmod_triangle (x - y)%C y). assert (B := Cmod_triangle (y - x)%C x). replace (x - y + y)%C with x in A by ring. replace (y - x + x)%C with y in B by ring.
  replace (y - x)%C with (- (x - y))%C in B by ring. rewrite Cmod_opp in B. apply Rabs_le. lra.
Qed.
Lemma three_percent t e1 e2 : 0 < t -> 0 <= e1 <= 0.0145 * t -> 0 <= e2 <= 0.0145 * t -> (t + e1) * (t + e2) - t ^ 2 <= 0.03 * t ^ 2.
Proof. intros Ht H1 H2. assert ((t + e1) * (t + e2) <= (1.0145 * t) * (1.0145 * t)) by (apply Rmult_le_compat; lra). assert (0 <= t ^ 2) by apply pow2_ge_0. lra. Qed.
Lemma axis_small L : (L = 5.832 / 1000 \/ L = 10.368 / 1000) -> 0 <= axis_error (10.8 / 1000000) L 0 (1 / 1000) 0 <= 0.0145 * (sqrt PI * (1 / 1000)).
Proof.
  intros HL. unfold axis_error. rewrite Rplus_0_r, Rminus_0_r, Rmult_0_r, Rabs_R0. set (G := exp (- (L / (1 / 1000)) ^ 2)).
  assert (G0 : 0 < G) by apply exp_pos. assert (HG : G <= 0.00142) by (apply exp_small; destruct HL as [-> | ->]; lra).
  assert (S3 : 1.73 <= sqrt PI). { rewrite <- (sqrt_pow2 1.73) by lra. apply sqrt_le_1_alt. assert (P := PI2_3_2). lra. }
  assert (I3 : 0 < 2 / sqrt PI <= 2 / 1.73). { split; [apply Rdiv_lt_0_compat; lra|]. unfold Rdiv. apply Rmult_le_compat_l; [lra|]. apply Rinv_le_contravar; lra. }
  assert ((G + G) * (2 / sqrt PI + 0 / 2) <= (0.00142 + 0.00142) * (2 / 1.73)) by (apply Rmult_le_compat; lra). assert (0 <= (G + G) * (2 / sqrt PI + 0 / 2)) by (apply Rmult_le_pos; lra). lra.
Qed.
Lemma axis_case h wl fl per th neg m a X Y : wl * fl <> 0 -> (0 <= pad_x m)%Z -> (0 <= pad_y m)%Z ->
  let d := set_dmd_state_on (DLP9500 wl fl per th neg) in let s := d_slm d in let w := 1 / 1000 in
  grid_is (image_plane_padded_grid s m) (NY s m) (NX s m) X Y ->
  exists h1 p m' I, hg_new h 0 0 a w 0 0 = Ok (h1, p) /\ propagate_to_image h1 (DevDmd d) m (AProf p) = (m', Ok tt) /\ field_is (f_image m') (NY s m) (NX s m) I /\
  forall u v, (u < NY s m)%nat -> (v < NX s m)%nat -> X u v = 0 -> Y u v = 0 ->
  let peak := Rabs (a * (w / (wl * fl / (PI * w)))) in Rabs (Cmod (I u v) - peak) <= 0.03 * peak.
Proof.
  intros Hsf Px Py d s w GX. assert (EX : INR 1920 = 1920) by (rewrite INR_IZR_INZ; reflexivity). assert (EY : INR 1080 = 1080) by (rewrite INR_IZR_INZ; reflexivity).
  assert (Ehs : pixel_size s = 10.8 / 1000000) by (cbn; unfold micro; lra). assert (ENx : s_Nx s = 1920%nat) by reflexivity. assert (ENy : s_Ny s = 1080%nat) by reflexivity.
  destruct (gauss_image h (DevDmd d) m 0 0 a w (RtoC 1) (fun i j => RtoC (if true then 1 else 0)) X Y) as (h1 & p & m' & I & E1 & E2 & E3 & B); cbn [dev_slm]; fold s; rewrite ?Ehs, ?ENx, ?ENy, ?EX, ?EY, ?Rabs_R0; try (unfold w; lra); try lia; try assumption.
  - exact (on_state (DLP9500 wl fl per th neg)).
  - reflexivity.
  - cbn [dev_slm] in E3, B. fold s in E3, B. rewrite Ehs, ENx, ENy, EX, EY in B. exists h1, p, m', I. split; [exact E1|]. split; [exact E2|]. split; [exact E3|].
    intros u v Hu Hv X0 Y0. set (peak := Rabs (a * (w / (wl * fl / (PI * w))))). assert (Q := B u v Hu Hv). rewrite X0, Y0 in Q. change (scaling_factor s) with (wl * fl) in Q. change (wavelength s * focal_length s) with (wl * fl) in Q. set (sf := wl * fl) in *.
    replace (2 * PI * 0 / sf) with 0 in Q by (unfold Rdiv; ring).
    assert (A1 := axis_small (1080 / 2 * (10.8 / 1000000)) ltac:(left; lra)). assert (A2 := axis_small (1920 / 2 * (10.8 / 1000000)) ltac:(right; lra)). fold w in A1, A2.
    set (e1 := axis_error _ (1080 / 2 * (10.8 / 1000000)) _ _ _) in *. set (e2 := axis_error _ (1920 / 2 * (10.8 / 1000000)) _ _ _) in *. assert (S0 := sqrtPI_pos). set (t := sqrt PI * w) in *. assert (Ht : 0 < t) by (apply Rmult_lt_0_compat; unfold w; lra).
    assert (ET : t ^ 2 = PI * w ^ 2). { unfold t. rewrite Rpow_mult_distr. f_equal. rewrite <- Rsqr_pow2. apply Rsqr_sqrt. pose proof PI_RGT_0. lra. }
    assert (D : plane_error w e1 e2 <= 0.03 * t ^ 2) by (unfold plane_error; fold t; rewrite <- ET; apply three_percent; assumption).
    replace (- (0 ^ 2 + 0 ^ 2) / (sf / (PI * w)) ^ 2) with 0 in Q by (unfold Rdiv; ring). rewrite exp_0, Rmult_1_r in Q. rewrite Cmod_1, Rmult_1_l in Q.
    assert (PK : peak = Rabs a / Rabs sf * t ^ 2). { unfold peak. rewrite ET. assert (PP := PI_RGT_0). replace (a * (w / (sf / (PI * w)))) with (a / sf * (PI * w ^ 2)) by (unfold w; field; split; [lra|exact Hsf]).
      unfold Rdiv at 1. rewrite !Rabs_mult, Rabs_inv, (Rabs_pos_eq PI) by lra. rewrite (Rabs_pos_eq (w ^ 2)) by apply pow2_ge_0. reflexivity. }
    match type of Q with Cmod (_ - ?z)%C <= _ => assert (M : Cmod z = peak) by (rewrite !Cmod_mult, Cmod_1, Cmod_R; unfold odd_phase; rewrite !Cmod_cis; unfold peak; ring) end.
    rewrite <- M at 1. eapply Rle_trans; [apply Cmod_triangle_abs|]. eapply Rle_trans; [exact Q|]. rewrite PK.
    assert (0 <= Rabs a / Rabs sf) by (apply Rmult_le_pos; [apply Rabs_pos|left; apply Rinv_0_lt_compat, Rabs_pos_lt, Hsf]). nra.
Qed.
Lemma axis_pixel : exists X Y, let s := d_slm (set_dmd_state_on (DLP9500 1 1 4 0 false)) in let m := {| pad_x := 0; pad_y := 0; f_input := None; f_output := None; f_image := None |} in
  grid_is (image_plane_padded_grid s m) (NY s m) (NX s m) X Y /\ exists u v, (u < NY s m)%nat /\ (v < NX s m)%nat /\ X u v = 0 /\ Y u v = 0.
Proof.
  set (s := d_slm (set_dmd_state_on (DLP9500 1 1 4 0 false))). set (m := {| pad_x := 0; pad_y := 0; f_input := None; f_output := None; f_image := None |}).
  do 2 eexists. cbv zeta. split; [apply (image_grid_of_is (NX s m) (NY s m) (pixel_size s) (scaling_factor s)); unfold s; cbn; unfold micro; lra|].
  assert (Hx : (0 < NX s m)%nat) by (unfold NX, s; cbn [d_slm set_dmd_state_on with_state DLP9500 dmd_new s_Nx pad_x m]; lia). assert (Hy : (0 < NY s m)%nat) by (unfold NY, s; cbn [d_slm set_dmd_state_on with_state DLP9500 dmd_new s_Ny pad_y m]; lia).
  exists (NY s m / 2)%nat, (NX s m / 2)%nat. split; [apply Nat.div_lt; lia|]. split; [apply Nat.div_lt; lia|]. cbv beta. rewrite !Z.sub_diag. unfold Rdiv. split; ring.
Qed.
