(** The rounded simulation: representable fields, the exact case, single precision (C103). *)
From Coq Require Import Reals Lra Psatz ZArith Arith List Bool Lia Permutation FunctionalExtensionality.
From Coquelicot Require Import Complex.
From Verif Require Import Cx Sums DFT PyBase ProfileModel SlmModel LibModel DmdModel GridFacts SimModel SimSpec SimFacts SimFacts2 FloatModel FloatSpec FloatFacts FloatFacts2 FloatFacts3 FloatFacts4 FloatLink FlSimModel FlSimSpec NormFacts FlSimFacts.
Open Scope R_scope.

Lemma output_representable a u eta B py px ny nx input state : arithmetic u eta B (rnd a) -> (2 ^ 22 <= B)%Z -> forall i j, representable (rnd a) (fl_output a py px ny nx input state i j).
Proof.
  intros H HB i j. unfold fl_output, pad_fun. destruct (_ && _)%bool.
  - split; unfold fl_cmul; cbn [fst snd]; apply (ar_stable _ _ _ _ H).
  - split; cbn [RtoC fst snd]; apply (fl_0 _ _ _ _ H); lia.
Qed.
Lemma pad_power py px ny nx area f : field_power (py + ny + py) (px + nx + px) area (pad_fun py px ny nx f) = field_power ny nx area f.
Proof. unfold field_power. f_equal. rewrite !rsum2_Cmod. apply (rsum2_pad py px ny nx f cnorm2). apply cnorm2_0. Qed.

Lemma rounded_powers a u eta u' eta' B B' w w' F e d Ny Nx py px ps sf input state t t' :
  arithmetic u eta B (rnd a) -> (2 ^ 22 <= B)%Z -> arithmetic u' eta' B' (dbl a) -> (2 ^ 40 <= B')%Z -> 0 <= u <= 1 / 8 -> 0 <= eta -> u' <= u -> eta' <= eta ->
  let ny := (py + Ny + py)%nat in let nx := (px + Nx + px)%nat in
  (0 < Ny)%nat -> (0 < Nx)%nat -> (Z.of_nat (ny * nx) <= 2 ^ 40)%Z -> 0 < ps -> 0 < sf -> far_from_underflow u eta ny nx ps sf ->
  each_once ny nx t -> each_once ny nx t' -> 0 <= e -> 0 <= d -> accurate a e d ny nx (F ny nx) ->
  let out := fl_output a py px Ny Nx input state in
  let P := field_power Ny Nx (ps ^ 2) (fun i j => fl_cmul a (input i j) (state i j)) in
  near ((1 + 4 * u) ^ (depth t + 5) - 1) ((1 + 4 * u) ^ (depth t + 5) * (sqrt eta * (3 * (ps * sqrt (INR (ny * nx))) + 1))) (sqrt P) (sqrt (fl_output_power a w ps out t)) /\
  near ((1 + e) * (1 + 4 * u) ^ (depth t' + 13) - 1) ((1 + 4 * u) ^ (depth t' + 13) * (ps * sqrt (INR (ny * nx)) * d + 2 * (sf / ps) * eta + sqrt eta * (3 * (sf / ps) + 1)))
    (sqrt P) (sqrt (fl_image_power a w' ny nx ps sf (fl_to_image a F ny nx ps sf out) t')).
Proof.
  intros H HB H' HB' Hu He Hu' He' ny nx Hny Hnx HN Hps Hsf FU T T' Hpe Hpd HF out P.
  assert (EP : P = field_power ny nx (ps ^ 2) out) by (symmetry; apply pad_power). rewrite EP. split.
  - apply (output_power_near a u eta u' eta' B B' H HB H' HB' Hu He Hu' He' ny nx ps sf); try assumption; unfold ny, nx; lia.
  - apply (image_power_near a u eta u' eta' B B' H HB H' HB' Hu He Hu' He' ny nx ps sf); try assumption; try (unfold ny, nx; lia).
    intros i j _ _. apply (output_representable a u eta B py px Ny Nx input state H HB).
Qed.
Lemma rounded_accurate a u eta B ny nx : arithmetic u eta B (rnd a) -> 0 <= u <= 1 / 8 -> 0 <= eta -> accurate a u (2 * sqrt (INR (ny * nx)) * eta) ny nx (rounded_transform a ny nx).
Proof. intros H Hu He f _. unfold rounded_transform. apply (round_norm a u eta B H Hu He). Qed.

(** Without rounding. *)
Lemma link_propagation h dev m arg F St m' w t : let s := dev_slm dev in
  full_input h s arg F -> full_state dev St -> propagate_to_image h dev m arg = (m', Ok tt) -> (0 < s_Nx s)%nat -> (0 < s_Ny s)%nat -> pixel_size s <> 0 -> each_once (NY s m) (NX s m) t ->
  let out := fl_output exact (Z.to_nat (pad_y m)) (Z.to_nat (pad_x m)) (s_Ny s) (s_Nx s) F St in
  let image := fl_to_image exact ifft2 (NY s m) (NX s m) (pixel_size s) (scaling_factor s) out in
  field_is (f_output m') (NY s m) (NX s m) out /\ field_is (f_image m') (NY s m) (NX s m) image /\
  get_output_power s m' = Ok (fl_output_power exact w (pixel_size s) out t) /\
  get_image_plane_power s m' = Ok (fl_image_power exact w (NY s m) (NX s m) (pixel_size s) (scaling_factor s) image t).
Proof.
  intros s HF HS H Hnx Hny Hps T out image. destruct (propagate_inv _ _ _ _ _ _ _ HF HS H) as (Hy & Hx & Hsf & Epx & Epy & _ & Ho & Hi). fold s in Hsf, Ho, Hi.
  assert (Px : (0 < sim_Nx s m)%Z) by (unfold sim_Nx; lia). assert (Py : (0 < sim_Ny s m)%Z) by (unfold sim_Ny; lia).
  assert (EN : INR (NY s m * NX s m) = IZR (sim_Nx s m * sim_Ny s m)).
  { rewrite INR_IZR_INZ. f_equal. unfold NY, NX, sim_Nx, sim_Ny in *. rewrite Nat2Z.inj_mul, !Z2Nat.id by lia. ring. }
  assert (Eo : forall i j, out i j = pad_of s m (fun i j => (F i j * St i j)%C) i j).
  { intros i j. unfold out, fl_output, pad_of, pad_fun. destruct (_ && _)%bool; [apply link_product|reflexivity]. }
  assert (Ei : forall i j, (i < NY s m)%nat -> (j < NX s m)%nat -> image i j = (fftshift2 (NY s m) (NX s m) (ifft2 (NY s m) (NX s m) (ifftshift2 (NY s m) (NX s m) (pad_of s m (fun i j => (F i j * St i j)%C)))) i j * RtoC (norm_of s m))%C).
  { intros i j _ _. unfold image, fl_to_image. rewrite link_product. apply f_equal2.
    - replace out with (pad_of s m (fun i j => (F i j * St i j)%C)); [reflexivity|]. apply functional_extensionality. intros k. apply functional_extensionality. intros l. symmetry. apply Eo.
    - unfold norm_of, fl_norm_factor, fl_fourier_area. cbn [rnd dbl exact]. rewrite EN. reflexivity. }
  assert (Ho' : field_is (f_output m') (NY s m) (NX s m) out) by (apply (field_is_ext _ _ _ _ out) in Ho; [exact Ho|intros; symmetry; apply Eo]).
  assert (Hi' : field_is (f_image m') (NY s m) (NX s m) image) by (apply (field_is_ext _ _ _ _ image) in Hi; [exact Hi|intros; symmetry; apply Ei; assumption]).
  split; [exact Ho'|]. split; [exact Hi'|]. split.
  - rewrite (output_power_eq _ _ _ _ _ Ho'). unfold fl_output_power. rewrite (link_power _ _ _ _ _ _ T). unfold fl_fourier_area. cbn [dbl exact]. f_equal. rewrite Rmult_comm. reflexivity.
  - assert (Qx : sim_Nx s m' = sim_Nx s m) by (unfold sim_Nx; rewrite Epx; reflexivity). assert (Qy : sim_Ny s m' = sim_Ny s m) by (unfold sim_Ny; rewrite Epy; reflexivity).
    rewrite (image_power_eq _ _ _ _ _ Hi') by (rewrite ?Qx, ?Qy; assumption). unfold fl_image_power. rewrite (link_power _ _ _ _ _ _ T). unfold fl_image_area. cbn [dbl exact]. rewrite EN, Qx, Qy. f_equal. rewrite Rmult_comm. reflexivity.
Qed.

(** Single precision. *)
Lemma bernoulli x n : 0 <= x -> INR n * x < 1 -> (1 + x) ^ n <= / (1 - INR n * x).
Proof.
  intros Hx Hn. apply Rmult_le_reg_r with (1 - INR n * x); [lra|]. rewrite Rinv_l by lra. induction n as [|n IH].
  - cbn [pow INR]. lra.
  - rewrite S_INR in *. assert (G := pos_INR n). assert (IH' := IH ltac:(nra)). cbn [pow].
    apply Rle_trans with ((1 + x) ^ n * (1 - INR n * x)); [|exact IH']. rewrite (Rmult_comm (1 + x)), Rmult_assoc. apply Rmult_le_compat_l; [apply pow_le; lra|]. nra.
Qed.
Lemma inv2 n m : (n <= m)%nat -> / 2 ^ m <= / 2 ^ n.
Proof. intros Q. apply Rinv_le_contravar; [apply pow_lt; lra|apply Rle_pow; [lra|exact Q]]. Qed.
Lemma inv2_add n m : / 2 ^ (n + m) = / 2 ^ n * / 2 ^ m.
Proof. rewrite pow_add. apply Rinv_mult. Qed.
Lemma inv2_pow n m : 2 ^ n * / 2 ^ (n + m) = / 2 ^ m.
Proof. rewrite inv2_add, <- Rmult_assoc, Rinv_r, Rmult_1_l by (apply pow_nonzero; lra). reflexivity. Qed.
Lemma quarter : / 4 = / 2 ^ 2. Proof. cbn [pow]. lra. Qed.
Lemma single_far ny nx ps sf : (0 < ny)%nat -> (0 < nx)%nat -> (Z.of_nat (ny * nx) <= 2 ^ 24)%Z -> / 2 ^ 30 <= ps <= 1 -> / 2 ^ 40 <= sf <= 1 -> far_from_underflow (/ 2 ^ 24) (/ 2 ^ 150) ny nx ps sf.
Proof.
  intros Hny Hnx HN [P1 P2] [S1 S2]. unfold far_from_underflow. cbv zeta. set (N := INR (ny * nx)).
  assert (N1 : 1 <= N) by (unfold N; change 1 with (INR 1); apply le_INR; nia). assert (N2 : N <= 2 ^ 24).
  { unfold N. rewrite INR_IZR_INZ, (pow_IZR 2 24). apply IZR_le. exact HN. } clearbody N.
  assert (Q : forall x, / 2 ^ 104 <= x -> / 2 ^ 150 <= / 2 ^ 24 * x / 4).
  { intros x Hx. apply Rle_trans with (/ 2 ^ 24 * / 2 ^ 104 / 4); [|unfold Rdiv; apply Rmult_le_compat_r; [lra|]; apply Rmult_le_compat_l; [left; apply Rinv_0_lt_compat, pow_lt; lra|exact Hx]].
    unfold Rdiv. rewrite quarter, <- !inv2_add. apply inv2. lia. }
  assert (Z30 : 0 < / 2 ^ 30) by (apply Rinv_0_lt_compat, pow_lt; lra). assert (Z40 : 0 < / 2 ^ 40) by (apply Rinv_0_lt_compat, pow_lt; lra).
  assert (Pp : 0 < ps) by lra. assert (Ps : 0 < sf) by lra. assert (PP : / 2 ^ 60 <= ps ^ 2).
  { replace (/ 2 ^ 60) with ((/ 2 ^ 30) ^ 2) by (rewrite pow_inv, <- pow_mult; reflexivity). apply pow_incr. lra. }
  assert (SS : / 2 ^ 80 <= sf ^ 2). { replace (/ 2 ^ 80) with ((/ 2 ^ 40) ^ 2) by (rewrite pow_inv, <- pow_mult; reflexivity). apply pow_incr. lra. }
  assert (G60 : / 2 ^ 104 <= / 2 ^ 60) by (apply inv2; lia). assert (G80 : / 2 ^ 104 <= / 2 ^ 80) by (apply inv2; lia).
  assert (SN : / 2 ^ 104 <= sf ^ 2 / N).
  { replace (/ 2 ^ 104) with (/ 2 ^ 80 * / 2 ^ 24) by (symmetry; apply (inv2_add 80 24)).
    apply Rmult_le_compat; [left; apply Rinv_0_lt_compat, pow_lt; lra|left; apply Rinv_0_lt_compat, pow_lt; lra|exact SS|apply Rinv_le_contravar; lra]. }
  assert (p1 : ps ^ 2 <= 1) by nra. assert (p0 : 0 < ps ^ 2) by nra.
  repeat (apply Forall_cons; [apply Q; try lra|]); [| |apply Forall_nil].
  - apply Rle_trans with (sf ^ 2 / N); [exact SN|]. unfold Rdiv at 2. assert (1 <= / ps ^ 2) by (rewrite <- Rinv_1; apply Rinv_le_contravar; lra). assert (0 < / 2 ^ 104) by (apply Rinv_0_lt_compat, pow_lt; lra). nra.
  - apply Rle_trans with (ps ^ 2); [lra|]. assert (I : 1 <= / sf) by (rewrite <- Rinv_1; apply Rinv_le_contravar; lra). unfold Rdiv. assert (ps ^ 2 <= N * ps ^ 2) by nra. nra.
Qed.
Lemma single_powers w w' F d Ny Nx py px ps sf input state t t' :
  let ny := (py + Ny + py)%nat in let nx := (px + Nx + px)%nat in
  (0 < Ny)%nat -> (0 < Nx)%nat -> (Z.of_nat (ny * nx) <= 2 ^ 24)%Z -> / 2 ^ 30 <= ps <= 1 -> / 2 ^ 40 <= sf <= 1 ->
  each_once ny nx t -> each_once ny nx t' -> (depth t <= 64)%nat -> (depth t' <= 64)%nat -> 0 <= d -> accurate single (/ 2 ^ 18) d ny nx (F ny nx) ->
  let out := fl_output single py px Ny Nx input state in
  let P := field_power Ny Nx (ps ^ 2) (fun i j => fl_cmul single (input i j) (state i j)) in
  near (/ 2 ^ 15) (/ 2 ^ 40) (sqrt P) (sqrt (fl_output_power single w ps out t)) /\
  near (/ 2 ^ 15) (2 ^ 13 * d + / 2 ^ 40) (sqrt P) (sqrt (fl_image_power single w' ny nx ps sf (fl_to_image single F ny nx ps sf out) t')).
Proof.
  intros ny nx Hny Hnx HN Hps Hsf T T' D D' Hd HF out P.
  assert (U24 : / 2 ^ 24 = / 16777216) by (f_equal; rewrite (pow_IZR 2 24); reflexivity). assert (U15 : / 2 ^ 15 = / 32768) by (f_equal; rewrite (pow_IZR 2 15); reflexivity).
  assert (U18 : / 2 ^ 18 = / 262144) by (f_equal; rewrite (pow_IZR 2 18); reflexivity).
  assert (FU := single_far ny nx ps sf ltac:(unfold ny; lia) ltac:(unfold nx; lia) HN Hps Hsf).
  assert (Z30 : 0 < / 2 ^ 30) by (apply Rinv_0_lt_compat, pow_lt; lra). assert (Z40 : 0 < / 2 ^ 40) by (apply Rinv_0_lt_compat, pow_lt; lra). assert (Z150 : 0 < / 2 ^ 150) by (apply Rinv_0_lt_compat, pow_lt; lra).
  destruct (rounded_powers single (/ 2 ^ 24) (/ 2 ^ 150) (/ 2 ^ 53) (/ 2 ^ 1075) (2 ^ 24) (2 ^ 53) w w' F (/ 2 ^ 18) d Ny Nx py px ps sf input state t t' binary32_arithmetic ltac:(lia) binary64_arithmetic ltac:(lia)
    ltac:(rewrite U24; lra) ltac:(lra) ltac:(apply inv2; lia) ltac:(apply inv2; lia) Hny Hnx ltac:(fold ny nx; lia) ltac:(lra) ltac:(lra) FU T T' ltac:(rewrite U18; lra) Hd HF) as [R1 R2].
  fold ny nx out P in R1, R2. assert (PB : forall k, (k <= 77)%nat -> 1 <= (1 + 4 * / 2 ^ 24) ^ k <= 1 + 1 / 50000).
  { intros k Hk. rewrite U24. split; [apply pow_ge_1; lra|]. apply Rle_trans with ((1 + 4 * / 16777216) ^ 77); [apply Rle_pow; [lra|exact Hk]|].
    eapply Rle_trans; [apply bernoulli; [lra|]|]; replace (INR 77) with 77 by (rewrite INR_IZR_INZ; reflexivity); [lra|]. apply Rmult_le_reg_r with (1 - 77 * (4 * / 16777216)); [lra|]. rewrite Rinv_l by lra. lra. }
  assert (SE : sqrt (/ 2 ^ 150) = / 2 ^ 75).
  { rewrite <- (sqrt_pow2 (/ 2 ^ 75)) by (left; apply Rinv_0_lt_compat, pow_lt; lra). f_equal. rewrite pow_inv, <- pow_mult. reflexivity. }
  assert (SN : 0 <= sqrt (INR (ny * nx)) <= 2 ^ 12).
  { split; [apply sqrt_pos|]. rewrite <- (sqrt_pow2 (2 ^ 12)) by (apply pow_le; lra). apply sqrt_le_1_alt. rewrite <- pow_mult. rewrite INR_IZR_INZ, (pow_IZR 2 (12 * 2)). apply IZR_le. exact HN. }
  assert (B1 := PB (depth t + 5)%nat ltac:(lia)). assert (B2 := PB (depth t' + 13)%nat ltac:(lia)). set (V := (1 + 4 * / 2 ^ 24) ^ (depth t + 5)) in *. set (W := (1 + 4 * / 2 ^ 24) ^ (depth t' + 13)) in *. clearbody V W.
  rewrite SE in R1, R2. set (sn := sqrt (INR (ny * nx))) in *. clearbody sn.
  assert (X12 : 2 ^ 12 = 4096) by (rewrite (pow_IZR 2 12); reflexivity). assert (X13 : 2 ^ 13 = 8192) by (rewrite (pow_IZR 2 13); reflexivity).
  assert (E40 : forall x, 0 <= x <= 2 ^ 33 -> 2 * (/ 2 ^ 75 * x) <= / 2 ^ 40 / 2).
  { intros x Hx. assert (Z75 : 0 < / 2 ^ 75) by (apply Rinv_0_lt_compat, pow_lt; lra). apply Rle_trans with (2 * (/ 2 ^ 75 * 2 ^ 33)); [apply Rmult_le_compat_l; [lra|]; apply Rmult_le_compat_l; lra|].
    rewrite (Rmult_comm (/ 2 ^ 75)). rewrite (inv2_pow 33 42 : 2 ^ 33 * / 2 ^ 75 = _). rewrite (inv2_add 40 2 : / 2 ^ 42 = _), <- quarter. lra. }
  assert (X33 : 2 ^ 33 = 8589934592) by (rewrite (pow_IZR 2 33); reflexivity). assert (X30 : 2 ^ 30 = 1073741824) by (rewrite (pow_IZR 2 30); reflexivity).
  assert (Z75 : 0 < / 2 ^ 75) by (apply Rinv_0_lt_compat, pow_lt; lra).
  assert (SP : 0 <= sf / ps <= 2 ^ 30).
  { assert (I : 0 < / ps) by (apply Rinv_0_lt_compat; lra). split; [apply Rmult_le_pos; lra|]. replace (2 ^ 30) with (1 * / / 2 ^ 30) by (rewrite Rinv_inv; ring). apply Rmult_le_compat; try lra. apply Rinv_le_contravar; lra. }
  split.
  - eapply near_weaken; [| |exact R1]; [lra|]. assert (Y : 0 <= 3 * (ps * sn) + 1 <= 2 ^ 33) by nra. assert (K := E40 _ Y).
    set (q := / 2 ^ 75 * (3 * (ps * sn) + 1)) in *. assert (0 <= q) by (unfold q; apply Rmult_le_pos; lra). clearbody q. nra.
  - eapply near_weaken; [| |exact R2].
    + rewrite U18, U15. nra.
    + rewrite X13. assert (Y : 0 <= 3 * (sf / ps) + 1 <= 2 ^ 33) by lra. assert (K := E40 _ Y). set (q := / 2 ^ 75 * (3 * (sf / ps) + 1)) in *. assert (0 <= q) by (unfold q; apply Rmult_le_pos; lra). clearbody q.
      assert (K2 : 2 * (2 * (sf / ps) * / 2 ^ 150) <= / 2 ^ 40 / 4).
      { apply Rle_trans with (2 * (2 * 2 ^ 30 * / 2 ^ 150)); [apply Rmult_le_compat_l; [lra|]; apply Rmult_le_compat_r; lra|]. rewrite (Rmult_assoc 2 (2 ^ 30)), (inv2_pow 30 120 : 2 ^ 30 * / 2 ^ 150 = _).
        unfold Rdiv. rewrite quarter, <- (inv2_add 40 2). rewrite (inv2_add (40 + 2) 78 : / 2 ^ 120 = _). assert (G78 : / 2 ^ 78 <= / 2 ^ 2) by (apply inv2; lia). rewrite <- quarter in G78. assert (0 < / 2 ^ (40 + 2)) by (apply Rinv_0_lt_compat, pow_lt; lra). nra. }
      assert (0 <= 2 * (sf / ps) * / 2 ^ 150) by (apply Rmult_le_pos; [lra|lra]). set (r := 2 * (sf / ps) * / 2 ^ 150) in *. clearbody r.
      assert (DD : 0 <= ps * sn * d <= 4096 * d). { split; [apply Rmult_le_pos; [apply Rmult_le_pos; lra|exact Hd]|]. apply Rmult_le_compat_r; [exact Hd|]. nra. }
      set (z := ps * sn * d) in *. clearbody z. nra.
Qed.
(** Pairwise summation of any list of pixels. *)
Lemma balanced k l : l <> nil -> (Z.of_nat (length l) <= 2 ^ Z.of_nat k)%Z -> exists t, pixels t = l /\ (depth t <= k)%nat.
Proof.
  revert l. induction k as [|k IH]; intros l Hl Hn.
  - destruct l as [|[i j] [|q l]]; [contradiction| |cbn [length] in Hn; change (2 ^ Z.of_nat 0)%Z with 1%Z in Hn; lia]. exists (Pixel i j). split; [reflexivity|cbn; lia].
  - destruct l as [|p [|q l]]; [contradiction| |].
    + destruct p as [i j]. exists (Pixel i j). split; [reflexivity|cbn; lia].
    + set (L := p :: q :: l) in *. set (h := (length L / 2)%nat). assert (E : (length L = 2 * h \/ length L = 2 * h + 1)%nat) by (unfold h; pose proof (Nat.div_mod (length L) 2 ltac:(lia)); pose proof (Nat.mod_upper_bound (length L) 2 ltac:(lia)); lia).
      assert (L2 : (2 <= length L)%nat) by (unfold L; cbn [length]; lia).
      assert (P2 : (2 ^ Z.of_nat (S k) = 2 * 2 ^ Z.of_nat k)%Z) by (rewrite Nat2Z.inj_succ, Z.pow_succ_r by lia; reflexivity).
      destruct (IH (firstn h L)) as (t1 & E1 & D1). { intros Q. apply (f_equal (@length _)) in Q. rewrite firstn_length in Q. cbn [length] in Q. lia. } { rewrite firstn_length. lia. }
      destruct (IH (skipn h L)) as (t2 & E2 & D2). { intros Q. apply (f_equal (@length _)) in Q. rewrite skipn_length in Q. cbn [length] in Q. lia. } { rewrite skipn_length. lia. }
      exists (Added t1 t2). cbn [pixels depth]. rewrite E1, E2, firstn_skipn. split; [reflexivity|lia].
Qed.
Lemma pairwise ny nx k : (0 < ny)%nat -> (0 < nx)%nat -> (Z.of_nat (ny * nx) <= 2 ^ Z.of_nat k)%Z -> exists t, each_once ny nx t /\ (depth t <= k)%nat.
Proof.
  intros Hy Hx HN. assert (L : length (list_prod (seq 0 ny) (seq 0 nx)) = (ny * nx)%nat) by (rewrite prod_length, !seq_length; reflexivity).
  destruct (balanced k (list_prod (seq 0 ny) (seq 0 nx))) as (t & E & D). { intros Q. rewrite Q in L. cbn [length] in L. nia. } { rewrite L. exact HN. }
  exists t. split; [unfold each_once; rewrite E; apply Permutation_refl|exact D].
Qed.
Lemma accurate_weaken a e e' d ny nx F : e <= e' -> accurate a e d ny nx F -> accurate a e' d ny nx F.
Proof. intros He HF f Hf. eapply Rle_trans; [apply HF, Hf|]. apply Rplus_le_compat_r. apply Rmult_le_compat_r; [apply norm_ge_0|exact He]. Qed.
