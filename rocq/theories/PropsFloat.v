(** Properties of the floating-point evaluation (C95-C99). *)
From Coq Require Import Reals Lra ZArith List Permutation Lia Psatz.
From Coquelicot Require Import Rcomplements Complex.
From Verif Require Import Cx Sums PyBase ProfileModel SlmModel LibModel DmdModel FloatModel FloatSpec FloatFacts FloatFacts2 FloatFacts3 FloatFacts4 FloatLink.
Open Scope R_scope.

(** The assumptions made of the arithmetic hold of IEEE double and single precision, with gradual underflow and with flush to zero. *)
Theorem C95_formats :
  arithmetic (/ 2 ^ 53) (/ 2 ^ 1075) (2 ^ 53) binary64 /\ arithmetic (/ 2 ^ 24) (/ 2 ^ 150) (2 ^ 24) binary32 /\
  arithmetic (/ 2 ^ 53) (2 * (/ 2 ^ 1022 + / 2 ^ 1075)) (2 ^ 53) (flushed (/ 2 ^ 1022) binary64) /\
  arithmetic (/ 2 ^ 24) (2 * (/ 2 ^ 126 + / 2 ^ 150)) (2 ^ 24) (flushed (/ 2 ^ 126) binary32) /\ library double /\ library single.
Proof. exact (conj binary64_arithmetic (conj binary32_arithmetic (conj flushed64 (conj flushed32 (conj double_library single_library))))). Qed.
Print Assumptions C95_formats.

(** Whatever the rounding errors, the normalised amplitude lies in [0, 1], reaches 1, and vanishes where nothing is wanted. *)
Theorem C95_amplitudes_in_range : forall a u eta B ny nx amp_out amp_in, arithmetic u eta B (rnd a) -> (2 ^ 22 <= B)%Z ->
  (forall i j, (i < ny)%nat -> (j < nx)%nat -> 0 <= amp_out i j /\ (amp_out i j <> 0 -> 0 < amp_in i j)) ->
  (exists i j, (i < ny)%nat /\ (j < nx)%nat /\ amp_out i j <> 0 /\ 0 < rnd a (amp_out i j / amp_in i j)) ->
  exists A, (forall i j, (i < ny)%nat -> (j < nx)%nat -> fl_amp_scaled a ny nx amp_out amp_in i j = Fin (A i j) /\ 0 <= A i j <= 1 /\ rnd a (A i j) = A i j /\
    (amp_out i j = 0 -> A i j = 0)) /\ exists i j, (i < ny)%nat /\ (j < nx)%nat /\ A i j = 1.
Proof. exact (fun a u eta B ny nx o i H HB => amplitudes a u eta B H HB ny nx o i). Qed.
Print Assumptions C95_amplitudes_in_range.
Theorem C95_grey_levels_in_range : forall a u eta B neg A pin pout x y p theta, arithmetic u eta B (rnd a) -> (2 ^ 22 <= B)%Z -> library a ->
  0 <= A <= 1 -> rnd a A = A ->
  0 <= fl_ideal a neg A pin pout x y p theta <= A /\
  (fl_simple a neg A pin pout x y p theta = true -> 1 / 2 < A /\ 0 < fl_fringe a neg pin pout x y p theta) /\
  (forall r v, fl_random a neg A pin pout x y p theta r v = true -> v < 1 /\ (0 <= v -> A <> 0)).
Proof.
  exact (fun a u eta B neg A pin pout x y p theta H HB L HA HR =>
    conj (ideal_range a u eta B H HB L neg A pin pout x y p theta (proj1 HA) HR)
      (conj (simple_on a u eta B H HB L neg A pin pout x y p theta HA) (fun r v => random_range a u eta B H HB L neg A pin pout x y p theta r v))).
Qed.
Print Assumptions C95_grey_levels_in_range.
(** A larger amplitude never turns a mirror off. *)
Theorem C95_simple_monotone : forall a u eta B neg A A' pin pout x y p theta, arithmetic u eta B (rnd a) -> (2 ^ 22 <= B)%Z -> library a ->
  0 <= A <= A' -> fl_simple a neg A pin pout x y p theta = true -> fl_simple a neg A' pin pout x y p theta = true.
Proof. exact (fun a u eta B neg A A' pin pout x y p theta H HB L => simple_monotone a u eta B H HB L neg A A' pin pout x y p theta). Qed.
Print Assumptions C95_simple_monotone.
(** Without rounding the formulas are those of the exact model, about which all other theorems speak. *)
Theorem C95_no_rounding : (forall ny nx o n i j, fl_amp_scaled exact ny nx o n i j = xdiv (safe_ratio (o i j) (n i j)) (reduce_max (T2 ny nx (fun i j => safe_ratio (o i j) (n i j))))) /\
  forall neg A pin pout x y p theta, px_ideal neg (Fin A) pin pout x y p theta = Fin (fl_ideal exact neg A pin pout x y p theta) /\
    px_simple neg (Fin A) pin pout x y p theta = fl_simple exact neg A pin pout x y p theta /\
    (-1 <= A <= 1 -> forall r u, px_random neg (Fin A) pin pout x y p theta r u = fl_random exact neg A pin pout x y p theta r u).
Proof.
  exact (conj link_amplitude (fun neg A pin pout x y p theta => conj (link_ideal neg A pin pout x y p theta) (conj (link_simple neg A pin pout x y p theta)
    (fun HA r u => link_random neg A pin pout x y p theta r u HA)))).
Qed.
Print Assumptions C95_no_rounding.
Example C95_case : exists A, (forall i j, (i < 1)%nat -> (j < 2)%nat -> fl_amp_scaled single 1 2 (fun _ j => INR j / 3) (fun _ _ => 7) i j = Fin (A i j) /\ 0 <= A i j <= 1 /\
    rnd single (A i j) = A i j /\ (INR j / 3 = 0 -> A i j = 0)) /\ exists i j, (i < 1)%nat /\ (j < 2)%nat /\ A i j = 1.
Proof.
  apply (C95_amplitudes_in_range single _ _ _ 1 2 (fun _ j => INR j / 3) (fun _ _ => 7) binary32_arithmetic ltac:(lia)).
  - intros i j _ _. split; [|lra]. apply Rmult_le_pos; [apply pos_INR|lra].
  - exists 0%nat, 1%nat. cbn [INR]. repeat split; try lia; try lra.
    assert (E := ar_error _ _ _ _ binary32_arithmetic (1 / 3 / 7)). rewrite (Rabs_pos_eq (1 / 3 / 7)) in E by lra. apply Rcomplements.Rabs_le_between in E.
    assert (/ 2 ^ 150 <= / 2 ^ 24) by (apply Rinv_le_contravar; [apply pow_lt; lra|apply Rle_pow; [lra|lia]]). cbn [rnd single machine]. unfold single; cbn [rnd machine]. lra.
Qed.

(** The coordinates of the mirrors, as rounded: a product of a column and a row coordinate, symmetric about the axis, strictly ordered, accurate to
    two roundings; the padded grid of a simulation agrees with it to the last bit. *)
Theorem C96_grid_after_rounding : forall a u eta u' eta' B B' Ny Nx ps,
  arithmetic u eta B (rnd a) -> arithmetic u' eta' B' (dbl a) -> (2 ^ 22 <= B)%Z -> (2 ^ 22 <= B')%Z -> 0 <= u <= / 2 ^ 24 -> 0 <= eta ->
  (Z.of_nat Ny <= 2 ^ 20)%Z -> (Z.of_nat Nx <= 2 ^ 20)%Z -> 0 < ps -> eta <= u * ps / 2 ->
  exists X Y, (forall i j, (i <= Ny)%nat -> (j <= Nx)%nat -> fl_grid a Ny Nx ps i j = (X j, Y i)) /\
    (forall j j', (j < j')%nat -> (j' <= Nx)%nat -> X j < X j') /\ (forall i i', (i < i')%nat -> (i' <= Ny)%nat -> Y i' < Y i) /\
    (forall j j', (j + j' = Nx)%nat -> X j = - X j') /\ (forall i i', (i + i' = Ny)%nat -> Y i = - Y i') /\
    (forall j, (j <= Nx)%nat -> Rabs (X j - (INR j - INR Nx / 2) * ps) <= (2 * u + u ^ 2) * (Rabs (INR j - INR Nx / 2) * ps) + (INR Nx + 1) * eta) /\
    (forall i, (i <= Ny)%nat -> Rabs (Y i - (INR Ny / 2 - INR i) * ps) <= (2 * u + u ^ 2) * (Rabs (INR Ny / 2 - INR i) * ps) + (INR Ny + 1) * eta).
Proof. exact grid_after_rounding. Qed.
Print Assumptions C96_grid_after_rounding.
Theorem C96_padded_grid_identical : forall a u eta B Ny Nx ps py px i j, arithmetic u eta B (rnd a) -> (2 ^ 22 <= B)%Z -> (0 <= py <= 2 ^ 20)%Z -> (0 <= px <= 2 ^ 20)%Z ->
  (Z.of_nat i <= 2 ^ 20)%Z -> (Z.of_nat j <= 2 ^ 20)%Z -> fl_padded_grid a Ny Nx ps py px (i + Z.to_nat py) (j + Z.to_nat px) = fl_grid a Ny Nx ps i j.
Proof. exact padded_grid. Qed.
Print Assumptions C96_padded_grid_identical.
Theorem C96_index_recovered : forall a u eta u' eta' B B' Ny Nx ps i j,
  arithmetic u eta B (rnd a) -> arithmetic u' eta' B' (dbl a) -> (2 ^ 22 <= B)%Z -> (2 ^ 22 <= B')%Z -> 0 <= u <= / 2 ^ 24 -> 0 <= eta ->
  (Z.of_nat Ny <= 2 ^ 20)%Z -> (Z.of_nat Nx <= 2 ^ 20)%Z -> 0 < ps -> eta <= u * ps / 2 -> eta <= u -> (i <= Ny)%nat -> (j <= Nx)%nat ->
  let p := fl_to_index a Ny Nx ps (fst (fl_grid a Ny Nx ps i j)) (snd (fl_grid a Ny Nx ps i j)) in
  Rabs (fst p - INR i) <= 3 * u * (INR Ny + 3) /\ Rabs (snd p - INR j) <= 3 * u * (INR Nx + 3) /\ Rabs (fst p - INR i) < 1 / 2 /\ Rabs (snd p - INR j) < 1 / 2.
Proof. exact index_recovered. Qed.
Print Assumptions C96_index_recovered.
Theorem C96_no_rounding : forall s, (forall i j, fl_to_coordinate exact (s_Ny s) (s_Nx s) (pixel_size s) i j = pixel_to_coord s i j) /\
  (forall x y, fl_to_index exact (s_Ny s) (s_Nx s) (pixel_size s) x y = coord_to_pixel s x y).
Proof. exact (fun s => conj (link_grid s) (link_index s)). Qed.
Print Assumptions C96_no_rounding.
(** A DLP9500 in single precision: neighbouring columns are distinct. *)
Example C96_case : exists X Y, (forall i j, (i <= 1080)%nat -> (j <= 1920)%nat -> fl_grid single 1080 1920 size9500 i j = (X j, Y i)) /\
  (forall j j', (j < j')%nat -> (j' <= 1920)%nat -> X j < X j').
Proof.
  destruct (C96_grid_after_rounding single _ _ _ _ _ _ 1080 1920 size9500 binary32_arithmetic binary64_arithmetic) as (X & Y & G & MX & _);
    [lia|lia|lra|left; apply Rinv_0_lt_compat, pow_lt; lra|lia|lia|rewrite size9500_is; apply Rmult_lt_0_compat; [lra|apply Rinv_0_lt_compat, IZR_lt; reflexivity]| |exists X, Y; split; assumption].
  rewrite size9500_is. apply Rle_trans with (/ 2 ^ 100); [apply Rinv_le_contravar; [apply pow_lt; lra|apply Rle_pow; [lra|lia]]|]. rewrite (pow_IZR 2 100), (pow_IZR 2 24).
  apply Rmult_le_reg_r with (IZR (2 ^ Z.of_nat 100)); [apply IZR_lt; reflexivity|]. rewrite Rinv_l by (apply IZR_neq; discriminate).
  apply Rmult_le_reg_r with (IZR (2 ^ 69) * IZR (2 ^ Z.of_nat 24) * 2); [repeat apply Rmult_lt_0_compat; try lra; apply IZR_lt; reflexivity|].
  replace (/ IZR (2 ^ Z.of_nat 24) * (IZR 6375194751874021 / IZR (2 ^ 69)) / 2 * IZR (2 ^ Z.of_nat 100) * (IZR (2 ^ 69) * IZR (2 ^ Z.of_nat 24) * 2)) with (IZR 6375194751874021 * IZR (2 ^ Z.of_nat 100)) by (field; split; apply IZR_neq; discriminate).
  rewrite Rmult_1_l, <- !mult_IZR. apply IZR_le. intros Q. discriminate Q.
Qed.

(** Converting an index to a coordinate and back is not exact in double precision: column 26 of a DLP9500 comes back as 26 + 2^-43. *)
Theorem C97_index_round_trip_refuted :
  snd (fl_to_index double 1080 1920 size9500 (fst (fl_grid double 1080 1920 size9500 0 26)) (snd (fl_grid double 1080 1920 size9500 0 26))) = 26 + / IZR (2 ^ 43).
Proof. exact column26. Qed.
Print Assumptions C97_index_round_trip_refuted.

(** The circular mask is exact where centre and diameter are multiples of 2^-e that leave room in the mantissa. *)
Theorem C98_mask_exact : forall a u eta u' eta' B B' (ci cj cd : Z) e ii jj, arithmetic u eta B (rnd a) -> arithmetic u' eta' B' (dbl a) ->
  (2 * e + 2 <= 100)%nat -> (B <= B')%Z -> (Z.abs ci <= B)%Z -> (Z.abs cj <= B)%Z -> (Z.of_nat ii <= B)%Z -> (Z.of_nat jj <= B)%Z ->
  ((Z.of_nat jj * 2 ^ Z.of_nat e - cj) ^ 2 + (Z.of_nat ii * 2 ^ Z.of_nat e - ci) ^ 2 <= B)%Z -> (cd ^ 2 <= B)%Z ->
  (fl_circular_mask a (IZR ci / 2 ^ e) (IZR cj / 2 ^ e) (IZR cd / 2 ^ e) ii jj = true <->
   (INR jj - IZR cj / 2 ^ e) ^ 2 + (INR ii - IZR ci / 2 ^ e) ^ 2 < (IZR cd / 2 ^ e / 2) ^ 2).
Proof. exact (fun a u eta u' eta' B B' ci cj cd e ii jj H H' => mask_exact a u eta u' eta' B B' H H' ci cj cd e ii jj). Qed.
Print Assumptions C98_mask_exact.
Theorem C98_mask_exact_integer : forall a u eta u' eta' B B' (ci cj cd Ny Nx ii jj : nat), arithmetic u eta B (rnd a) -> arithmetic u' eta' B' (dbl a) -> (B <= B')%Z ->
  (Z.of_nat Ny ^ 2 + Z.of_nat Nx ^ 2 <= B)%Z -> (Z.of_nat cd ^ 2 <= B)%Z -> (ci <= Ny)%nat -> (cj <= Nx)%nat -> (ii <= Ny)%nat -> (jj <= Nx)%nat ->
  (fl_circular_mask a (INR ci) (INR cj) (INR cd) ii jj = true <-> (INR jj - INR cj) ^ 2 + (INR ii - INR ci) ^ 2 < (INR cd / 2) ^ 2).
Proof. exact mask_integer. Qed.
Print Assumptions C98_mask_exact_integer.
Theorem C98_no_rounding : forall i j d ii jj, fl_circular_mask exact i j d ii jj = circular_mask i j d (INR ii) (INR jj).
Proof. exact link_mask. Qed.
Print Assumptions C98_no_rounding.
(** The largest panel supported (DLP9000, 2560 x 1600), single precision, any integer centre and any diameter up to 4096. *)
Example C98_case : forall ci cj cd ii jj, (ci <= 1600)%nat -> (cj <= 2560)%nat -> (ii <= 1600)%nat -> (jj <= 2560)%nat -> (Z.of_nat cd <= 4096)%Z ->
  (fl_circular_mask single (INR ci) (INR cj) (INR cd) ii jj = true <-> (INR jj - INR cj) ^ 2 + (INR ii - INR ci) ^ 2 < (INR cd / 2) ^ 2).
Proof.
  intros ci cj cd ii jj Hci Hcj Hii Hjj Hd. apply (C98_mask_exact_integer single _ _ _ _ _ _ ci cj cd 1600 2560 ii jj binary32_arithmetic binary64_arithmetic); try assumption; lia || nia.
Qed.

(** A mirror panel never gains power, to the last bit, whatever the order of summation. *)
Theorem C99_passive_after_rounding : forall a u eta B u' eta' B' field area w t, arithmetic u eta B (rnd a) -> (2 ^ 22 <= B)%Z -> arithmetic u' eta' B' (dbl a) -> (2 ^ 22 <= B')%Z ->
  over t (fun i j => representable (rnd a) (field i j)) -> 0 <= area ->
  0 <= fl_power a w area field t /\
  (forall g, over t (fun i j => 0 <= g i j <= 1) -> fl_power a w area (fun i j => fl_cmul a (field i j) (grey_factor (g i j))) t <= fl_power a w area field t) /\
  (forall s s', over t (fun i j => s i j = true -> s' i j = true) ->
    0 <= fl_power a w area (fun i j => fl_cmul a (field i j) (bool_factor (s i j))) t <= fl_power a w area (fun i j => fl_cmul a (field i j) (bool_factor (s' i j))) t) /\
  (forall s, over t (fun i j => s i j = true) -> fl_power a w area (fun i j => fl_cmul a (field i j) (bool_factor (s i j))) t = fl_power a w area field t) /\
  (forall s, over t (fun i j => s i j = false) -> fl_power a w area (fun i j => fl_cmul a (field i j) (bool_factor (s i j))) t = 0).
Proof.
  exact (fun a u eta B u' eta' B' field area w t H HB H' HB' Hf Ha => conj (power_ge0 a u eta B H HB u' eta' B' H' HB' field area w t Hf Ha field) (conj (grey_passive a u eta B H HB u' eta' B' H' field area w t Hf Ha)
    (conj (fun s s' Hs => conj (power_ge0 a u eta B H HB u' eta' B' H' HB' field area w t Hf Ha _) (more_mirrors a u eta B H HB u' eta' B' H' field area w t Hf Ha s s' Hs))
      (conj (all_on a u eta B H HB field area w t Hf) (all_off a u eta B H HB u' eta' B' H' HB' field area w t Hf))))).
Qed.
Print Assumptions C99_passive_after_rounding.
(** The field behind a mirror that is on is the field before it, to the last bit. *)
Theorem C99_mirror_exact : forall a u eta B z b, arithmetic u eta B (rnd a) -> (2 ^ 22 <= B)%Z -> representable (rnd a) z ->
  fl_cmul a z (bool_factor b) = if b then z else (0, 0).
Proof. exact (fun a u eta B z b H HB => bool_product a u eta B H HB z b). Qed.
Print Assumptions C99_mirror_exact.
Theorem C99_no_rounding : (forall z w, fl_cmul exact z w = (z * w)%C) /\
  forall area field w t ny nx, Permutation (pixels t) (list_prod (seq 0 ny) (seq 0 nx)) ->
    fl_power exact w area field t = rsum2 ny nx (fun i j => fst (field i j) ^ 2 + snd (field i j) ^ 2) * area.
Proof. exact (conj link_product link_power). Qed.
Print Assumptions C99_no_rounding.
Example C99_case : forall area w, 0 <= area ->
  fl_power single w area (fun i j => fl_cmul single (INR j / 2, 3) (bool_factor (Nat.eqb j 0))) (Added (Pixel 0 0) (Pixel 0 1)) <= fl_power single w area (fun i j => (INR j / 2, 3)) (Added (Pixel 0 0) (Pixel 0 1)).
Proof.
  intros area w Ha. assert (Hf : over (Added (Pixel 0 0) (Pixel 0 1)) (fun i j => representable (rnd single) (INR j / 2, 3))).
  { cbn [over]. split; (split; cbn [fst snd]; [rewrite INR_IZR_INZ; apply (fl_half _ _ _ _ binary32_arithmetic); lia|apply (fl_int _ _ _ _ binary32_arithmetic 3); lia]). }
  destruct (C99_passive_after_rounding single _ _ _ _ _ _ (fun i j => (INR j / 2, 3)) area w _ binary32_arithmetic ltac:(lia) binary64_arithmetic ltac:(lia) Hf Ha) as (_ & _ & P & A & _).
  rewrite <- (A (fun _ _ => true)) by (cbn [over]; auto). apply (P (fun i j => Nat.eqb j 0) (fun _ _ => true)). cbn [over]. auto.
Qed.
