(** Single and double precision. *)
From Coq Require Import Reals Lra Lia ZArith Arith List.
From Verif Require Import Cx PyBase ProfileModel SlmModel LibModel DmdModel SimModel SimSpec FloatModel FloatSpec FloatFacts FloatFacts4 FftFacts3 FlGridModel FlGridSpec FlGridFacts2 FlWinFacts FlWinFacts2.
Open Scope R_scope.

Lemma single_range n ps sf : (0 < n)%nat -> (Z.of_nat n <= 2 ^ 20)%Z -> / 2 ^ 40 <= ps <= 1 -> / 2 ^ 40 <= sf -> no_underflow (/ 2 ^ 24) (/ 2 ^ 150) (/ 2 ^ 53) (/ 2 ^ 1075) n ps sf.
Proof.
  intros N N20 Hp Hs. assert (N1 : 1 <= INR n) by (change 1 with (INR 1); apply le_INR; lia).
  assert (N2 : INR n <= 2 ^ 20) by (rewrite INR_IZR_INZ, (pow_IZR 2 20); apply IZR_le; exact N20).
  assert (D : 0 < INR n * ps) by (apply Rmult_lt_0_compat; lra). assert (D2 : INR n * ps <= 2 ^ 20) by (assert (INR n * ps <= 2 ^ 20 * 1) by (apply Rmult_le_compat; lra); lra).
  assert (I : / 2 ^ 20 <= 1 / (INR n * ps)) by (unfold Rdiv; rewrite Rmult_1_l; apply Rinv_le_contravar; assumption).
  assert (S : / 2 ^ 60 <= sf / (INR n * ps)). { unfold Rdiv in *. rewrite Rmult_1_l in I. assert (/ 2 ^ 40 * / 2 ^ 20 <= sf * / (INR n * ps)) by (apply Rmult_le_compat; lra). lra. }
  assert (E1 : 0 < / 2 ^ 150 <= / 2 ^ 120) by (apply inv_le; lia). assert (E2 : 0 < / 2 ^ 1075 <= / 2 ^ 200) by (apply inv_le; lia).
  set (e1 := / 2 ^ 150) in *. set (e2 := / 2 ^ 1075) in *. clearbody e1 e2.
  assert (Q : forall c x y, 0 <= c -> y <= x -> c * y <= c * x) by (intros; apply Rmult_le_compat_l; assumption).
  unfold no_underflow. repeat split.
  - eapply Rle_trans; [|apply Q; [apply pow2_ge_0|exact (proj1 Hp)]]. lra.
  - eapply Rle_trans; [|apply Q; [apply pow2_ge_0|exact Hs]]. lra.
  - assert (I4 : / 2 ^ 20 / 4 <= 1 / (INR n * ps) / 4) by lra. eapply Rle_trans; [|apply Q; [apply pow2_ge_0|exact I4]]. lra.
  - assert (I4 : / 2 ^ 40 / 4 <= sf / 4) by lra. eapply Rle_trans; [|apply Q; [apply pow2_ge_0|exact I4]]. lra.
  - assert (I4 : / 2 ^ 20 / 4 <= 1 / (INR n * ps) / 4) by lra. eapply Rle_trans; [|apply Q; [apply pow2_ge_0|exact I4]]. lra.
  - assert (I4 : / 2 ^ 60 / 4 <= sf / (INR n * ps) / 4) by lra. eapply Rle_trans; [|apply Q; [apply pow2_ge_0|exact I4]]. lra.
Qed.
Lemma image_grid_single nx ny ps wl : (0 < ny)%nat -> (0 < nx)%nat -> (Z.of_nat ny <= 2 ^ 20)%Z -> (Z.of_nat nx <= 2 ^ 20)%Z -> / 2 ^ 40 <= ps <= 1 -> / 2 ^ 40 <= wl ->
  exists X Y, grid_is (fl_image_grid_of single nx ny ps (dbl single wl)) ny nx (fun _ j => X j) (fun i _ => Y i) /\
    (forall j j', (j < j' < nx)%nat -> X j < X j') /\ (forall i i', (i < i' < ny)%nat -> Y i' < Y i) /\
    (forall j, (j < nx)%nat -> Rabs (X j - image_coordinate nx ps wl j) <= 4 * / 2 ^ 24 * Rabs (image_coordinate nx ps wl j)) /\
    (forall i, (i < ny)%nat -> Rabs (Y i + image_coordinate ny ps wl i) <= 4 * / 2 ^ 24 * Rabs (image_coordinate ny ps wl i)).
Proof.
  intros Ny Nx Hy Hx Hp Hw.
  assert (E53 : / 2 ^ 53 <= / 2 ^ 24 / 1000) by lra. assert (P53 : 0 <= / 2 ^ 53) by lra.
  destruct (image_grid_rounded single _ _ _ _ _ _ binary32_arithmetic binary64_arithmetic ltac:(lia) ltac:(lia) ltac:(lra) ltac:(lra) nx ny ps wl Hy Hx ltac:(lra) ltac:(lra) (single_range nx ps wl Nx Hx Hp Hw) (single_range ny ps wl Ny Hy Hp Hw))
    as (X & Y & G & MX & MY & _ & _ & _ & _ & EX & EY).
  exists X, Y. split; [exact G|]. split; [exact MX|]. split; [exact MY|].
  assert (L : 301 / 100 * / 2 ^ 24 + 401 / 100 * / 2 ^ 53 <= 4 * / 2 ^ 24) by lra.
  split; [intros j Hj; eapply Rle_trans; [exact (EX j Hj)|]|intros i Hi; eapply Rle_trans; [exact (EY i Hi)|]]; (apply Rmult_le_compat_r; [apply Rabs_pos|exact L]).
Qed.
Lemma pixel_window_single nx ny ps wl X Y ci cj m l i j : / 2 ^ 40 <= ps <= 1 -> / 2 ^ 40 <= wl -> grid_is (fl_image_grid_of single nx ny ps (dbl single wl)) ny nx X Y ->
  (Z.of_nat nx <= 2 ^ 14)%Z -> (Z.of_nat ny <= 2 ^ 14)%Z -> (ci < ny)%nat -> (cj < nx)%nat -> (m <= nx)%nat -> (l <= ny)%nat -> (i < ny)%nat -> (j < nx)%nat ->
  fl_rect_value single (image_coordinate nx ps wl cj) (- image_coordinate ny ps wl ci) ((2 * INR m + 1) * (wl / (INR nx * ps))) ((2 * INR l + 1) * (wl / (INR ny * ps))) (X i j) (Y i j) =
  if ((j <=? cj + m) && (cj <=? j + m) && (i <=? ci + l) && (ci <=? i + l))%nat%bool then 1 else 0.
Proof.
  intros Hp Hw G Nx Ny Hci Hcj Hm Hl Hi Hj.
  assert (E53 : / 2 ^ 53 <= / 2 ^ 24 / 1000) by lra. assert (P53 : 0 <= / 2 ^ 53) by lra.
  assert (E150 : 0 < / 2 ^ 150 <= / 2 ^ 1) by (apply inv_le; lia).
  assert (He : 0 <= / 2 ^ 150 <= 1) by (split; [left; exact (proj1 E150)|eapply Rle_trans; [exact (proj2 E150)|lra]]).
  assert (Nx' : (Z.of_nat nx <= 2 ^ 20)%Z) by lia. assert (Ny' : (Z.of_nat ny <= 2 ^ 20)%Z) by lia.
  exact (pixel_window single _ _ _ _ _ _ nx ny ps wl X Y binary32_arithmetic binary64_arithmetic ltac:(lia) ltac:(lia) ltac:(lra) ltac:(lra) He Ny' Nx' ltac:(lra) ltac:(lra)
    (single_range nx ps wl ltac:(lia) Nx' Hp Hw) (single_range ny ps wl ltac:(lia) Ny' Hp Hw) G ci cj m l i j Nx Ny Hci Hcj Hm Hl Hi Hj).
Qed.
Lemma padded_image_grid a u eta u' eta' B B' s m : arithmetic u eta B (rnd a) -> arithmetic u' eta' B' (dbl a) -> (2 ^ 22 <= B)%Z -> (2 ^ 22 <= B')%Z ->
  0 <= u <= / 2 ^ 24 -> 0 <= u' <= / 2 ^ 24 -> (0 <= pad_x m)%Z -> (0 <= pad_y m)%Z -> let nx := (s_Nx s + 2 * Z.to_nat (pad_x m))%nat in let ny := (s_Ny s + 2 * Z.to_nat (pad_y m))%nat in
  (Z.of_nat ny <= 2 ^ 20)%Z -> (Z.of_nat nx <= 2 ^ 20)%Z -> 0 < pixel_size s -> 0 < wavelength s * focal_length s ->
  let ps := pixel_size s in let sf := wavelength s * focal_length s in
  no_underflow u eta u' eta' nx ps sf -> no_underflow u eta u' eta' ny ps sf ->
  exists X Y, grid_is (fl_image_plane_padded_grid a s m) ny nx (fun _ j => X j) (fun i _ => Y i) /\
    (forall j j', (j < j' < nx)%nat -> X j < X j') /\ (forall i i', (i < i' < ny)%nat -> Y i' < Y i) /\
    X (nx / 2)%nat = 0 /\ Y (ny / 2)%nat = 0 /\
    (forall j j', (j + j' = 2 * (nx / 2))%nat -> X j = - X j') /\ (forall i i', (i + i' = 2 * (ny / 2))%nat -> Y i = - Y i') /\
    (forall j, (j < nx)%nat -> Rabs (X j - image_coordinate nx ps sf j) <= (301 / 100 * u + 401 / 100 * u') * Rabs (image_coordinate nx ps sf j)) /\
    (forall i, (i < ny)%nat -> Rabs (Y i + image_coordinate ny ps sf i) <= (301 / 100 * u + 401 / 100 * u') * Rabs (image_coordinate ny ps sf i)).
Proof.
  intros H H' HB HB' Hu Hu' Px Py nx ny Hy Hx Hp Hw ps sf Ux Uy. unfold fl_image_plane_padded_grid.
  replace (Z.to_nat (sim_Nx s m)) with nx by (unfold sim_Nx, nx; lia). replace (Z.to_nat (sim_Ny s m)) with ny by (unfold sim_Ny, ny; lia).
  exact (image_grid_rounded a u eta u' eta' B B' H H' HB HB' Hu Hu' nx ny ps sf Hy Hx Hp Hw Ux Uy).
Qed.
Lemma windows_exact a u eta B x0 y0 x y : arithmetic u eta B (rnd a) -> (2 ^ 22 <= B)%Z ->
  (forall wx wy wx' wy', wx <= wx' -> wy <= wy' -> fl_rect_value a x0 y0 wx wy x y <= fl_rect_value a x0 y0 wx' wy' x y) /\
  (forall r r', Rabs r <= Rabs r' -> fl_circ_value a x0 y0 r x y <= fl_circ_value a x0 y0 r' x y) /\
  (forall wx wy, wx <= 0 \/ wy <= 0 -> fl_rect_value a x0 y0 wx wy x y = 0) /\
  (forall wx wy, fl_rect_value a 0 0 wx wy (- x) y = fl_rect_value a 0 0 wx wy x y /\ fl_rect_value a 0 0 wx wy x (- y) = fl_rect_value a 0 0 wx wy x y) /\
  (forall r, fl_circ_value a 0 0 r (- x) y = fl_circ_value a 0 0 r x y /\ fl_circ_value a 0 0 r x (- y) = fl_circ_value a 0 0 r x y).
Proof.
  intros H HB. split; [|split; [|split; [|split]]].
  - intros; eapply rect_nested; eassumption.
  - intros; eapply circ_nested; eassumption.
  - intros; eapply rect_empty; eassumption.
  - intros; eapply rect_symmetric; eassumption.
  - intros; eapply circ_symmetric; eassumption.
Qed.
