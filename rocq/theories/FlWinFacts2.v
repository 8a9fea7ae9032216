(** Windows sampled on the image-plane grid. *)
From Coq Require Import Reals Lra Lia ZArith Arith List.
From Flocq Require Import Core.Raux.
From Verif Require Import Cx PyBase ProfileModel SlmModel LibModel DmdModel SimModel SimSpec GridFacts FloatModel FloatSpec FloatFacts FlGridModel FlGridSpec FlGridFacts FlGridFacts2 FlWinFacts.
Open Scope R_scope.

Section Dev.
Variables (a : fpu) (u eta u' eta' : R) (B B' : Z) (nx ny : nat) (ps wl : R) (X Y : nat -> nat -> R).
Hypotheses (H : arithmetic u eta B (rnd a)) (H' : arithmetic u' eta' B' (dbl a)) (HB : (2 ^ 22 <= B)%Z) (HB' : (2 ^ 22 <= B')%Z) (Hu : 0 <= u <= / 2 ^ 24) (Hu' : 0 <= u' <= u) (He : 0 <= eta <= 1)
  (Hy : (Z.of_nat ny <= 2 ^ 20)%Z) (Hx : (Z.of_nat nx <= 2 ^ 20)%Z) (Hp : 0 < ps) (Hw : 0 < wl)
  (Ux : no_underflow u eta u' eta' nx ps wl) (Uy : no_underflow u eta u' eta' ny ps wl)
  (G : grid_is (fl_image_grid_of a nx ny ps (dbl a wl)) ny nx X Y).
Lemma near_coordinates i j : (i < ny)%nat -> (j < nx)%nat ->
  Rabs (X i j - image_coordinate nx ps wl j) <= 8 * u * Rabs (image_coordinate nx ps wl j) /\
  Rabs (Y i j - - image_coordinate ny ps wl i) <= 8 * u * Rabs (- image_coordinate ny ps wl i).
Proof.
  intros Hi Hj.
  assert (Hv : 0 <= u' <= / 2 ^ 24) by lra.
  destruct (image_grid_rounded a u eta u' eta' B B' H H' HB HB' Hu Hv nx ny ps wl Hy Hx Hp Hw Ux Uy) as (X1 & Y1 & G1 & _ & _ & _ & _ & _ & _ & EX & EY).
  destruct (grid_is_get _ _ _ _ _ i j G Hi Hj) as [<- <-]. destruct (grid_is_get _ _ _ _ _ i j G1 Hi Hj) as [-> ->].
  assert (Lu : 301 / 100 * u + 401 / 100 * u' <= 8 * u) by lra. split.
  - eapply Rle_trans; [exact (EX j Hj)|]. apply Rmult_le_compat_r; [apply Rabs_pos|exact Lu].
  - rewrite Rabs_Ropp. replace (Y1 i - - image_coordinate ny ps wl i) with (Y1 i + image_coordinate ny ps wl i) by ring.
    eapply Rle_trans; [exact (EY i Hi)|]. apply Rmult_le_compat_r; [apply Rabs_pos|exact Lu].
Qed.
Lemma rectangle_sampled x0 y0 wx wy i j : (i < ny)%nat -> (j < nx)%nat ->
  let x := image_coordinate nx ps wl j in let y := - image_coordinate ny ps wl i in
  (Rabs (x - x0) + edge u eta x x0 wx < wx / 2 -> Rabs (y - y0) + edge u eta y y0 wy < wy / 2 -> fl_rect_value a x0 y0 wx wy (X i j) (Y i j) = 1) /\
  (wx / 2 + edge u eta x x0 wx <= Rabs (x - x0) \/ wy / 2 + edge u eta y y0 wy <= Rabs (y - y0) -> fl_rect_value a x0 y0 wx wy (X i j) (Y i j) = 0).
Proof.
  intros Hi Hj x y. destruct (near_coordinates i j Hi Hj) as [Ex Ey]. fold x in Ex. fold y in Ey. split.
  - intros Ix Iy. exact (rect_in a u eta B H HB Hu He x0 y0 wx wy _ _ x y Ex Ey Ix Iy).
  - intros O. exact (rect_out a u eta B H HB Hu He x0 y0 wx wy _ _ x y Ex Ey O).
Qed.
Lemma circle_sampled x0 y0 r i j : 4 * eta <= u * r ^ 2 -> (i < ny)%nat -> (j < nx)%nat ->
  let x := image_coordinate nx ps wl j in let y := - image_coordinate ny ps wl i in let d := sqrt ((x - x0) ^ 2 + (y - y0) ^ 2) in
  (d + rim u eta x y x0 y0 r <= Rabs r -> fl_circ_value a x0 y0 r (X i j) (Y i j) = 1) /\
  (Rabs r + rim u eta x y x0 y0 r < d -> fl_circ_value a x0 y0 r (X i j) (Y i j) = 0).
Proof.
  intros Hr Hi Hj x y d. destruct (near_coordinates i j Hi Hj) as [Ex Ey]. fold x in Ex. fold y in Ey. split.
  - exact (circ_in a u eta B H Hu He x0 y0 r _ _ x y Hr Ex Ey).
  - exact (circ_out a u eta B H Hu He x0 y0 r _ _ x y Hr Ex Ey).
Qed.
Lemma one_axis n k c m : (Z.of_nat n <= 2 ^ 14)%Z -> (k < n)%nat -> (c < n)%nat -> (m <= n)%nat -> no_underflow u eta u' eta' n ps wl ->
  let x := image_coordinate n ps wl k in let x0 := image_coordinate n ps wl c in let w := (2 * INR m + 1) * (wl / (INR n * ps)) in
  ((k <= c + m)%nat /\ (c <= k + m)%nat -> Rabs (x - x0) + edge u eta x x0 w < w / 2) /\
  (~ ((k <= c + m)%nat /\ (c <= k + m)%nat) -> w / 2 + edge u eta x x0 w <= Rabs (x - x0)).
Proof.
  intros Hn Hk Hc Hm (_ & _ & _ & _ & _ & U) x x0 w.
  assert (Q : 0 < wl / (INR n * ps)) by (apply Rdiv_lt_0_compat; [exact Hw|apply Rmult_lt_0_compat; [apply lt_0_INR; lia|exact Hp]]).
  assert (F : forall i, image_coordinate n ps wl i = IZR (Z.of_nat i - Z.of_nat (n / 2)) * (wl / (INR n * ps))).
  { intros i. unfold image_coordinate. rewrite minus_IZR, <- !INR_IZR_INZ. unfold Rdiv. ring. }
  assert (N14 : INR n <= 2 ^ 14) by (rewrite INR_IZR_INZ, (pow_IZR 2 14); apply IZR_le; exact Hn).
  assert (M14 : INR m <= 2 ^ 14) by (eapply Rle_trans; [apply le_INR, Hm|exact N14]). assert (M0 := pos_INR m).
  assert (Bd : forall i, (i < n)%nat -> Rabs (IZR (Z.of_nat i - Z.of_nat (n / 2))) <= 2 ^ 14).
  { intros i Hi. eapply Rle_trans; [|exact N14]. rewrite <- abs_IZR, INR_IZR_INZ. apply IZR_le. assert (L := half_n n). lia. }
  assert (Dx : x - x0 = IZR (Z.of_nat k - Z.of_nat c) * (wl / (INR n * ps))).
  { unfold x, x0. rewrite !F. replace (Z.of_nat k - Z.of_nat c)%Z with ((Z.of_nat k - Z.of_nat (n / 2)) - (Z.of_nat c - Z.of_nat (n / 2)))%Z by ring. rewrite (minus_IZR (Z.of_nat k - _)). ring. }
  assert (Ex : Rabs x <= 2 ^ 14 * (wl / (INR n * ps))).
  { unfold x. rewrite F, Rabs_mult, (Rabs_pos_eq (wl / (INR n * ps))) by lra. apply Rmult_le_compat_r; [lra|apply Bd, Hk]. }
  assert (Ec : Rabs x0 <= 2 ^ 14 * (wl / (INR n * ps))).
  { unfold x0. rewrite F, Rabs_mult, (Rabs_pos_eq (wl / (INR n * ps))) by lra. apply Rmult_le_compat_r; [lra|apply Bd, Hc]. }
  rewrite Dx, Rabs_mult, (Rabs_pos_eq (wl / (INR n * ps))) by lra. clear Dx F. clearbody x x0.
  set (q := wl / (INR n * ps)) in *. assert (Wq : Rabs w = (2 * INR m + 1) * q) by (apply Rabs_pos_eq; unfold w; apply Rmult_le_pos; lra).
  assert (Ew : Rabs w <= (2 ^ 15 + 1) * q) by (rewrite Wq; apply Rmult_le_compat_r; lra).
  assert (T : edge u eta x x0 w < q / 2).
  { unfold edge. assert (Sx : Rabs x + Rabs x0 + Rabs w <= (2 ^ 16 + 1) * q) by lra.
    assert (S0 : 0 <= Rabs x + Rabs x0 + Rabs w) by (assert (A1 := Rabs_pos x); assert (A2 := Rabs_pos x0); assert (A3 := Rabs_pos w); lra).
    assert (10 * u * (Rabs x + Rabs x0 + Rabs w) <= 10 * / 2 ^ 24 * ((2 ^ 16 + 1) * q)) by (apply Rmult_le_compat; lra).
    assert (u ^ 2 <= / 2 ^ 24) by nra. assert (u ^ 2 * (q / 4) <= / 2 ^ 24 * (q / 4)) by (apply Rmult_le_compat_r; lra). lra. }
  unfold w in *. clear Wq Ew. split; intros I.
  - assert (K : Rabs (IZR (Z.of_nat k - Z.of_nat c)) <= INR m) by (rewrite <- abs_IZR, INR_IZR_INZ; apply IZR_le; lia).
    assert (Rabs (IZR (Z.of_nat k - Z.of_nat c)) * q <= INR m * q) by (apply Rmult_le_compat_r; lra). lra.
  - assert (K : INR m + 1 <= Rabs (IZR (Z.of_nat k - Z.of_nat c))) by (rewrite <- abs_IZR, INR_IZR_INZ, <- plus_IZR; apply IZR_le; lia).
    assert ((INR m + 1) * q <= Rabs (IZR (Z.of_nat k - Z.of_nat c)) * q) by (apply Rmult_le_compat_r; lra). lra.
Qed.
Lemma pixel_window ci cj m l i j : (Z.of_nat nx <= 2 ^ 14)%Z -> (Z.of_nat ny <= 2 ^ 14)%Z -> (ci < ny)%nat -> (cj < nx)%nat -> (m <= nx)%nat -> (l <= ny)%nat -> (i < ny)%nat -> (j < nx)%nat ->
  fl_rect_value a (image_coordinate nx ps wl cj) (- image_coordinate ny ps wl ci) ((2 * INR m + 1) * (wl / (INR nx * ps))) ((2 * INR l + 1) * (wl / (INR ny * ps))) (X i j) (Y i j) =
  if ((j <=? cj + m) && (cj <=? j + m) && (i <=? ci + l) && (ci <=? i + l))%nat%bool then 1 else 0.
Proof.
  intros Nx Ny Hci Hcj Hm Hl Hi Hj.
  destruct (one_axis nx j cj m Nx Hj Hcj Hm Ux) as [Ix Ox]. destruct (one_axis ny i ci l Ny Hi Hci Hl Uy) as [Iy Oy].
  destruct (rectangle_sampled (image_coordinate nx ps wl cj) (- image_coordinate ny ps wl ci) ((2 * INR m + 1) * (wl / (INR nx * ps))) ((2 * INR l + 1) * (wl / (INR ny * ps))) i j Hi Hj) as [In Out].
  assert (Sy : forall t t0, Rabs (- t - - t0) = Rabs (t - t0)) by (intros; rewrite <- (Rabs_Ropp (t - t0)); f_equal; ring).
  assert (Se : forall t t0 w, edge u eta (- t) (- t0) w = edge u eta t t0 w) by (intros; unfold edge; rewrite !Rabs_Ropp; reflexivity).
  rewrite Sy, Se in In, Out.
  destruct (Nat.leb_spec j (cj + m)), (Nat.leb_spec cj (j + m)), (Nat.leb_spec i (ci + l)), (Nat.leb_spec ci (i + l)); cbn [andb];
    first [apply In; [apply Ix; lia|apply Iy; lia]|apply Out; left; apply Ox; lia|apply Out; right; apply Oy; lia].
Qed.
End Dev.
