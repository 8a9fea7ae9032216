(** The image-plane grid after rounding. *)
From Coq Require Import Reals Lra Lia ZArith Arith List.
From Flocq Require Import Core.Raux.
From Verif Require Import Cx PyBase ProfileModel SlmModel LibModel DmdModel SimModel SimSpec GridFacts FloatModel FloatSpec FloatFacts FlGridModel FlGridSpec FlGridFacts.
Open Scope R_scope.

Lemma fl_fftfreq_is a n d : (0 < n)%nat -> fl_fftfreq a n d = map (fun r => dbl a (dbl a r * dbl a (1 / dbl a (dbl a (INR n) * d)))) (fftfreq n (/ INR n)).
Proof.
  intros N. assert (Hn : INR n <> 0) by (apply not_0_INR; lia). unfold fl_fftfreq, fftfreq. rewrite map_map. apply map_ext. intros k.
  replace (IZR k * (1 / (INR n * / INR n))) with (IZR k) by (field; exact Hn). reflexivity.
Qed.
Lemma empty_fftfreq a d : fl_fftfreq a 0 d = nil. Proof. reflexivity. Qed.
Lemma fl_shift_length a n d g : length (fftshift1 (map g (fl_fftfreq a n d))) = n.
Proof. destruct n as [|n]; [reflexivity|]. rewrite fl_fftfreq_is, map_map by lia. apply fftshift_fftfreq_length. Qed.
Lemma fl_shift_nth a n d g i : (i < n)%nat ->
  nth i (fftshift1 (map g (fl_fftfreq a n d))) 0 = g (dbl a (dbl a (IZR (Z.of_nat i - Z.of_nat (n / 2))) * dbl a (1 / dbl a (dbl a (INR n) * d)))).
Proof.
  intros Hi. assert (Hn : INR n <> 0) by (apply not_0_INR; lia). rewrite fl_fftfreq_is, map_map by lia. rewrite nth_fftshift_fftfreq by exact Hi.
  replace (IZR (Z.of_nat i - Z.of_nat (n / 2)) * (1 / (INR n * / INR n))) with (IZR (Z.of_nat i - Z.of_nat (n / 2))) by (field; exact Hn). reflexivity.
Qed.
Definition col a n ps sf (j : nat) : R := coord a n ps sf (Z.of_nat j - Z.of_nat (n / 2)).
Section Grid.
Variables (a : fpu) (u eta u' eta' : R) (B B' : Z).
Hypotheses (H : arithmetic u eta B (rnd a)) (H' : arithmetic u' eta' B' (dbl a)) (HB : (2 ^ 22 <= B)%Z) (HB' : (2 ^ 22 <= B')%Z) (Hu : 0 <= u <= / 2 ^ 24) (Hu' : 0 <= u' <= / 2 ^ 24).
Lemma fl_grid_is nx ny ps sf : grid_is (fl_image_grid_of a nx ny ps sf) ny nx (fun _ j => col a nx ps sf j) (fun i _ => - col a ny ps sf i).
Proof.
  unfold grid_is, fl_image_grid_of, mesh_xy. cbn [fst snd]. rewrite !map_length, map_map, !fl_shift_length.
  cbn [teq]. split; (split; [reflexivity|split; [reflexivity|]]); intros i j Hi Hj.
  - rewrite (nth_indep _ 0 (rnd a (0 * rnd a sf))) by (rewrite map_length, fl_shift_length; exact Hj).
    rewrite (map_nth (fun k => rnd a (k * rnd a sf)) _ 0 j), fl_shift_nth by exact Hj. reflexivity.
  - rewrite (nth_indep _ 0 (rnd a (0 * rnd a sf))) by (rewrite map_length, fl_shift_length; exact Hi).
    rewrite (map_nth (fun k => rnd a (k * rnd a sf)) _ 0 i), fl_shift_nth by exact Hi.
    rewrite (ar_odd _ _ _ _ H), <- Ropp_mult_distr_l, (ar_odd _ _ _ _ H). reflexivity.
Qed.
Lemma half_n n : (n / 2 <= n)%nat. Proof. apply Nat.div_le_upper_bound; lia. Qed.
Lemma col_rel n ps wl j : (Z.of_nat n <= 2 ^ 20)%Z -> 0 < ps -> 0 < wl -> no_underflow u eta u' eta' n ps wl -> (j < n)%nat ->
  Rabs (col a n ps (dbl a wl) j - image_coordinate n ps wl j) <= (301 / 100 * u + 401 / 100 * u') * Rabs (image_coordinate n ps wl j).
Proof.
  intros Hn Hp Hw U Hj. unfold image_coordinate, col. replace (INR j - INR (n / 2)) with (IZR (Z.of_nat j - Z.of_nat (n / 2))) by (rewrite minus_IZR, <- !INR_IZR_INZ; reflexivity).
  assert (L := half_n n). assert (N : (0 < n)%nat) by lia. assert (K : (Z.abs (Z.of_nat j - Z.of_nat (n / 2)) <= 2 ^ 20)%Z) by (set (h := (n / 2)%nat) in *; clearbody h; clear - L Hj Hn; lia).
  exact (coord_rel a u eta u' eta' B B' H H' HB HB' Hu Hu' n ps wl N Hn Hp Hw U _ K).
Qed.
Lemma col_zero n ps sf : col a n ps sf (n / 2) = 0.
Proof. unfold col. rewrite Z.sub_diag. exact (coord_0 a u eta u' eta' B B' H H' HB HB' n ps sf). Qed.
Lemma col_symmetric n ps sf j j' : (j + j' = 2 * (n / 2))%nat -> col a n ps sf j = - col a n ps sf j'.
Proof.
  intros E. unfold col. rewrite <- (coord_odd a u eta u' eta' B B' H H'). f_equal. lia.
Qed.
Lemma half_abs n j : (j < n)%nat -> (Z.abs (Z.of_nat j - Z.of_nat (n / 2)) <= Z.of_nat (n / 2))%Z /\ (2 * (n / 2) <= n)%nat.
Proof. intros Hj. assert (M := Nat.div_mod n 2 ltac:(lia)). assert (M' := Nat.mod_upper_bound n 2 ltac:(lia)). lia. Qed.
Lemma col_strict n ps wl j j' : (Z.of_nat n <= 2 ^ 20)%Z -> 0 < ps -> 0 < wl -> no_underflow u eta u' eta' n ps wl -> (j < j' < n)%nat ->
  col a n ps (dbl a wl) j < col a n ps (dbl a wl) j'.
Proof.
  intros Hn Hp Hw U Hj. assert (A := col_rel n ps wl j Hn Hp Hw U ltac:(lia)). assert (A' := col_rel n ps wl j' Hn Hp Hw U ltac:(lia)).
  assert (Q : 0 < wl / (INR n * ps)) by (apply Rdiv_lt_0_compat; [exact Hw|apply Rmult_lt_0_compat; [apply lt_0_INR; lia|exact Hp]]).
  assert (F : forall i, image_coordinate n ps wl i = IZR (Z.of_nat i - Z.of_nat (n / 2)) * (wl / (INR n * ps))).
  { intros i. unfold image_coordinate. rewrite minus_IZR, <- !INR_IZR_INZ. unfold Rdiv. ring. }
  rewrite F in A, A'. set (q := wl / (INR n * ps)) in *. clearbody q. rewrite Rabs_mult, (Rabs_pos_eq q) in A, A' by lra.
  apply Rabs_le_inv in A. apply Rabs_le_inv in A'.
  destruct (half_abs n j ltac:(lia)) as [C1 C3]. destruct (half_abs n j' ltac:(lia)) as [C2 _].
  assert (D1 : Rabs (IZR (Z.of_nat j - Z.of_nat (n / 2))) <= 2 ^ 19) by (rewrite <- abs_IZR, (pow_IZR 2 19); apply IZR_le; change (2 ^ Z.of_nat 19)%Z with (2 ^ 19)%Z; lia).
  assert (D2 : Rabs (IZR (Z.of_nat j' - Z.of_nat (n / 2))) <= 2 ^ 19) by (rewrite <- abs_IZR, (pow_IZR 2 19); apply IZR_le; change (2 ^ Z.of_nat 19)%Z with (2 ^ 19)%Z; lia).
  assert (S1 : IZR (Z.of_nat j - Z.of_nat (n / 2)) + 1 <= IZR (Z.of_nat j' - Z.of_nat (n / 2))) by (rewrite <- plus_IZR; apply IZR_le; lia).
  set (k := IZR (Z.of_nat j - Z.of_nat (n / 2))) in *. set (k' := IZR (Z.of_nat j' - Z.of_nat (n / 2))) in *. clearbody k k'.
  assert (E : 0 <= 301 / 100 * u + 401 / 100 * u' <= 8 * / 2 ^ 24) by lra. set (e := 301 / 100 * u + 401 / 100 * u') in *. clearbody e.
  assert (G1 : e * (Rabs k * q) <= 8 * / 2 ^ 24 * (2 ^ 19 * q)) by (apply Rmult_le_compat; [lra|apply Rmult_le_pos; [apply Rabs_pos|lra]|lra|apply Rmult_le_compat_r; lra]).
  assert (G2 : e * (Rabs k' * q) <= 8 * / 2 ^ 24 * (2 ^ 19 * q)) by (apply Rmult_le_compat; [lra|apply Rmult_le_pos; [apply Rabs_pos|lra]|lra|apply Rmult_le_compat_r; lra]).
  assert ((k + 1) * q <= k' * q) by (apply Rmult_le_compat_r; lra). lra.
Qed.
Lemma image_grid_rounded nx ny ps wl : (Z.of_nat ny <= 2 ^ 20)%Z -> (Z.of_nat nx <= 2 ^ 20)%Z -> 0 < ps -> 0 < wl ->
  no_underflow u eta u' eta' nx ps wl -> no_underflow u eta u' eta' ny ps wl ->
  exists X Y, grid_is (fl_image_grid_of a nx ny ps (dbl a wl)) ny nx (fun _ j => X j) (fun i _ => Y i) /\
    (forall j j', (j < j' < nx)%nat -> X j < X j') /\ (forall i i', (i < i' < ny)%nat -> Y i' < Y i) /\
    X (nx / 2)%nat = 0 /\ Y (ny / 2)%nat = 0 /\
    (forall j j', (j + j' = 2 * (nx / 2))%nat -> X j = - X j') /\ (forall i i', (i + i' = 2 * (ny / 2))%nat -> Y i = - Y i') /\
    (forall j, (j < nx)%nat -> Rabs (X j - image_coordinate nx ps wl j) <= (301 / 100 * u + 401 / 100 * u') * Rabs (image_coordinate nx ps wl j)) /\
    (forall i, (i < ny)%nat -> Rabs (Y i + image_coordinate ny ps wl i) <= (301 / 100 * u + 401 / 100 * u') * Rabs (image_coordinate ny ps wl i)).
Proof.
  intros Hy Hx Hp Hw Ux Uy. exists (col a nx ps (dbl a wl)), (fun i => - col a ny ps (dbl a wl) i).
  split; [apply fl_grid_is|]. split; [intros; apply col_strict; assumption|].
  split; [intros i i' L; assert (G := col_strict ny ps wl i i' Hy Hp Hw Uy L); lra|].
  split; [apply col_zero|]. split; [rewrite col_zero; lra|].
  split; [intros; apply col_symmetric; assumption|]. split; [intros i i' L; rewrite (col_symmetric ny ps (dbl a wl) i i' L); reflexivity|].
  split; [intros; apply col_rel; assumption|]. intros i Hi.
  replace (- col a ny ps (dbl a wl) i + image_coordinate ny ps wl i) with (- (col a ny ps (dbl a wl) i - image_coordinate ny ps wl i)) by ring.
  rewrite Rabs_Ropp. apply col_rel; assumption.
Qed.
End Grid.
Lemma link_image_grid nx ny ps sf : fl_image_grid_of exact nx ny ps sf = image_grid_of nx ny ps sf.
Proof. unfold fl_image_grid_of, image_grid_of, fl_fftfreq, fftfreq. cbn [rnd dbl exact]. rewrite !map_id. reflexivity. Qed.
