(** Facts about the coordinate grids. *)
From Coq Require Import Reals Lra ZArith Arith List Bool Lia.
From Coquelicot Require Import Complex.
From Verif Require Import Cx Sums DFT PyBase ProfileModel SlmModel LibModel DmdModel SimModel SimSpec.
Import ListNotations.
Open Scope R_scope.

Lemma arange_length a b : length (arange a b) = Z.to_nat (b - a).
Proof. unfold arange. rewrite map_length, seq_length. reflexivity. Qed.
Lemma nth_map_lt {A B} (f : A -> B) l i d d' : (i < length l)%nat -> nth i (map f l) d = f (nth i l d').
Proof. intros H. rewrite (nth_indep _ d (f d')) by (rewrite map_length; exact H). apply map_nth. Qed.
Lemma nth_arange a b i d : (i < Z.to_nat (b - a))%nat -> nth i (arange a b) d = (a + Z.of_nat i)%Z.
Proof.
  intros H. unfold arange. rewrite (nth_map_lt _ _ _ _ 0%nat) by (rewrite seq_length; exact H).
  rewrite seq_nth by exact H. reflexivity.
Qed.
Lemma arange_app a b c : (a <= b <= c)%Z -> arange a b ++ arange b c = arange a c.
Proof.
  intros H. apply nth_ext with (d := 0%Z) (d' := 0%Z).
  - rewrite app_length, !arange_length. lia.
  - intros n Hn. rewrite app_length, !arange_length in Hn. rewrite (nth_arange a c) by lia.
    destruct (Nat.lt_ge_cases n (Z.to_nat (b - a))) as [L|G].
    + rewrite app_nth1 by (rewrite arange_length; exact L). apply nth_arange; exact L.
    + rewrite app_nth2 by (rewrite arange_length; exact G). rewrite arange_length, nth_arange by lia. lia.
Qed.
Lemma map_arange_length {A} (f : Z -> A) a b : length (map f (arange a b)) = Z.to_nat (b - a).
Proof. rewrite map_length. apply arange_length. Qed.
Lemma nth_map_arange {A} (f : Z -> A) a b i d : (i < Z.to_nat (b - a))%nat -> nth i (map f (arange a b)) d = f (a + Z.of_nat i)%Z.
Proof. intros H. rewrite (nth_map_lt f _ _ _ 0%Z) by (rewrite arange_length; exact H). rewrite nth_arange by exact H. reflexivity. Qed.

Lemma half_Z n : Z.of_nat (n / 2) = (Z.of_nat n / 2)%Z.
Proof. rewrite Nat2Z.inj_div. reflexivity. Qed.
(** The shifted frequency list is the centred integer range over n*d. *)
Lemma fftshift_fftfreq n d (g : R -> R) :
  fftshift1 (map g (fftfreq n d)) = map (fun k => g (IZR k * (1 / (INR n * d)))) (arange (- Z.of_nat (n / 2)) (Z.of_nat (n - n / 2))).
Proof.
  unfold fftshift1, fftfreq. set (q := fun k => IZR k * (1 / (INR n * d))).
  rewrite map_map. change (fun x => g (q x)) with (fun k => g (IZR k * (1 / (INR n * d)))).
  set (w := fun k => g (IZR k * (1 / (INR n * d)))).
  assert (Hh := half_Z n). assert (Hl : (n / 2 <= n)%nat) by apply half_le.
  assert (HN : ((Z.of_nat n - 1) / 2 + 1 = Z.of_nat (n - n / 2))%Z).
  { rewrite Nat2Z.inj_sub by exact Hl. rewrite Hh.
    assert (H1 := Z.div_mod (Z.of_nat n) 2 ltac:(lia)). assert (H2 := Z.mod_pos_bound (Z.of_nat n) 2 ltac:(lia)).
    assert (H3 := Z.div_mod (Z.of_nat n - 1) 2 ltac:(lia)). assert (H4 := Z.mod_pos_bound (Z.of_nat n - 1) 2 ltac:(lia)). lia. }
  rewrite HN, <- Hh, map_app, !app_length, !map_arange_length.
  replace (Z.to_nat (Z.of_nat (n - n / 2) - 0) + Z.to_nat (0 - - Z.of_nat (n / 2)))%nat with n by lia.
  set (A := map w (arange 0 (Z.of_nat (n - n / 2)))). set (B := map w (arange (- Z.of_nat (n / 2)) 0)).
  assert (LA : length A = (n - n / 2)%nat) by (unfold A; rewrite map_arange_length; lia).
  rewrite skipn_app, firstn_app, LA, Nat.sub_diag. cbn [skipn firstn]. rewrite app_nil_r.
  rewrite <- LA at 1 2. rewrite skipn_all. rewrite firstn_all. cbn [app].
  unfold A, B. rewrite <- map_app. f_equal. apply arange_app. lia.
Qed.
Lemma fftshift_fftfreq_length n d g : length (fftshift1 (map g (fftfreq n d))) = n.
Proof. rewrite fftshift_fftfreq, map_arange_length. assert (H := half_le n). lia. Qed.
Lemma nth_fftshift_fftfreq n d g i : (i < n)%nat ->
  nth i (fftshift1 (map g (fftfreq n d))) 0 = g (IZR (Z.of_nat i - Z.of_nat (n / 2)) * (1 / (INR n * d))).
Proof.
  intros H. rewrite fftshift_fftfreq. assert (Hl := half_le n). rewrite nth_map_arange by lia.
  do 3 f_equal. lia.
Qed.

Lemma image_grid_of_is nx ny ps sf : ps <> 0 ->
  grid_is (image_grid_of nx ny ps sf) ny nx
    (fun u v => IZR (Z.of_nat v - Z.of_nat (nx / 2)) * sf / (INR nx * ps))
    (fun u v => - (IZR (Z.of_nat u - Z.of_nat (ny / 2)) * sf / (INR ny * ps))).
Proof.
  intros Hps. unfold grid_is, image_grid_of, mesh_xy. cbn [fst snd]. rewrite !map_length.
  assert (Hid : fftfreq nx ps = map (fun r => r) (fftfreq nx ps)) by (rewrite map_id; reflexivity).
  rewrite Hid, !fftshift_fftfreq_length. cbn [teq].
  split; (split; [reflexivity|split; [reflexivity|]]); intros i j Hi Hj.
  - rewrite (nth_map_lt _ _ _ _ 0) by (rewrite fftshift_fftfreq_length; exact Hj).
    rewrite nth_fftshift_fftfreq by exact Hj. field. split; [exact Hps|apply INR_neq_0; lia].
  - rewrite (nth_map_lt _ _ _ _ 0) by (rewrite fftshift_fftfreq_length; exact Hi).
    rewrite nth_fftshift_fftfreq by exact Hi. field. split; [exact Hps|apply INR_neq_0; lia].
Qed.
Lemma fourier_plane_pixel_grid_is s :
  grid_is (fourier_plane_pixel_grid s) (s_Ny s) (s_Nx s) (fun i j => INR i) (fun i j => INR j).
Proof.
  unfold grid_is, fourier_plane_pixel_grid, mesh_ij. cbn [fst snd].
  rewrite !map_arange_length, !Z.sub_0_r, !Nat2Z.id. cbn [teq].
  split; (split; [reflexivity|split; [reflexivity|]]); intros i j Hi Hj;
    rewrite nth_map_arange by lia; rewrite Z.add_0_l; symmetry; apply INR_IZR_INZ.
Qed.
Lemma padded_pixel_grid_is s py px : (0 <= py)%Z -> (0 <= px)%Z ->
  grid_is (mesh_ij (map IZR (arange (- py) (Z.of_nat (s_Ny s) + py))) (map IZR (arange (- px) (Z.of_nat (s_Nx s) + px))))
    (Z.to_nat (Z.of_nat (s_Ny s) + 2 * py)) (Z.to_nat (Z.of_nat (s_Nx s) + 2 * px))
    (fun i j => IZR (Z.of_nat i - py)) (fun i j => IZR (Z.of_nat j - px)).
Proof.
  intros Hy Hx. unfold grid_is, mesh_ij. cbn [fst snd]. rewrite !map_arange_length.
  replace (Z.of_nat (s_Ny s) + py - - py)%Z with (Z.of_nat (s_Ny s) + 2 * py)%Z by lia.
  replace (Z.of_nat (s_Nx s) + px - - px)%Z with (Z.of_nat (s_Nx s) + 2 * px)%Z by lia.
  cbn [teq]. split; (split; [reflexivity|split; [reflexivity|]]); intros i j Hi Hj;
    rewrite nth_map_arange by lia; f_equal; lia.
Qed.
Lemma grid_map_is f g ny nx X Y : grid_is g ny nx X Y ->
  grid_is (grid_map f g) ny nx (fun i j => fst (f (X i j) (Y i j))) (fun i j => snd (f (X i j) (Y i j))).
Proof.
  destruct g as [[a|ny' nx' fx] gy]; unfold grid_is; cbn [fst snd]; intros [H1 H2]; [contradiction|].
  destruct H1 as (-> & -> & H1). destruct gy as [|ny' nx' fy]; [contradiction|]. destruct H2 as (-> & -> & H2).
  unfold grid_map. cbn [fst snd teq].
  split; (split; [reflexivity|split; [reflexivity|]]); intros i j Hi Hj; rewrite !tget_T2 by assumption;
    rewrite H1, H2 by assumption; reflexivity.
Qed.
Lemma grid_is_ext g ny nx X Y X' Y' : grid_is g ny nx X Y ->
  (forall i j, (i < ny)%nat -> (j < nx)%nat -> X i j = X' i j /\ Y i j = Y' i j) -> grid_is g ny nx X' Y'.
Proof.
  destruct g as [[a|ny' nx' fx] [b|ny'' nx'' fy]]; unfold grid_is; cbn [fst snd teq]; intros [H1 H2] H; try contradiction.
  destruct H1 as (-> & -> & H1). destruct H2 as (-> & -> & H2).
  split; (split; [reflexivity|split; [reflexivity|]]); intros i j Hi Hj; destruct (H i j Hi Hj) as [E1 E2]; [rewrite <- E1|rewrite <- E2]; auto.
Qed.
Lemma fourier_plane_grid_is s :
  grid_is (fourier_plane_grid s) (s_Ny s) (s_Nx s)
    (fun i j => (INR j - INR (s_Nx s) / 2) * pixel_size s) (fun i j => (INR (s_Ny s) / 2 - INR i) * pixel_size s).
Proof.
  eapply grid_is_ext. { apply grid_map_is. apply fourier_plane_pixel_grid_is. }
  intros i j Hi Hj. unfold pixel_to_coord; cbn [fst snd]. split; [reflexivity|field].
Qed.
Lemma fourier_plane_padded_grid_is s m : (0 <= pad_y m)%Z -> (0 <= pad_x m)%Z ->
  grid_is (fourier_plane_padded_grid s m) (Z.to_nat (sim_Ny s m)) (Z.to_nat (sim_Nx s m))
    (fun i j => (IZR (Z.of_nat j - pad_x m) - INR (s_Nx s) / 2) * pixel_size s)
    (fun i j => (INR (s_Ny s) / 2 - IZR (Z.of_nat i - pad_y m)) * pixel_size s).
Proof.
  intros Hy Hx. eapply grid_is_ext. { apply grid_map_is. apply padded_pixel_grid_is; assumption. }
  intros i j Hi Hj. unfold pixel_to_coord; cbn [fst snd]. split; [reflexivity|field].
Qed.
(** Reading a grid. *)
Lemma grid_is_get g ny nx X Y i j : grid_is g ny nx X Y -> (i < ny)%nat -> (j < nx)%nat ->
  tget (fst g) i j = X i j /\ tget (snd g) i j = Y i j.
Proof.
  destruct g as [[a|ny' nx' fx] [b|ny'' nx'' fy]]; unfold grid_is; cbn [fst snd teq]; intros [H1 H2] Hi Hj; try contradiction.
  destruct H1 as (-> & -> & H1). destruct H2 as (-> & -> & H2). rewrite !tget_T2 by assumption. split; auto.
Qed.
Lemma grid_is_shape g ny nx X Y : grid_is g ny nx X Y -> exists a b, g = (T2 ny nx a, T2 ny nx b).
Proof.
  destruct g as [[a|ny' nx' fx] [b|ny'' nx'' fy]]; unfold grid_is; cbn [fst snd teq]; intros [H1 H2]; try contradiction.
  destruct H1 as (-> & -> & _). destruct H2 as (-> & -> & _). eauto.
Qed.

Lemma coord_pixel s i j : pixel_size s <> 0 ->
  coord_to_pixel s (fst (pixel_to_coord s i j)) (snd (pixel_to_coord s i j)) = (i, j).
Proof. intros H. unfold coord_to_pixel, pixel_to_coord; cbn [fst snd]. f_equal; field; exact H. Qed.
Lemma pixel_coord s x y : pixel_size s <> 0 ->
  pixel_to_coord s (fst (coord_to_pixel s x y)) (snd (coord_to_pixel s x y)) = (x, y).
Proof. intros H. unfold coord_to_pixel, pixel_to_coord; cbn [fst snd]. f_equal; field; exact H. Qed.
