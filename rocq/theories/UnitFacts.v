(** Similar set-ups: profiles, grids and tensors (C151). *)
From Coq Require Import Reals Lra ZArith Arith List Bool Lia FunctionalExtensionality.
From Coquelicot Require Import Complex.
From Verif Require Import Cx Sums DFT PyBase ProfileModel SlmModel LibModel DmdModel SimModel UnitSpec DmdFacts2 AmpFacts2.
Import ListNotations.
Open Scope R_scope.

(** ** Profiles *)
Lemma Rltb_scale c a b : 0 < c -> Rltb (c * a) (c * b) = Rltb a b.
Proof. intros Hc. unfold Rltb. destruct (Rlt_dec (c * a) (c * b)), (Rlt_dec a b); try reflexivity; exfalso; nra. Qed.
Lemma Rleb_scale c a b : 0 < c -> Rleb (c * a) (c * b) = Rleb a b.
Proof. intros Hc. unfold Rleb. destruct (Rle_dec (c * a) (c * b)), (Rle_dec a b); try reflexivity; exfalso; nra. Qed.
Lemma div_scale c a b : c <> 0 -> (c * a) / (c * b) = a / b.
Proof. intros Hc. unfold Rdiv. rewrite Rinv_mult. transitivity ((c * / c) * (a * / b)); [ring|]. rewrite Rinv_r by exact Hc. ring. Qed.
Lemma atan2_zoom c y x : 0 < c -> atan2 (c * y) (c * x) = atan2 y x.
Proof.
  intros Hc. assert (H := carg_scale c (x, y) Hc). unfold carg in H.
  replace (fst (RtoC c * (x, y))%C) with (c * x) in H by (cbn; ring). replace (snd (RtoC c * (x, y))%C) with (c * y) in H by (cbn; ring). exact H.
Qed.
Lemma sqrt_zoom c x y : 0 < c -> sqrt ((c * x) ^ 2 + (c * y) ^ 2) = c * sqrt (x ^ 2 + y ^ 2).
Proof.
  intros Hc. replace ((c * x) ^ 2 + (c * y) ^ 2) with (c ^ 2 * (x ^ 2 + y ^ 2)) by ring. rewrite sqrt_mult; [|nra|nra].
  rewrite sqrt_pow2 by lra. reflexivity.
Qed.
Lemma zero_zoom c w : 0 < c -> c * w = 0 <-> w = 0.
Proof. intros Hc. split; intros H; [|rewrite H; ring]. apply Rmult_integral in H. destruct H; [lra|assumption]. Qed.
Lemma if_zero_zoom {A} c w (a b : A) : 0 < c -> (if Req_EM_T (c * w) 0 then a else b) = (if Req_EM_T w 0 then a else b).
Proof. intros Hc. assert (H := zero_zoom c w Hc). destruct (Req_EM_T (c * w) 0), (Req_EM_T w 0); tauto. Qed.
Lemma hg_zoom c x0 y0 a w n m x y : 0 < c -> hg_value (c * x0) (c * y0) a (c * w) n m (c * x) (c * y) = hg_value x0 y0 a w n m x y.
Proof. intros Hc. unfold hg_value. rewrite <- !Rmult_minus_distr_l, !div_scale by lra. reflexivity. Qed.
Lemma sg_zoom c x0 y0 a w p x y : 0 < c -> sg_value (c * x0) (c * y0) a (c * w) p (c * x) (c * y) = sg_value x0 y0 a w p x y.
Proof. intros Hc. unfold sg_value. rewrite <- !Rmult_minus_distr_l, !div_scale by lra. reflexivity. Qed.
Lemma lg_zoom c x0 y0 a w l p x y : 0 < c -> lg_value (c * x0) (c * y0) a (c * w) l p (c * x) (c * y) = lg_value x0 y0 a w l p x y.
Proof.
  intros Hc. unfold lg_value. rewrite <- !Rmult_minus_distr_l, atan2_zoom, sqrt_zoom by exact Hc.
  assert (E : (c * (x - x0)) ^ 2 + (c * (y - y0)) ^ 2 = c ^ 2 * ((x - x0) ^ 2 + (y - y0) ^ 2)) by ring. rewrite E.
  set (q := (x - x0) ^ 2 + (y - y0) ^ 2). replace ((c * w) ^ 2) with (c ^ 2 * w ^ 2) by ring.
  replace (2 * (c ^ 2 * q)) with (c ^ 2 * (2 * q)) by ring. replace (sqrt 2 * (c * sqrt q)) with (c * (sqrt 2 * sqrt q)) by ring.
  replace (- (c ^ 2 * q)) with (c ^ 2 * - q) by ring. rewrite !div_scale by nra. reflexivity.
Qed.
Lemma zern_zoom c a r n m norm ex coef x y : 0 < c -> zern_value a (c * r) n m norm ex coef (c * x) (c * y) = zern_value a r n m norm ex coef x y.
Proof. intros Hc. unfold zern_value. rewrite atan2_zoom, sqrt_zoom, div_scale by lra. reflexivity. Qed.
Lemma rect_zoom c x0 y0 wx wy x y : 0 < c -> rect_value (c * x0) (c * y0) (c * wx) (c * wy) (c * x) (c * y) = rect_value x0 y0 wx wy x y.
Proof.
  intros Hc. unfold rect_value. rewrite <- !Rmult_minus_distr_l, !Rabs_mult, (Rabs_pos_eq c) by lra.
  replace (c * wx / 2) with (c * (wx / 2)) by field. replace (c * wy / 2) with (c * (wy / 2)) by field. rewrite !Rltb_scale by exact Hc. reflexivity.
Qed.
Lemma circ_zoom c x0 y0 r x y : 0 < c -> circ_value (c * x0) (c * y0) (c * r) (c * x) (c * y) = circ_value x0 y0 r x y.
Proof.
  intros Hc. unfold circ_value. rewrite <- !Rmult_minus_distr_l.
  replace ((c * (x - x0)) ^ 2 + (c * (y - y0)) ^ 2) with (c ^ 2 * ((x - x0) ^ 2 + (y - y0) ^ 2)) by ring. replace ((c * r) ^ 2) with (c ^ 2 * r ^ 2) by ring.
  rewrite Rleb_scale by nra. reflexivity.
Qed.
(** Magnified coordinates, magnified lengths: the same value (or the same exception). *)
Theorem enlarged_func c h h' p p' : 0 < c -> enlarged c h h' p p' -> forall x y, func h' p' (c * x) (c * y) = func h p x y.
Proof.
  intros Hc H. induction H; intros x y; cbn [func].
  - reflexivity.
  - rewrite H. reflexivity.
  - rewrite H, H0, H1, H2, if_zero_zoom, hg_zoom by exact Hc. reflexivity.
  - rewrite H, H0, H1, H2, if_zero_zoom, lg_zoom by exact Hc. reflexivity.
  - rewrite H, H0, H1, H2, H3, if_zero_zoom, sg_zoom by exact Hc. reflexivity.
  - rewrite H, H0, if_zero_zoom, zern_zoom by exact Hc. reflexivity.
  - rewrite H, H0, H1, H2, rect_zoom by exact Hc. reflexivity.
  - rewrite H, H0, H1, circ_zoom by exact Hc. reflexivity.
  - rewrite IHenlarged1, IHenlarged2. reflexivity.
  - rewrite IHenlarged1, IHenlarged2. reflexivity.
  - rewrite IHenlarged. reflexivity.
  - rewrite IHenlarged. reflexivity.
  - rewrite <- IHenlarged. f_equal; ring.
  - rewrite H, H0, <- IHenlarged. f_equal; ring.
  - rewrite <- IHenlarged. destruct (Req_EM_T m 0); [reflexivity|]. f_equal. field. assumption.
  - rewrite <- IHenlarged. destruct (Req_EM_T m 0); [reflexivity|]. f_equal. field. assumption.
  - rewrite IHenlarged. reflexivity.
Qed.
Lemma enlarged_scalar c h h' p p' : enlarged c h h' p p' -> scalar_valued p' = scalar_valued p.
Proof. intros H. induction H; cbn [scalar_valued]; congruence. Qed.

(** ** Grids *)
Lemma similar_scale c b s s' : similar c b s s' -> scaling_factor s' = c * b * scaling_factor s.
Proof. intros (_ & _ & _ & H). exact H. Qed.
Lemma zoom_map c f g : (forall i j, f i j = (c * fst (g i j), c * snd (g i j))) -> forall G, (exists ny nx a, fst G = T2 ny nx a) -> grid_map f G = zoom c (grid_map g G).
Proof.
  intros E G (ny & nx & a & H). unfold grid_map, zoom. rewrite H. cbn [fst snd tmap]. f_equal; f_equal; apply fun2_ext; intros i j; rewrite E; reflexivity.
Qed.
Lemma fourier_grid_zoom c b s s' : similar c b s s' -> fourier_plane_grid s' = zoom c (fourier_plane_grid s).
Proof.
  intros (Ex & Ey & Ep & _). unfold fourier_plane_grid. replace (fourier_plane_pixel_grid s') with (fourier_plane_pixel_grid s) by (unfold fourier_plane_pixel_grid; rewrite Ex, Ey; reflexivity).
  apply zoom_map; [|eexists; eexists; eexists; reflexivity]. intros i j. unfold pixel_to_coord. cbn [fst snd]. rewrite Ex, Ey, Ep. f_equal; ring.
Qed.
Lemma padded_fourier_zoom c b s s' m : similar c b s s' -> fourier_plane_padded_grid s' m = zoom c (fourier_plane_padded_grid s m).
Proof.
  intros (Ex & Ey & Ep & _). unfold fourier_plane_padded_grid. rewrite Ex, Ey.
  apply zoom_map; [|eexists; eexists; eexists; reflexivity]. intros i j. unfold pixel_to_coord. cbn [fst snd]. rewrite Ex, Ey, Ep. f_equal; ring.
Qed.
Lemma nth_map_scale c l i : nth i (map (fun k => c * k) l) 0 = c * nth i l 0.
Proof. rewrite <- (map_nth (fun k => c * k)). rewrite Rmult_0_r. reflexivity. Qed.
Lemma fftshift1_map f l : fftshift1 (map f l) = map f (fftshift1 l).
Proof. unfold fftshift1. rewrite map_length, map_app, skipn_map, firstn_map. reflexivity. Qed.
Lemma freq_zoom c b n d sf : c <> 0 -> map (fun k => k * (c * b * sf)) (fftfreq n (c * d)) = map (fun k => b * k) (map (fun k => k * sf) (fftfreq n d)).
Proof.
  intros Hc. unfold fftfreq. rewrite !map_map. apply map_ext. intros k. unfold Rdiv. rewrite !Rinv_mult.
  transitivity ((c * / c) * (b * (IZR k * (1 * (/ INR n * / d)) * sf))); [ring|]. rewrite Rinv_r by exact Hc. ring.
Qed.
Lemma mesh_xy_zoom b X Y : mesh_xy (map (fun k => b * k) X) (map (fun k => b * k) Y) = zoom b (mesh_xy X Y).
Proof. unfold mesh_xy, zoom. cbn [fst snd tmap]. rewrite !map_length. f_equal; f_equal; apply fun2_ext; intros i j; apply nth_map_scale. Qed.
Lemma image_grid_zoom c b nx ny ps sf : c <> 0 -> image_grid_of nx ny (c * ps) (c * b * sf) = zoom b (image_grid_of nx ny ps sf).
Proof.
  intros Hc. unfold image_grid_of. rewrite <- !fftshift1_map. rewrite <- mesh_xy_zoom. rewrite <- !fftshift1_map. f_equal; f_equal.
  - apply freq_zoom, Hc.
  - rewrite !(map_map Ropp). assert (E := freq_zoom c b ny ps sf Hc). apply (f_equal (map Ropp)) in E. rewrite !map_map in E. rewrite !map_map.
    etransitivity; [|etransitivity; [exact E|]]; apply map_ext; intros; ring.
Qed.
Lemma image_plane_zoom c b s s' : c <> 0 -> similar c b s s' -> image_plane_grid s' = zoom b (image_plane_grid s).
Proof. intros Hc H. unfold image_plane_grid. rewrite (similar_scale _ _ _ _ H). destruct H as (-> & -> & -> & _). apply image_grid_zoom, Hc. Qed.
Lemma padded_image_zoom c b s s' m : c <> 0 -> similar c b s s' -> image_plane_padded_grid s' m = zoom b (image_plane_padded_grid s m).
Proof.
  intros Hc H. unfold image_plane_padded_grid, sim_Nx, sim_Ny. rewrite (similar_scale _ _ _ _ H). destruct H as (-> & -> & -> & _). apply image_grid_zoom, Hc.
Qed.

(** ** Tensors *)
Lemma sample_zoom c h h' p p' g : 0 < c -> enlarged c h h' p p' -> sample h' p' (zoom c g) = sample h p g.
Proof.
  intros Hc H. unfold sample. rewrite (enlarged_scalar _ _ _ _ _ H). destruct (scalar_valued p).
  - rewrite <- (enlarged_func _ _ _ _ _ Hc H). rewrite Rmult_0_r. reflexivity.
  - destruct g as [gx gy]. unfold zoom. cbn [fst snd]. destruct gx as [|ny nx fx]; [reflexivity|]. cbn [tmap].
    change (T2 ny nx (fun i j => c * fx i j)) with (tmap (fun v => c * v) (T2 ny nx fx)).
    assert (E : (fun i j => func h' p' (tget (tmap (fun v => c * v) (T2 ny nx fx)) i j) (tget (tmap (fun v => c * v) gy) i j)) =
                (fun i j => func h p (tget (T2 ny nx fx) i j) (tget gy i j))).
    { apply fun2_ext. intros i j. rewrite !tget_tmap. apply enlarged_func; assumption. }
    exact (f_equal (fun f => let! _ := all_ok f ny nx in Ok (T2 ny nx (fun i j => val_or0 (f i j)))) E).
Qed.
Lemma tensor_c_fourier c b h h' s s' a a' : 0 < c -> similar c b s s' -> enlarged_arg c h h' a a' -> profile_to_tensor_c h' s' a' true = profile_to_tensor_c h s a true.
Proof.
  intros Hc Hs H. destruct H as [p p' H| | | |]; try reflexivity. cbn [profile_to_tensor_c]. rewrite (fourier_grid_zoom _ _ _ _ Hs).
  rewrite (sample_zoom c h h' p p' _ Hc H). reflexivity.
Qed.
Lemma tensor_r_fourier c b h h' s s' a a' : 0 < c -> similar c b s s' -> enlarged_arg c h h' a a' -> profile_to_tensor_r h' s' a' true = profile_to_tensor_r h s a true.
Proof.
  intros Hc Hs H. destruct H as [p p' H| | | |]; try reflexivity. cbn [profile_to_tensor_r]. rewrite (fourier_grid_zoom _ _ _ _ Hs).
  rewrite (sample_zoom c h h' p p' _ Hc H). reflexivity.
Qed.
Lemma tensor_c_image c b h h' s s' a a' : 0 < c -> 0 < b -> similar c b s s' -> enlarged_arg b h h' a a' -> profile_to_tensor_c h' s' a' false = profile_to_tensor_c h s a false.
Proof.
  intros Hc Hb Hs H. destruct H as [p p' H| | | |]; try reflexivity. cbn [profile_to_tensor_c]. rewrite (image_plane_zoom c b s s') by (try lra; exact Hs).
  rewrite (sample_zoom b h h' p p' _ Hb H). reflexivity.
Qed.
Lemma tensor_r_image c b h h' s s' a a' : 0 < c -> 0 < b -> similar c b s s' -> enlarged_arg b h h' a a' -> profile_to_tensor_r h' s' a' false = profile_to_tensor_r h s a false.
Proof.
  intros Hc Hb Hs H. destruct H as [p p' H| | | |]; try reflexivity. cbn [profile_to_tensor_r]. rewrite (image_plane_zoom c b s s') by (try lra; exact Hs).
  rewrite (sample_zoom b h h' p p' _ Hb H). reflexivity.
Qed.
Lemma raw_enlarged c h h' o o' : enlarged_opt c h h' o o' -> raw_tensor o' = raw_tensor o.
Proof. destruct o as [a|], o' as [a'|]; cbn [enlarged_opt]; try contradiction; [|reflexivity]. intros H. destruct H; reflexivity. Qed.
