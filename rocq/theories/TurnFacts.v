(** Reflected set-ups: tensors, transforms, gratings, grids (C154). *)
From Coq Require Import Reals Lra ZArith Arith List Bool Lia FunctionalExtensionality.
From Coquelicot Require Import Complex.
From Verif Require Import Cx Sums DFT PyBase ProfileModel SlmModel LibModel DmdModel SimModel TurnSpec DmdFacts2 AmpFacts2 RankFacts.
Import ListNotations.
Open Scope R_scope.

(** ** Tensors *)
Definition turned_shape (s : shape) : shape := match s with S0 => S0 | S2 a b => S2 b a end.
Lemma tshape_turned {A} (t : tensor A) : tshape (turned t) = turned_shape (tshape t).
Proof. destruct t; reflexivity. Qed.
Lemma tget_turned {A} (t : tensor A) i j : tget (turned t) i j = tget t j i.
Proof. destruct t; reflexivity. Qed.
Lemma tmap_turned {A B} (g : A -> B) (t : tensor A) : tmap g (turned t) = turned (tmap g t).
Proof. destruct t; reflexivity. Qed.
Lemma mk_turned {A} s (f : nat -> nat -> A) : mk (turned_shape s) (flip f) = turned (mk s f).
Proof. destruct s; reflexivity. Qed.
Lemma bshape_turned s t : bshape (turned_shape s) (turned_shape t) = option_map turned_shape (bshape s t).
Proof. destruct s as [|a b], t as [|c d]; try reflexivity. cbn [turned_shape bshape]. destruct (bdim a c), (bdim b d); reflexivity. Qed.
Lemma bshape_r_turned r t : bshape_r (rmap turned_shape r) (turned_shape t) = rmap turned_shape (bshape_r r t).
Proof. destruct r as [s|e]; [|reflexivity]. cbn [rmap rbind bshape_r]. unfold bshape_r. cbn [rbind]. rewrite bshape_turned. destruct (bshape s t); reflexivity. Qed.
Lemma bc_all_turned l : forall r, fold_left bshape_r (map turned_shape l) (rmap turned_shape r) = rmap turned_shape (fold_left bshape_r l r).
Proof. induction l as [|t l IH]; intros r; [reflexivity|]. cbn [map fold_left]. rewrite bshape_r_turned. apply IH. Qed.
Lemma tmap2_turned {A B D} (g : A -> B -> D) a b : tmap2 g (turned a) (turned b) = rmap turned (tmap2 g a b).
Proof.
  unfold tmap2, bc2. rewrite !tshape_turned, bshape_turned. destruct (bshape (tshape a) (tshape b)) as [s|]; [|reflexivity]. cbn [option_map rbind rmap].
  rewrite <- mk_turned. f_equal. f_equal. apply fun2_ext. intros i j. rewrite !tget_turned. reflexivity.
Qed.
Lemma stretch_turned {A} ny nx (t : tensor A) : stretch nx ny (turned t) = option_map flip (stretch ny nx t).
Proof. destruct t as [a|a b f]; [reflexivity|]. cbn [turned stretch]. rewrite andb_comm. destruct ((Nat.eqb a ny || Nat.eqb a 1) && (Nat.eqb b nx || Nat.eqb b 1)); reflexivity. Qed.
Lemma turned_turned {A} (t : tensor A) : turned (turned t) = t.
Proof. destruct t; reflexivity. Qed.

(** ** Transforms *)
Lemma csum2_flip ny nx f : csum2 nx ny (flip f) = csum2 ny nx f.
Proof. unfold csum2, flip. apply csum_swap. Qed.
Lemma rsum2_flip ny nx f : rsum2 nx ny (flip f) = rsum2 ny nx f.
Proof. unfold rsum2, flip. apply rsum_swap. Qed.
Lemma fft2_flip ny nx f : fft2 nx ny (flip f) = flip (fft2 ny nx f).
Proof. apply fun2_ext. intros u v. unfold fft2, flip. rewrite <- csum2_flip. apply csum2_ext. intros i j _ _. unfold flip. rewrite (Rplus_comm (INR (u * j) / _)). reflexivity. Qed.
Lemma ifft2_flip ny nx f : ifft2 nx ny (flip f) = flip (ifft2 ny nx f).
Proof.
  apply fun2_ext. intros u v. unfold ifft2, flip. rewrite (Nat.mul_comm ny nx). f_equal. rewrite <- csum2_flip. apply csum2_ext. intros i j _ _. unfold flip.
  rewrite (Rplus_comm (INR (j * u) / _)). reflexivity.
Qed.
Lemma ifftshift2_flip {A} ny nx (f : nat -> nat -> A) : ifftshift2 nx ny (flip f) = flip (ifftshift2 ny nx f).
Proof. reflexivity. Qed.
Lemma fftshift2_flip {A} ny nx (f : nat -> nat -> A) : fftshift2 nx ny (flip f) = flip (fftshift2 ny nx f).
Proof. reflexivity. Qed.
Lemma allb_spec f n : allb f n = true <-> forall i, (i < n)%nat -> f i = true.
Proof.
  induction n as [|n IH]; cbn [allb]; [split; [intros; lia|reflexivity]|]. rewrite andb_true_iff, IH. split.
  - intros [H1 H2] i Hi. destruct (Nat.eq_dec i n) as [->|]; [exact H2|]. apply H1. lia.
  - intros H. split; [intros i Hi; apply H; lia|apply H; lia].
Qed.
Lemma allb2_spec f ny nx : allb2 f ny nx = true <-> forall i j, (i < ny)%nat -> (j < nx)%nat -> f i j = true.
Proof.
  induction ny as [|n IH]; cbn [allb2]; [split; [intros; lia|reflexivity]|]. rewrite andb_true_iff, IH, allb_spec. split.
  - intros [H1 H2] i j Hi Hj. destruct (Nat.eq_dec i n) as [->|]; [apply H2, Hj|]. apply H1; [lia|exact Hj].
  - intros H. split; intros; apply H; lia.
Qed.
Lemma allb2_flip f ny nx : allb2 (flip f) nx ny = allb2 f ny nx.
Proof.
  destruct (allb2 f ny nx) eqn:E.
  - rewrite allb2_spec in *. intros i j Hi Hj. apply E; assumption.
  - destruct (allb2 (flip f) nx ny) eqn:E'; [|reflexivity]. rewrite allb2_spec in E'. rewrite <- E. symmetry. apply allb2_spec. intros i j Hi Hj. apply (E' j i); assumption.
Qed.
Lemma offt2_flip ny nx f : offt2 nx ny (flip f) = flip (offt2 ny nx f).
Proof.
  apply fun2_ext. intros u v. unfold offt2, flip at 3. change (fun i j => isome (flip f i j)) with (flip (fun i j => isome (f i j))). rewrite allb2_flip.
  change (oget (flip f)) with (flip (oget f)). rewrite fft2_flip. reflexivity.
Qed.
Lemma oifft2_flip ny nx f : oifft2 nx ny (flip f) = flip (oifft2 ny nx f).
Proof.
  apply fun2_ext. intros u v. unfold oifft2, flip at 3. change (fun i j => isome (flip f i j)) with (flip (fun i j => isome (f i j))). rewrite allb2_flip.
  change (oget (flip f)) with (flip (oget f)). rewrite ifft2_flip. reflexivity.
Qed.
Lemma target_fp_flip ny nx t : target_fp nx ny (flip t) = flip (target_fp ny nx t).
Proof. unfold target_fp. rewrite ifftshift2_flip, fft2_flip. reflexivity. Qed.

(** ** Iterations *)
Lemma ifta_step_flip ny nx F W ideal t g : ifta_step nx ny (flip F) (flip W) (flip ideal) t (flip g) = flip (ifta_step ny nx F W ideal t g).
Proof.
  unfold ifta_step. cbv zeta.
  change (fun i j => omul (flip F i j) (ifta_binarize (flip g i j) t)) with (flip (fun i j => omul (F i j) (ifta_binarize (g i j) t))). rewrite oifft2_flip.
  set (im := oifft2 ny nx _).
  change (fun i j => ifta_correct (flip im i j) (flip ideal i j) (flip W i j)) with (flip (fun i j => ifta_correct (im i j) (ideal i j) (W i j))). rewrite offt2_flip. reflexivity.
Qed.
Lemma ifta_loop_flip ny nx F W ideal N k g : ifta_loop nx ny (flip F) (flip W) (flip ideal) N k (flip g) = flip (ifta_loop ny nx F W ideal N k g).
Proof. induction k as [|k IH]; cbn [ifta_loop]; [reflexivity|]. rewrite IH. apply ifta_step_flip. Qed.
Lemma ifta_array_flip ny nx F W g0 N s : ifta_array nx ny (flip F) (flip W) (flip g0) N s = flip (ifta_array ny nx F W g0 N s).
Proof.
  unfold ifta_array. cbv zeta.
  change (fun i j => omul (flip F i j) (fin_of (xscale (flip g0 i j) s))) with (flip (fun i j => omul (F i j) (fin_of (xscale (g0 i j) s)))).
  change (fun i j => fin_of (xscale (flip g0 i j) s)) with (flip (fun i j => fin_of (xscale (g0 i j) s))).
  rewrite oifft2_flip, ifftshift2_flip, ifta_loop_flip. reflexivity.
Qed.
Lemma gs_step_flip ny nx F T ph : gs_step nx ny (flip F) (flip T) (flip ph) = flip (gs_step ny nx F T ph).
Proof.
  unfold gs_step. cbv zeta. change (fun i j => (flip F i j * cis (flip ph i j))%C) with (flip (fun i j => (F i j * cis (ph i j))%C)). rewrite ifft2_flip. set (im := ifft2 ny nx _).
  change (fun i j => (RtoC (flip T i j) * cis (carg (flip im i j)))%C) with (flip (fun i j => (RtoC (T i j) * cis (carg (im i j)))%C)). rewrite fft2_flip. reflexivity.
Qed.
Lemma mraf_step_flip ny nx F T W m ph : mraf_step nx ny (flip F) (flip T) (flip W) m (flip ph) = flip (mraf_step ny nx F T W m ph).
Proof.
  unfold mraf_step. cbv zeta. change (fun i j => (flip F i j * cis (flip ph i j))%C) with (flip (fun i j => (F i j * cis (ph i j))%C)). rewrite ifft2_flip. set (im := ifft2 ny nx _).
  change (fun i j => (RtoC m * RtoC (flip T i j) * cis (carg (flip im i j)) * flip W i j + RtoC (1 - m) * flip im i j * (RtoC 1 - flip W i j))%C)
    with (flip (fun i j => (RtoC m * RtoC (T i j) * cis (carg (im i j)) * W i j + RtoC (1 - m) * im i j * (RtoC 1 - W i j))%C)). rewrite fft2_flip. reflexivity.
Qed.
Lemma iter_flip {A} (f g : (nat -> nat -> A) -> nat -> nat -> A) n a : (forall a, g (flip a) = flip (f a)) -> iter n g (flip a) = flip (iter n f a).
Proof. intros H. induction n as [|n IH]; cbn [iter]; [reflexivity|]. rewrite IH. apply H. Qed.
Lemma gs_array_flip ny nx F T u N : gs_array nx ny (flip F) (flip T) (flip u) N = flip (gs_array ny nx F T u N).
Proof. unfold gs_array. rewrite ifftshift2_flip. apply (iter_flip (gs_step ny nx F (ifftshift2 ny nx T))). intros a. apply gs_step_flip. Qed.
Lemma mraf_array_flip ny nx F T W m u N : mraf_array nx ny (flip F) (flip T) (flip W) m (flip u) N = flip (mraf_array ny nx F T W m u N).
Proof. unfold mraf_array. rewrite !ifftshift2_flip. apply (iter_flip (mraf_step ny nx F (ifftshift2 ny nx T) (ifftshift2 ny nx W) m)). intros a. apply mraf_step_flip. Qed.

(** ** Gratings *)
Lemma grating_phase_turned x y th p : grating_phase (- y) (- x) (- (PI / 2) - th) p = grating_phase x y th p.
Proof.
  unfold grating_phase. replace (- (PI / 2) - th) with (- (PI / 2 + th)) by ring. rewrite cos_neg, sin_neg, cos_plus, sin_plus, cos_PI2, sin_PI2. ring.
Qed.
Lemma grating_tensor_turned {A} (px px' : xr -> R -> R -> R -> R -> nat -> nat -> A) amp pin pout x y : tshape x = tshape y ->
  (forall a i o x y k l, px' a i o (- y) (- x) k l = px a i o x y l k) ->
  grating_tensor px' (turned amp) (turned pin) (turned pout) (fst (turned_grid (x, y))) (snd (turned_grid (x, y))) = rmap turned (grating_tensor px amp pin pout x y).
Proof.
  intros E H. unfold grating_tensor, turned_grid. cbn [fst snd]. rewrite !tmap_turned, !tshape_turned.
  replace (tshape (tmap Ropp y)) with (tshape x) by (rewrite E; destruct y; reflexivity). replace (tshape (tmap Ropp x)) with (tshape y) by (rewrite <- E; destruct x; reflexivity).
  unfold bc_all. assert (B := bc_all_turned [tshape pin; tshape pout; tshape x; tshape y] (Ok (tshape amp))). cbn [map rmap] in B. rewrite B. clear B.
  destruct (fold_left _ _ _) as [s|]; [|reflexivity]. cbn [rmap rbind]. rewrite <- mk_turned. f_equal. f_equal. apply fun2_ext. intros i j. rewrite !tget_turned. unfold flip.
  rewrite <- (H _ _ _ (tget x j i)). f_equal; [destruct y|destruct x]; reflexivity.
Qed.
Section Turn.
Variables (neg : bool) (amp : tensor xr) (pin pout x y : tensor R) (p theta : R).
Hypothesis E : tshape x = tshape y.
Notation x' := (fst (turned_grid (x, y))).
Notation y' := (snd (turned_grid (x, y))).
Notation th' := (- (PI / 2) - theta).
Lemma ideal_turned : grating_ideal neg (turned amp) (turned pin) (turned pout) x' y' p th' = rmap turned (grating_ideal neg amp pin pout x y p theta).
Proof. apply grating_tensor_turned; [exact E|]. intros. unfold guard_p. destruct (Req_EM_T p 0); [reflexivity|]. unfold px_ideal. rewrite grating_phase_turned. reflexivity. Qed.
Lemma simple_turned : grating_simple neg (turned amp) (turned pin) (turned pout) x' y' p th' = rmap turned (grating_simple neg amp pin pout x y p theta).
Proof. apply grating_tensor_turned; [exact E|]. intros. unfold guard_p. destruct (Req_EM_T p 0); [reflexivity|]. unfold px_simple, px_ideal. rewrite grating_phase_turned. reflexivity. Qed.
Lemma random_turned r u : grating_random neg (turned amp) (turned pin) (turned pout) x' y' p th' r (flip u) = rmap turned (grating_random neg amp pin pout x y p theta r u).
Proof.
  apply grating_tensor_turned; [exact E|]. intros. unfold guard_p. destruct (Req_EM_T p 0); [reflexivity|]. unfold px_random, random_duty. rewrite grating_phase_turned. reflexivity.
Qed.
Lemma ifta_turned input window N s : grating_ifta neg (turned amp) (turned pin) (turned pout) x' y' p th' (option_map turned input) (option_map turned window) N s =
  rmap turned (grating_ifta neg amp pin pout x y p theta input window N s).
Proof.
  unfold grating_ifta. rewrite ideal_turned. destruct (grating_ideal neg amp pin pout x y p theta) as [[a|ny nx g]|e]; [| |reflexivity]; cbn [rmap rbind].
  - destruct input; cbn [option_map]; [|reflexivity]. destruct window as [[?|? ? ?]|]; reflexivity.
  - destruct input as [F|]; cbn [option_map]; [|reflexivity]. destruct window as [[w|a b W]|]; cbn [option_map turned]; [reflexivity| |reflexivity].
    change (T2 b a (flip W)) with (turned (T2 a b W)). rewrite !stretch_turned. destruct (stretch ny nx F) as [F'|]; cbn [option_map]; [|reflexivity].
    destruct (stretch ny nx (T2 a b W)) as [W'|]; cbn [option_map]; [|reflexivity]. rewrite ifta_array_flip. reflexivity.
Qed.
Lemma grating_turned m kw kw' inp win u : k_r kw' = k_r kw -> k_N kw' = k_N kw -> k_s kw' = k_s kw ->
  calculate_dmd_grating m neg (turned amp) (turned pin) (turned pout) x' y' p th' kw' (option_map turned inp) (option_map turned win) (flip u) =
  rmap (fun g => match g with GBool t => GBool (turned t) | GFloat t => GFloat (turned t) end) (calculate_dmd_grating m neg amp pin pout x y p theta kw inp win u).
Proof.
  intros Er EN Es. unfold calculate_dmd_grating. rewrite Er, EN, Es. destruct m.
  - rewrite ideal_turned. destruct (grating_ideal _ _ _ _ _ _ _ _); reflexivity.
  - rewrite simple_turned. destruct (grating_simple _ _ _ _ _ _ _ _); reflexivity.
  - rewrite random_turned. destruct (grating_random _ _ _ _ _ _ _ _ _ _); reflexivity.
  - rewrite ifta_turned. destruct (grating_ifta _ _ _ _ _ _ _ _ _ _ _ _); reflexivity.
  - reflexivity.
Qed.
End Turn.
Lemma to_dstate_turned g : to_dstate (match g with GBool t => GBool (turned t) | GFloat t => GFloat (turned t) end) = rmap turned_state (to_dstate g).
Proof. destruct g as [[?|? ? ?]|[?|? ? ?]]; reflexivity. Qed.

(** ** Grids *)
Lemma mesh_turned s I J : grid_map (pixel_to_coord (turned_slm s)) (mesh_ij J I) = turned_grid (grid_map (pixel_to_coord s) (mesh_ij I J)).
Proof.
  unfold grid_map, mesh_ij, turned_grid. cbn [fst snd turned tmap]. f_equal; f_equal; apply fun2_ext; intros i j; unfold flip, pixel_to_coord; cbn [fst snd turned_slm s_Nx s_Ny pixel_size tget]; field.
Qed.
Lemma fourier_grid_turned s : fourier_plane_grid (turned_slm s) = turned_grid (fourier_plane_grid s).
Proof. apply mesh_turned. Qed.
Lemma padded_fourier_turned s m : fourier_plane_padded_grid (turned_slm s) (turned_sim m) = turned_grid (fourier_plane_padded_grid s m).
Proof. apply mesh_turned. Qed.
Lemma nth_map_opp l i : nth i (map Ropp l) 0 = - nth i l 0.
Proof. rewrite <- (map_nth Ropp), Ropp_0. reflexivity. Qed.
Lemma fftshift1_map f l : fftshift1 (map f l) = map f (fftshift1 l).
Proof. unfold fftshift1. rewrite map_length, map_app, skipn_map, firstn_map. reflexivity. Qed.
Lemma image_grid_turned nx ny ps sf : image_grid_of ny nx ps sf = turned_grid (image_grid_of nx ny ps sf).
Proof.
  unfold image_grid_of, turned_grid, mesh_xy. cbn [fst snd turned tmap]. rewrite !fftshift1_map, !map_map, !map_length. f_equal; f_equal; apply fun2_ext; intros i j; unfold flip.
  - transitivity (nth j (map Ropp (map (fun k => - k * sf) (fftshift1 (fftfreq ny ps)))) 0); [|apply nth_map_opp]. rewrite map_map. f_equal. apply map_ext. intros k. ring.
  - transitivity (nth i (map Ropp (map (fun k => k * sf) (fftshift1 (fftfreq nx ps)))) 0); [|apply nth_map_opp]. rewrite map_map. f_equal. apply map_ext. intros k. ring.
Qed.
Lemma image_plane_turned s : image_plane_grid (turned_slm s) = turned_grid (image_plane_grid s).
Proof. apply image_grid_turned. Qed.
Lemma padded_image_turned s m : image_plane_padded_grid (turned_slm s) (turned_sim m) = turned_grid (image_plane_padded_grid s m).
Proof. apply image_grid_turned. Qed.

(** ** Profiles and arguments *)
Lemma all_ok_row_total {A} (f : nat -> res A) n : (forall i, exists v, f i = Ok v) -> all_ok_row f n = Ok tt.
Proof. intros H. induction n as [|n IH]; [reflexivity|]. cbn [all_ok_row]. rewrite IH. cbn [rbind]. destruct (H n) as [v ->]. reflexivity. Qed.
Lemma all_ok_total {A} (f : nat -> nat -> res A) ny nx : (forall i j, exists v, f i j = Ok v) -> all_ok f ny nx = Ok tt.
Proof. intros H. induction ny as [|n IH]; [reflexivity|]. cbn [all_ok]. rewrite IH. cbn [rbind]. apply all_ok_row_total, H. Qed.
Lemma sample_turned h h' p p' ny nx a b : turned_prof h h' p p' ->
  sample h' p' (turned_grid (T2 ny nx a, T2 ny nx b)) = rmap turned (sample h p (T2 ny nx a, T2 ny nx b)).
Proof.
  intros [Es H]. unfold sample. rewrite Es. destruct (scalar_valued p).
  - destruct (H 0 0) as (v & E & E'). rewrite Ropp_0 in E'. rewrite E, E'. reflexivity.
  - unfold turned_grid. cbn [fst snd turned tmap].
    rewrite !all_ok_total; [|intros i j; edestruct H as (v & E & _); exists v; exact E|].
    2:{ intros i j. destruct (H (tget (T2 ny nx a) j i) (tget (T2 ny nx b) j i)) as (v & _ & E). exists v. exact E. }
    cbn [rbind rmap turned]. f_equal. f_equal. apply fun2_ext. intros i j. unfold flip at 1.
    destruct (H (tget (T2 ny nx a) j i) (tget (T2 ny nx b) j i)) as (v & E & E'). unfold flip. rewrite E. cbn [tget] in *. rewrite E'. reflexivity.
Qed.
Lemma fourier_grid_form s : exists ny nx a b, fourier_plane_grid s = (T2 ny nx a, T2 ny nx b).
Proof. eexists; eexists; eexists; eexists; reflexivity. Qed.
Lemma image_grid_form s : exists ny nx a b, image_plane_grid s = (T2 ny nx a, T2 ny nx b).
Proof. eexists; eexists; eexists; eexists; reflexivity. Qed.
Lemma grid_turned s (b : bool) : exists ny nx u v, (if b then fourier_plane_grid s else image_plane_grid s) = (T2 ny nx u, T2 ny nx v) /\
  (if b then fourier_plane_grid (turned_slm s) else image_plane_grid (turned_slm s)) = turned_grid (T2 ny nx u, T2 ny nx v).
Proof.
  destruct b.
  - destruct (fourier_grid_form s) as (ny & nx & u & v & E). exists ny, nx, u, v. rewrite fourier_grid_turned, E. split; reflexivity.
  - destruct (image_grid_form s) as (ny & nx & u & v & E). exists ny, nx, u, v. rewrite image_plane_turned, E. split; reflexivity.
Qed.
Lemma tensor_c_turned h h' s a a' b : turned_arg h h' a a' -> profile_to_tensor_c h' (turned_slm s) a' b = rmap turned (profile_to_tensor_c h s a b).
Proof.
  intros H. destruct H as [p p' H|t|t|t|t]; cbn [profile_to_tensor_c rmap]; rewrite ?tmap_turned; try reflexivity.
  destruct (grid_turned s b) as (ny & nx & u & v & -> & ->). rewrite (sample_turned h h' p p' _ _ _ _ H). destruct (sample h p _) as [t|e]; cbn [rmap rbind]; rewrite ?tmap_turned; reflexivity.
Qed.
Lemma tensor_r_turned h h' s a a' b : turned_arg h h' a a' -> profile_to_tensor_r h' (turned_slm s) a' b = rmap turned (profile_to_tensor_r h s a b).
Proof.
  intros H. destruct H as [p p' H|t|t|t|t]; cbn [profile_to_tensor_r rmap]; rewrite ?tmap_turned; try reflexivity.
  - destruct (grid_turned s b) as (ny & nx & u & v & -> & ->). rewrite (sample_turned h h' p p' _ _ _ _ H). destruct (sample h p _) as [t|e]; cbn [rmap rbind]; rewrite ?tmap_turned; reflexivity.
  - destruct t; reflexivity.
Qed.
Lemma raw_turned h h' o o' : turned_opt h h' o o' -> raw_tensor o' = option_map turned (raw_tensor o).
Proof. destruct o as [a|], o' as [a'|]; cbn [turned_opt]; try contradiction; [|reflexivity]. intros H. destruct H as [p p' H|t|t|t|t]; try reflexivity; destruct t; reflexivity. Qed.
