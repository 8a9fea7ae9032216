(** Gratings with a period of zero (C84). *)
From Coq Require Import Reals Lra ZArith Arith List Bool Lia.
From Coquelicot Require Import Complex.
From Verif Require Import Cx Sums DFT PyBase ProfileModel SlmModel LibModel DmdModel OriginFacts SimModel SimSpec GridFacts SimFacts SimFacts2 DmdSpec DmdFacts DmdFacts2 IftaFacts.
Import ListNotations.
Open Scope R_scope.

Lemma tensor_const {A} (v : A) amp pin pout x y t : grating_tensor (fun _ _ _ _ _ _ _ => v) amp pin pout x y = Ok t ->
  t = T0 v \/ exists ny nx, t = T2 ny nx (fun _ _ => v).
Proof.
  unfold grating_tensor. destruct (bc_all _ _) as [[|ny nx]|]; cbn [rbind mk]; intros H; [| |discriminate]; injection H as <-; [left; reflexivity|right].
  exists ny, nx. reflexivity.
Qed.
Lemma ifta_all_nan ny nx F V N s i j : (i < ny)%nat -> (j < nx)%nat -> ifta_array ny nx F V (fun _ _ => NaN) N s i j = false.
Proof.
  intros Hi Hj. destruct (Z_le_gt_dec 1 N) as [HN|HN].
  - apply (array_none ny nx F V (fun _ _ => NaN) N s i j); try assumption. discriminate.
  - unfold ifta_array. replace (Z.to_nat N) with O by lia. reflexivity.
Qed.
Definition blank_cell (m : method) : cell := if binary m then CBool false else CFloat NaN.
Lemma dispatch_blank m neg amp pin pout x y th kw inp win u g st : calculate_dmd_grating m neg amp pin pout x y 0 th kw inp win u = Ok g -> to_dstate g = Ok st ->
  forall i j, (i < fst (state_shape st))%nat -> (j < snd (state_shape st))%nat -> cell_at st i j = blank_cell m.
Proof.
  intros H D. destruct m; cbn [calculate_dmd_grating] in H; try discriminate.
  - unfold grating_ideal, guard_p in H. destruct (Req_EM_T 0 0) as [_|]; [|lra]. destruct (grating_tensor _ amp pin pout x y) as [t|] eqn:E; [|discriminate].
    injection H as <-. destruct (tensor_const _ _ _ _ _ _ _ E) as [->|(ny & nx & ->)]; [discriminate|]. injection D as <-. reflexivity.
  - unfold grating_simple, guard_p in H. destruct (Req_EM_T 0 0) as [_|]; [|lra]. destruct (grating_tensor _ amp pin pout x y) as [t|] eqn:E; [|discriminate].
    injection H as <-. destruct (tensor_const _ _ _ _ _ _ _ E) as [->|(ny & nx & ->)]; [discriminate|]. injection D as <-. reflexivity.
  - unfold grating_random, guard_p in H. destruct (Req_EM_T 0 0) as [_|]; [|lra]. destruct (grating_tensor _ amp pin pout x y) as [t|] eqn:E; [|discriminate].
    injection H as <-. destruct (tensor_const _ _ _ _ _ _ _ E) as [->|(ny & nx & ->)]; [discriminate|]. injection D as <-. reflexivity.
  - unfold grating_ifta, grating_ideal, guard_p in H. destruct (Req_EM_T 0 0) as [_|]; [|lra]. destruct (grating_tensor _ amp pin pout x y) as [t|] eqn:E; [|discriminate].
    cbn [rbind] in H. destruct inp as [F|]; [|discriminate]. destruct win as [[w|wy wx W]|]; [discriminate| |discriminate].
    destruct (tensor_const _ _ _ _ _ _ _ E) as [->|(ny & nx & ->)]; [discriminate|].
    destruct (stretch ny nx F); [|discriminate]. destruct (stretch ny nx (T2 wy wx W)); [|discriminate]. injection H as <-. injection D as <-.
    intros i j Hi Hj. cbn [state_shape fst snd] in Hi, Hj. cbn [cell_at blank_cell binary]. rewrite ifta_all_nan by assumption. reflexivity.
Qed.
(** ** whether a call succeeds does not depend on the grating *)
Lemma tensor_outcome {A} (f g : xr -> R -> R -> R -> R -> nat -> nat -> A) amp pin pout x y :
  match grating_tensor f amp pin pout x y, grating_tensor g amp pin pout x y with
  | Ok a, Ok b => tshape a = tshape b
  | Err e, Err e' => e = e'
  | _, _ => False
  end.
Proof. unfold grating_tensor. destruct (bc_all _ _) as [[|ny nx]|]; cbn [rbind mk tshape]; reflexivity. Qed.
Lemma dispatch_outcome m neg neg' amp pin pout x y p p' th th' kw inp win u :
  match (let! g := calculate_dmd_grating m neg amp pin pout x y p th kw inp win u in to_dstate g),
        (let! g := calculate_dmd_grating m neg' amp pin pout x y p' th' kw inp win u in to_dstate g) with
  | Ok a, Ok b => True
  | Err e, Err e' => e = e'
  | _, _ => False
  end.
Proof.
  destruct m; cbn [calculate_dmd_grating]; [| | | |reflexivity].
  - unfold grating_ideal.
    match goal with |- match rbind (rmap _ (grating_tensor ?f _ _ _ _ _)) _ with Ok _ => match rbind (rmap _ (grating_tensor ?g _ _ _ _ _)) _ with Ok _ => _ | Err _ => _ end | Err _ => _ end =>
      assert (T := tensor_outcome f g amp pin pout x y); destruct (grating_tensor f amp pin pout x y) as [[|]|], (grating_tensor g amp pin pout x y) as [[|]|] end;
      cbn [tshape] in T; try discriminate; try contradiction; cbn [rmap rbind to_dstate]; auto.
  - unfold grating_simple.
    match goal with |- match rbind (rmap _ (grating_tensor ?f _ _ _ _ _)) _ with Ok _ => match rbind (rmap _ (grating_tensor ?g _ _ _ _ _)) _ with Ok _ => _ | Err _ => _ end | Err _ => _ end =>
      assert (T := tensor_outcome f g amp pin pout x y); destruct (grating_tensor f amp pin pout x y) as [[|]|], (grating_tensor g amp pin pout x y) as [[|]|] end;
      cbn [tshape] in T; try discriminate; try contradiction; cbn [rmap rbind to_dstate]; auto.
  - unfold grating_random.
    match goal with |- match rbind (rmap _ (grating_tensor ?f _ _ _ _ _)) _ with Ok _ => match rbind (rmap _ (grating_tensor ?g _ _ _ _ _)) _ with Ok _ => _ | Err _ => _ end | Err _ => _ end =>
      assert (T := tensor_outcome f g amp pin pout x y); destruct (grating_tensor f amp pin pout x y) as [[|]|], (grating_tensor g amp pin pout x y) as [[|]|] end;
      cbn [tshape] in T; try discriminate; try contradiction; cbn [rmap rbind to_dstate]; auto.
  - unfold grating_ifta, grating_ideal.
    match goal with |- context [guard_p p ?b1 ?q1] => match goal with |- context [guard_p p' ?b2 ?q2] =>
      assert (T := tensor_outcome (guard_p p b1 q1) (guard_p p' b2 q2) amp pin pout x y);
      destruct (grating_tensor (guard_p p b1 q1) amp pin pout x y) as [[|]|], (grating_tensor (guard_p p' b2 q2) amp pin pout x y) as [[|]|] end end;
      cbn [tshape] in T; try discriminate; try contradiction; cbn [rmap rbind].
    + destruct inp; [|cbn; auto]. destruct win as [[|]|]; cbn; auto.
    + injection T as -> ->. destruct inp as [F|]; [|cbn; auto]. destruct win as [[|wy wx W]|]; [cbn; auto| |cbn; auto].
      destruct (stretch _ _ F); [|cbn; auto]. destruct (stretch _ _ (T2 wy wx W)); cbn; auto.
    + exact T.
Qed.
Lemma grating_outcome h d e a b c m kw u : d_slm e = d_slm d ->
  match grating_of h d a b c m kw u, grating_of h e a b c m kw u with
  | Ok _, Ok _ => True
  | Err x, Err y => x = y
  | _, _ => False
  end.
Proof.
  intros E. unfold grating_of. rewrite E.
  destruct (profile_to_tensor_r h (d_slm d) a true) as [ta|]; [|reflexivity]. cbn [rbind].
  destruct (profile_to_tensor_r h (d_slm d) b true) as [tb|]; [|reflexivity]. cbn [rbind].
  destruct (profile_to_tensor_r h (d_slm d) c true) as [tc|]; [|reflexivity]. cbn [rbind].
  destruct (fourier_plane_grid (d_slm d)) as [x y].
  exact (dispatch_outcome m (d_neg d) (d_neg e) (tmap Fin ta) tb tc x y (d_p d) (d_p e) (d_theta d) (d_theta e) kw _ _ u).
Qed.
Lemma calc_outcome h d e i t m w kw u : d_slm e = d_slm d ->
  match calc_new h d i t m w kw u, calc_new h e i t m w kw u with
  | Ok (_, one), Ok (_, one') => one = one'
  | Err x, Err y => x = y
  | _, _ => False
  end.
Proof.
  intros E. unfold calc_new. rewrite E.
  destruct (profile_to_tensor_c h (d_slm d) i true) as [ti|]; [|reflexivity]. cbn [rbind].
  destruct (profile_to_tensor_c h (d_slm d) t false) as [tt|]; [|reflexivity]. cbn [rbind].
  match goal with |- context [rbind ?q (fun window => rbind (calc_amp_phase ti tt window) _)] => destruct q as [tw|]; [|reflexivity] end. cbn [rbind].
  destruct (calc_amp_phase ti tt tw) as [[[[amp pin] pout] one]|]; [|reflexivity]. cbn [rbind].
  destruct (fourier_plane_grid (d_slm d)) as [x y].
  match goal with |- context [rbind ?q (fun x => let (_, _) := x in _)] => destruct q as [[inp win]|]; [|reflexivity] end. cbn [rbind].
  assert (D := dispatch_outcome m (d_neg d) (d_neg e) amp pin pout x y (d_p d) (d_p e) (d_theta d) (d_theta e) kw inp win u).
  destruct (calculate_dmd_grating m (d_neg d) amp pin pout x y (d_p d) (d_theta d) kw inp win u) as [g|]; cbn [rbind] in D |- *;
  destruct (calculate_dmd_grating m (d_neg e) amp pin pout x y (d_p e) (d_theta e) kw inp win u) as [g'|]; cbn [rbind] in D |- *.
  - destruct (to_dstate g), (to_dstate g'); cbn [rbind]; auto.
  - destruct (to_dstate g); cbn [rbind]; auto.
  - destruct (to_dstate g'); cbn [rbind]; auto.
  - exact D.
Qed.
Lemma outcomes h d e : d_slm e = d_slm d ->
  (forall a b c m kw u, snd (set_dmd_grating_state h e a b c m kw u) = snd (set_dmd_grating_state h d a b c m kw u)) /\
  (forall i t m w kw u, snd (calculate_dmd_state h e i t m w kw u) = snd (calculate_dmd_state h d i t m w kw u)).
Proof.
  intros E. split.
  - intros a b c m kw u. unfold set_dmd_grating_state. assert (D := grating_outcome h d e a b c m kw u E).
    destruct (grating_of h d a b c m kw u), (grating_of h e a b c m kw u); try contradiction; [reflexivity|subst; reflexivity].
  - intros i t m w kw u. rewrite !calc_split. assert (D := calc_outcome h d e i t m w kw u E).
    destruct (calc_new h d i t m w kw u) as [[st one]|], (calc_new h e i t m w kw u) as [[st' one']|]; try contradiction; subst; [|reflexivity].
    rewrite E. destruct (Req_EM_T _ 0); reflexivity.
Qed.
(** ** blank patterns *)
Lemma set_blank h d a b c m kw u d' : d_p d = 0 -> set_dmd_grating_state h d a b c m kw u = (d', Ok tt) ->
  forall i j, (i < fst (state_shape (d_state d')))%nat -> (j < snd (state_shape (d_state d')))%nat -> cell_at (d_state d') i j = blank_cell m.
Proof.
  unfold set_dmd_grating_state. intros Hp H. destruct (grating_of h d a b c m kw u) as [st|] eqn:E; [|discriminate]. injection H as <-. cbn [with_state d_state].
  unfold grating_of in E. rewrite Hp in E.
  destruct (profile_to_tensor_r h (d_slm d) a true) as [ta|]; [|discriminate]. cbn [rbind] in E.
  destruct (profile_to_tensor_r h (d_slm d) b true) as [tb|]; [|discriminate]. cbn [rbind] in E.
  destruct (profile_to_tensor_r h (d_slm d) c true) as [tc|]; [|discriminate]. cbn [rbind] in E.
  destruct (fourier_plane_grid (d_slm d)) as [x y]. 
  match type of E with rbind ?q _ = _ => destruct q as [g|] eqn:Eg; [|discriminate] end. cbn [rbind] in E.
  exact (dispatch_blank _ _ _ _ _ _ _ _ _ _ _ _ _ _ Eg E).
Qed.
Lemma calc_blank h d i t m w kw u d' eta : d_p d = 0 -> calculate_dmd_state h d i t m w kw u = (d', Ok eta) ->
  forall i j, (i < fst (state_shape (d_state d')))%nat -> (j < snd (state_shape (d_state d')))%nat -> cell_at (d_state d') i j = blank_cell m.
Proof.
  intros Hp H. rewrite calc_split in H. destruct (calc_new h d i t m w kw u) as [[st one]|] eqn:E; [|discriminate].
  assert (D : d_state d' = st) by (destruct (Req_EM_T _ 0); [discriminate|injection H as <- _; reflexivity]). rewrite D. clear H D.
  unfold calc_new in E. rewrite Hp in E.
  destruct (profile_to_tensor_c h (d_slm d) i true) as [ti|]; [|discriminate]. cbn [rbind] in E.
  destruct (profile_to_tensor_c h (d_slm d) t false) as [tt|]; [|discriminate]. cbn [rbind] in E.
  match type of E with rbind ?q _ = _ => destruct q as [tw|]; [|discriminate] end. cbn [rbind] in E.
  destruct (calc_amp_phase ti tt tw) as [[[[amp pin] pout] one']|]; [|discriminate]. cbn [rbind] in E.
  destruct (fourier_plane_grid (d_slm d)) as [x y].
  match type of E with rbind ?q _ = _ => destruct q as [[inp win]|]; [|discriminate] end. cbn [rbind] in E.
  match type of E with rbind ?q _ = _ => destruct q as [g|] eqn:Eg; [|discriminate] end. cbn [rbind] in E.
  destruct (to_dstate g) as [st'|] eqn:Es; [|discriminate]. cbn [rbind] in E. injection E as -> _.
  exact (dispatch_blank _ _ _ _ _ _ _ _ _ _ _ _ _ _ Eg Es).
Qed.
(** ** the first order at infinity *)
Lemma origin_zero d : d_p d = 0 -> scaling_factor (d_slm d) <> 0 -> forall x y, first_order_origin d <> (Fin x, Fin y).
Proof. intros Hp _ x y E. apply origin_inv in E. destruct E as [N _]. contradiction. Qed.
Lemma block_all d m f X Y : d_p d = 0 -> scaling_factor (d_slm d) <> 0 -> f_output m <> None ->
  field_is (f_image m) (NY (d_slm d) m) (NX (d_slm d) m) f ->
  grid_is (image_plane_padded_grid (d_slm d) m) (NY (d_slm d) m) (NX (d_slm d) m) X Y ->
  exists m', block_zeroth_order d m None = (m', Ok tt) /\ field_is (f_image m') (NY (d_slm d) m) (NX (d_slm d) m) (fun _ _ => RtoC 0).
Proof.
  intros Hp Hs Ho Hf Hg. unfold block_zeroth_order. destruct (f_output m) as [o|]; [|congruence].
  assert (ER : let rr := xdiv (xdiv (Fin (scaling_factor (d_slm d))) (Fin (d_p d))) (Fin 2) in rr = PInf \/ rr = MInf).
  { cbv zeta. rewrite Hp. cbn [xdiv]. destruct (Req_EM_T 0 0); [|lra]. destruct (Rlt_dec 0 _); [cbn [xdiv]; destruct (Rlt_dec 2 0); [lra|left; reflexivity]|].
    destruct (Rlt_dec _ 0); [cbn [xdiv]; destruct (Rlt_dec 2 0); [lra|right; reflexivity]|]. exfalso. apply Hs. lra. }
  set (rr := xdiv _ (Fin 2)) in *. cbv zeta in ER. assert (HB : forall q, below q rr = true) by (intros q; destruct ER as [-> | ->]; reflexivity).
  destruct (grid_is_shape _ _ _ _ _ Hg) as (gx & gy & EG). rewrite EG.
  destruct (f_image m) as [t|]; [|contradiction]. destruct t as [|ny nx k]; [contradiction|].
  destruct Hf as (-> & -> & Hk). rewrite tmap2_same. eexists. split; [reflexivity|].
  cbn [with_fields f_image]. cbn [field_is teq]. repeat (split; [reflexivity|]). intros u v Hu Hv. rewrite HB. reflexivity.
Qed.
