(** State shape, failure atomicity, ideal / simple / random gratings. *)
From Coq Require Import Reals Lra ZArith Arith List Bool Lia FunctionalExtensionality.
From Coquelicot Require Import Complex Coquelicot.
From Verif Require Import Cx Sums DFT PyBase ProfileModel SlmModel LibModel DmdModel SimSpec GridFacts DmdSpec DmdFacts DmdFacts2.
Import ListNotations.
Open Scope R_scope.

(** ** Shape *)
Lemma calc_grating_shape m neg amp pin pout x y ny nx X Y p th kw inp win u g st :
  ny <> 1%nat -> nx <> 1%nat -> grid_is (x, y) ny nx X Y ->
  calculate_dmd_grating m neg amp pin pout x y p th kw inp win u = Ok g -> to_dstate g = Ok st -> state_shape st = (ny, nx).
Proof.
  intros Hy Hx G. unfold calculate_dmd_grating, grating_ideal, grating_simple, grating_random.
  destruct m; try discriminate.
  - destruct (grating_tensor _ _ _ _ _ _) eqn:E; [|discriminate].
    destruct (grating_shape _ _ _ _ _ _ _ _ _ _ _ Hy Hx G E) as (k & -> & _). intros H; injection H as <-. intros H; injection H as <-. reflexivity.
  - destruct (grating_tensor _ _ _ _ _ _) eqn:E; [|discriminate].
    destruct (grating_shape _ _ _ _ _ _ _ _ _ _ _ Hy Hx G E) as (k & -> & _). intros H; injection H as <-. intros H; injection H as <-. reflexivity.
  - destruct (grating_tensor _ _ _ _ _ _) eqn:E; [|discriminate].
    destruct (grating_shape _ _ _ _ _ _ _ _ _ _ _ Hy Hx G E) as (k & -> & _). intros H; injection H as <-. intros H; injection H as <-. reflexivity.
  - unfold grating_ifta, grating_ideal. destruct (grating_tensor _ _ _ _ _ _) eqn:E; [|discriminate].
    destruct (grating_shape _ _ _ _ _ _ _ _ _ _ _ Hy Hx G E) as (k & -> & _). cbn [rbind].
    destruct inp as [F|], win as [[|a' b' W]|]; try discriminate.
    destruct (stretch ny nx F); [|discriminate]. destruct (stretch ny nx _); [|discriminate].
    intros H; injection H as <-. cbn [to_dstate]. intros H; injection H as <-. reflexivity.
Qed.
Lemma grating_of_shape h d a b c m kw u st : s_Ny (d_slm d) <> 1%nat -> s_Nx (d_slm d) <> 1%nat -> grating_of h d a b c m kw u = Ok st ->
  state_shape st = (s_Ny (d_slm d), s_Nx (d_slm d)).
Proof.
  unfold grating_of. intros Hy Hx H.
  destruct (profile_to_tensor_r h (d_slm d) a true) as [ta|]; [|discriminate]. cbn [rbind] in H.
  destruct (profile_to_tensor_r h (d_slm d) b true) as [tb|]; [|discriminate]. cbn [rbind] in H.
  destruct (profile_to_tensor_r h (d_slm d) c true) as [tc|]; [|discriminate]. cbn [rbind] in H.
  assert (G := grid_mirrors (d_slm d)). destruct (fourier_plane_grid (d_slm d)) as [x y].
  destruct (calculate_dmd_grating m (d_neg d) (tmap Fin ta) tb tc x y (d_p d) (d_theta d) kw (raw_tensor (k_input kw)) (raw_tensor (k_window kw)) u) as [g|] eqn:Eg; [|discriminate].
  cbn [rbind] in H. exact (calc_grating_shape _ _ _ _ _ _ _ _ _ _ _ _ _ _ _ _ _ _ _ Hy Hx G Eg H).
Qed.
Lemma calc_new_shape h d i t m w kw u st one : s_Ny (d_slm d) <> 1%nat -> s_Nx (d_slm d) <> 1%nat -> calc_new h d i t m w kw u = Ok (st, one) ->
  state_shape st = (s_Ny (d_slm d), s_Nx (d_slm d)).
Proof.
  unfold calc_new. intros Hy Hx H.
  destruct (profile_to_tensor_c h (d_slm d) i true); cbn [rbind] in H; [|discriminate].
  destruct (profile_to_tensor_c h (d_slm d) t false); cbn [rbind] in H; [|discriminate].
  match type of H with rbind ?r _ = _ => destruct r as [w'|] eqn:E3 end; cbn [rbind] in H; [|discriminate].
  destruct (calc_amp_phase a a0 w') as [[[[amp pin] pout] one']|] eqn:E4; cbn [rbind] in H; [|discriminate].
  assert (G := grid_mirrors (d_slm d)). destruct (fourier_plane_grid (d_slm d)) as [x y].
  match type of H with rbind ?r _ = _ => destruct r as [[inp win]|] eqn:E5 end; cbn [rbind] in H; [|discriminate].
  match type of H with rbind ?r _ = _ => destruct r as [g|] eqn:E6 end; cbn [rbind] in H; [|discriminate].
  destruct (to_dstate g) eqn:E7; cbn [rbind] in H; [|discriminate]. injection H as <- <-.
  exact (calc_grating_shape _ _ _ _ _ _ _ _ _ _ _ _ _ _ _ _ _ _ _ Hy Hx G E6 E7).
Qed.
(** Everything but the state is constant; the shape is kept. *)
Lemma do_call_keeps d c d' o : do_call d c = (d', o) -> d' = with_state d (d_state d') /\
  (s_Ny (d_slm d) <> 1%nat -> s_Nx (d_slm d) <> 1%nat -> state_shape (d_state d) = (s_Ny (d_slm d), s_Nx (d_slm d)) ->
   state_shape (d_state d') = (s_Ny (d_slm d), s_Nx (d_slm d))).
Proof.
  assert (W : d = with_state d (d_state d)) by (destruct d; reflexivity).
  destruct c; cbn [do_call].
  - intros H; injection H as <- <-. split; reflexivity.
  - intros H; injection H as <- <-. split; reflexivity.
  - unfold set_dmd_grating_state. destruct (grating_of h d amp pin pout m kw u) eqn:E; intros H; injection H as <- <-; [|auto].
    split; [reflexivity|]. intros Hy Hx _. exact (grating_of_shape _ _ _ _ _ _ _ _ _ Hy Hx E).
  - unfold circular_patch. destruct (grating_of h d amp pin pout m kw u) eqn:E; [|intros H; injection H as <- <-; auto].
    destruct (fourier_plane_pixel_grid (d_slm d)) as [ii jj].
    destruct (masked_assign _ _ _ _ _) eqn:Em; intros H; injection H as <- <-; [|auto].
    split; [reflexivity|]. intros _ _ Hs. rewrite <- Hs. exact (proj1 (proj2 (masked_kind _ _ _ _ _ _ Em))).
  - destruct (calculate_dmd_state h d input target m window kw u) as [d1 r] eqn:E. intros H; injection H as <- <-.
    destruct (calc_cases _ _ _ _ _ _ _ _ _ _ E) as [(st & one & K & -> & _)|(e & _ & -> & _)]; [|auto].
    split; [reflexivity|]. intros Hy Hx _. exact (calc_new_shape _ _ _ _ _ _ _ _ _ _ Hy Hx K).
  - intros H; injection H as <- <-. auto.
Qed.
Lemma do_calls_keep cs : forall d d' l, do_calls d cs = (d', l) -> d' = with_state d (d_state d') /\
  (s_Ny (d_slm d) <> 1%nat -> s_Nx (d_slm d) <> 1%nat -> state_shape (d_state d) = (s_Ny (d_slm d), s_Nx (d_slm d)) ->
   state_shape (d_state d') = (s_Ny (d_slm d), s_Nx (d_slm d))).
Proof.
  induction cs as [|c cs IH]; intros d d' l; cbn [do_calls].
  - intros H; injection H as <- <-. split; [destruct d; reflexivity|auto].
  - destruct (do_call d c) as [d1 o] eqn:E. destruct (do_calls d1 cs) as [d2 l2] eqn:E2. intros H; injection H as <- <-.
    destruct (do_call_keeps _ _ _ _ E) as [W1 S1]. destruct (IH _ _ _ E2) as [W2 S2]. split.
    + rewrite W2, W1. reflexivity.
    + intros Hy Hx Hs. assert (Es : d_slm d1 = d_slm d) by (rewrite W1; reflexivity). rewrite Es in S2. auto.
Qed.
Lemma history_shape wl fl per th Nx Ny ps neg cs d' l : (1 < Nx)%nat -> (1 < Ny)%nat ->
  do_calls (dmd_new wl fl per th Nx Ny ps neg) cs = (d', l) ->
  state_shape (d_state d') = (Ny, Nx) /\ d_slm d' = {| wavelength := wl; focal_length := fl; s_Nx := Nx; s_Ny := Ny; pixel_size := ps |} /\
  d_p d' = per * ps /\ d_theta d' = th /\ d_neg d' = neg.
Proof.
  intros Hx Hy H. apply do_calls_keep in H. destruct H as [W S]. cbn [d_slm dmd_new s_Ny s_Nx] in S.
  split; [apply S; [lia|lia|reflexivity]|]. rewrite W. repeat split.
Qed.

(** ** Failure atomicity *)
Lemma grating_atomic h d a b c m kw u d' e : set_dmd_grating_state h d a b c m kw u = (d', Err e) -> d' = d.
Proof. unfold set_dmd_grating_state. destruct (grating_of h d a b c m kw u); congruence. Qed.
Lemma calc_atomic h d i t m w kw u d' e : calculate_dmd_state h d i t m w kw u = (d', Err e) -> e <> ZeroDivisionError -> d' = d.
Proof.
  intros H He. destruct (calc_cases _ _ _ _ _ _ _ _ _ _ H) as [(st & one & _ & _ & _ & _ & [[? ?]|?])|(e' & _ & ? & _)]; congruence.
Qed.
Lemma grating_unknown h d a b c A B D kw u : reads h (d_slm d) a A -> reads h (d_slm d) b B -> reads h (d_slm d) c D ->
  set_dmd_grating_state h d a b c MUnknown kw u = (d, Err ValueError).
Proof.
  intros (ta & Ea & _) (tb & Eb & _) (tc & Ec & _). unfold set_dmd_grating_state, grating_of. rewrite Ea, Eb, Ec. cbn [rbind].
  destruct (fourier_plane_grid (d_slm d)). reflexivity.
Qed.
Lemma calc_amp_full ny nx F T : exists amp pin pout one, calc_amp_phase (T2 ny nx F) (T2 ny nx T) None = Ok (amp, pin, pout, one).
Proof.
  unfold calc_amp_phase. cbn [rbind]. unfold tmap2 at 1, bc2. cbn [tmap tshape bshape]. rewrite !bdim_refl. cbn [rbind]. repeat eexists.
Qed.
Lemma calc_unknown h d i t F T kw u : full_input h (d_slm d) i F -> full_target h (d_slm d) t T ->
  calculate_dmd_state h d i t MUnknown None kw u = (d, Err ValueError).
Proof.
  intros Hi Ht. rewrite calc_split. unfold calc_new. rewrite Hi, Ht. cbn [rbind].
  destruct (calc_amp_full (s_Ny (d_slm d)) (s_Nx (d_slm d)) F T) as (a & b & c & o & ->). cbn [rbind].
  destruct (fourier_plane_grid (d_slm d)). reflexivity.
Qed.
Lemma calc_ifta_window h d i t F T kw u : full_input h (d_slm d) i F -> full_target h (d_slm d) t T -> k_window kw = None ->
  calculate_dmd_state h d i t MIfta None kw u = (d, Err KeyError).
Proof.
  intros Hi Ht Hw. rewrite calc_split. unfold calc_new. rewrite Hi, Ht. cbn [rbind].
  destruct (calc_amp_full (s_Ny (d_slm d)) (s_Nx (d_slm d)) F T) as (a & b & c & o & ->). cbn [rbind].
  destruct (fourier_plane_grid (d_slm d)). rewrite Hw. reflexivity.
Qed.

(** ** Ideal grating *)
Lemma ideal_range A t : 0 <= A <= 1 -> 0 <= A * (cos t / 2 + 1 / 2) <= A.
Proof. intros H. assert (C := COS_bound t). split; [apply Rmult_le_pos; lra|]. nra. Qed.
Lemma two_cos a : RtoC (2 * cos a) = (cis a + cis (- a))%C.
Proof. apply C_eq; unfold cis; cbn [fst snd RtoC Cplus]; rewrite ?cos_neg, ?sin_neg; ring. Qed.
(** Three orders: [g] carrier, [pi] input phase, [po] output phase. *)
Lemma ideal_orders A g pi po :
  (RtoC (A * (cos (g - (po - pi)) / 2 + 1 / 2)) * cis pi)%C =
  (RtoC (A / 2) * cis pi + RtoC (A / 4) * cis po * cis (- g) + RtoC (A / 4) * cis (2 * pi - po) * cis g)%C.
Proof.
  replace (RtoC (A * (cos (g - (po - pi)) / 2 + 1 / 2))) with (RtoC (A / 4) * (RtoC (2 * cos (g - (po - pi))) + RtoC 2))%C
    by (rewrite <- RtoC_plus, <- RtoC_mult; f_equal; field).
  replace (RtoC (A / 2)) with (RtoC (A / 4) * RtoC 2)%C by (rewrite <- RtoC_mult; f_equal; field).
  rewrite two_cos.
  replace (- (g - (po - pi))) with (po + - pi + - g) by ring.
  replace (g - (po - pi)) with (g + (pi + - po)) by ring.
  replace (2 * pi - po) with (pi + (pi + - po)) by ring.
  rewrite !cis_plus. assert (E := cis_mul_neg pi).
  transitivity (RtoC (A / 4) * RtoC 2 * cis pi + RtoC (A / 4) * cis g * (cis pi * cis pi) * cis (- po)
    + RtoC (A / 4) * cis po * cis (- g) * (cis pi * cis (- pi)))%C; [ring|]. rewrite E. ring.
Qed.
Lemma ideal_orders_neg A g pi po :
  (RtoC (A * (cos (g - - (po - pi)) / 2 + 1 / 2)) * cis pi)%C =
  (RtoC (A / 2) * cis pi + RtoC (A / 4) * cis po * cis g + RtoC (A / 4) * cis (2 * pi - po) * cis (- g))%C.
Proof.
  replace (cos (g - - (po - pi))) with (cos (- g - (po - pi))) by (rewrite <- cos_neg; f_equal; ring).
  rewrite ideal_orders, Ropp_involutive. reflexivity.
Qed.
Lemma signed_neg neg a b : signed neg (a - b) = (if neg then - a else a) - (if neg then - b else b).
Proof. unfold signed. destruct neg; lra. Qed.

(** ** Simple grating *)
Lemma simple_dark A t : A <= 1 / 2 -> ~ (1 / 2 < A * (cos t / 2 + 1 / 2)).
Proof. intros H. assert (C := COS_bound t). nra. Qed.
Lemma simple_full t : 1 / 2 < 1 * (cos t / 2 + 1 / 2) <-> 0 < cos t.
Proof. split; lra. Qed.

(** ** Random grating *)
Lemma tanh_alt x : tanh x = 1 - 2 / (exp (2 * x) + 1).
Proof.
  unfold tanh, sinh, cosh. assert (H := exp_pos x). replace (2 * x) with (x + x) by ring. rewrite exp_plus, exp_Ropp. field. nra.
Qed.
Lemma tanh_incr x y : x < y -> tanh x < tanh y.
Proof.
  intros H. rewrite !tanh_alt. assert (E := exp_increasing (2 * x) (2 * y) ltac:(lra)). assert (P := exp_pos (2 * x)).
  assert (2 / (exp (2 * y) + 1) < 2 / (exp (2 * x) + 1)); [|lra].
  apply Rmult_lt_compat_l; [lra|]. apply Rinv_lt_contravar; nra.
Qed.
Lemma tanh_mono x y : x <= y -> tanh x <= tanh y.
Proof. intros [H| ->]; [left; apply tanh_incr; exact H|lra]. Qed.
Lemma tanh_bound x : - (1) < tanh x < 1.
Proof.
  rewrite tanh_alt. assert (P := exp_pos (2 * x)).
  assert (0 < 2 / (exp (2 * x) + 1)) by (apply Rdiv_lt_0_compat; lra).
  assert (2 / (exp (2 * x) + 1) < 2); [|lra].
  apply Rmult_lt_reg_r with (exp (2 * x) + 1); [lra|]. unfold Rdiv. rewrite Rmult_assoc, Rinv_l by lra. lra.
Qed.
Lemma tanh_odd x : tanh (- x) = - tanh x.
Proof. unfold tanh. rewrite sinh_neg || idtac. unfold sinh, cosh. rewrite Ropp_involutive. assert (H := exp_pos x). assert (H' := exp_pos (- x)). field. lra. Qed.
