(** Facts about packing, gratings states, patches (C01, C02, C38, C45, C46). *)
From Coq Require Import Reals Lra ZArith Arith List Bool Lia.
From Coquelicot Require Import Complex.
From Verif Require Import Cx Sums DFT PyBase ProfileModel SlmModel LibModel DmdModel SimSpec GridFacts.
Import ListNotations.
Open Scope R_scope.

(** ** Packing *)
Lemma flatten_rows ny nx (f : nat -> nat -> bool) a : length (concat (map (fun i => map (f i) (seq 0 nx)) (seq a ny))) = (ny * nx)%nat.
Proof.
  revert a. induction ny as [|n IH]; intros a; [reflexivity|]. cbn [seq map concat]. rewrite app_length, map_length, seq_length, IH. lia.
Qed.
Lemma flatten_length ny nx f : length (flatten ny nx f) = (ny * nx)%nat.
Proof. apply flatten_rows. Qed.
Lemma nth_flatten_rows ny nx (f : nat -> nat -> bool) a i j d : (i < ny)%nat -> (j < nx)%nat ->
  nth (i * nx + j) (concat (map (fun i => map (f i) (seq 0 nx)) (seq a ny))) d = f (a + i)%nat j.
Proof.
  revert a i. induction ny as [|n IH]; intros a i Hi Hj; [lia|]. cbn [seq map concat].
  destruct i as [|i].
  - rewrite app_nth1 by (rewrite map_length, seq_length; lia). cbn [Nat.mul Nat.add].
    rewrite (nth_map_lt (f a) (seq 0 nx) j d 0%nat) by (rewrite seq_length; lia). rewrite seq_nth by lia. f_equal; lia.
  - rewrite app_nth2 by (rewrite map_length, seq_length; lia). rewrite map_length, seq_length.
    replace (S i * nx + j - nx)%nat with (i * nx + j)%nat by lia. rewrite IH by lia. f_equal; lia.
Qed.
Lemma nth_flatten ny nx f i j d : (i < ny)%nat -> (j < nx)%nat -> nth (i * nx + j) (flatten ny nx f) d = f i j.
Proof. intros. unfold flatten. rewrite nth_flatten_rows by assumption. reflexivity. Qed.

Lemma firstn_pad8 (l : list bool) : length (firstn 8 (l ++ repeat false 8)) = 8%nat.
Proof. rewrite firstn_length, app_length, repeat_length. lia. Qed.
Lemma byte8 (b0 b1 b2 b3 b4 b5 b6 b7 : bool) (k : nat) : (k < 8)%nat ->
  let z := fold_left (fun a b => 2 * a + Z.b2z b)%Z [b0; b1; b2; b3; b4; b5; b6; b7] 0%Z in
  Z.testbit z (Z.of_nat (7 - k)) = nth k [b0; b1; b2; b3; b4; b5; b6; b7] false /\ (0 <= z < 256)%Z.
Proof.
  intros Hk. cbn [fold_left].
  split.
  - do 8 (destruct k as [|k]; [destruct b0, b1, b2, b3, b4, b5, b6, b7; reflexivity|]). lia.
  - destruct b0, b1, b2, b3, b4, b5, b6, b7; cbn; lia.
Qed.
Lemma list8 (l : list bool) : length l = 8%nat -> exists b0 b1 b2 b3 b4 b5 b6 b7, l = [b0; b1; b2; b3; b4; b5; b6; b7].
Proof.
  intros H. do 8 (destruct l as [|? l]; [discriminate|]). destruct l; [|discriminate]. repeat eexists.
Qed.
Lemma nth_repeat_false n i : nth i (repeat false n) false = false.
Proof. revert i. induction n as [|n IH]; intros [|i]; cbn; auto. Qed.
Lemma nth_firstn_lt {A} (l : list A) n i d : (i < n)%nat -> nth i (firstn n l) d = nth i l d.
Proof. revert n i. induction l as [|x l IH]; intros [|n] [|i] H; cbn; try reflexivity; try lia. apply IH. lia. Qed.
Lemma nth_skipn_at {A} (l : list A) n i d : nth i (skipn n l) d = nth (n + i) l d.
Proof. revert n. induction l as [|x l IH]; intros [|n]; cbn; try reflexivity; [destruct i; reflexivity|apply IH]. Qed.
Lemma byte_of_bits l k : (k < 8)%nat ->
  Z.testbit (byte_of l) (Z.of_nat (7 - k)) = nth k l false /\ (0 <= byte_of l < 256)%Z.
Proof.
  intros Hk. unfold byte_of. destruct (list8 _ (firstn_pad8 l)) as (b0 & b1 & b2 & b3 & b4 & b5 & b6 & b7 & E).
  assert (En : nth k (firstn 8 (l ++ repeat false 8)) false = nth k l false).
  { rewrite nth_firstn_lt by exact Hk. destruct (lt_dec k (length l)) as [H|H].
    - apply app_nth1. exact H.
    - rewrite app_nth2 by lia. rewrite nth_repeat_false, nth_overflow by lia. reflexivity. }
  rewrite <- En, E. apply byte8. exact Hk.
Qed.
Lemma packbits_n_length k l : length (packbits_n k l) = k.
Proof. revert l. induction k as [|k IH]; intros l; cbn [packbits_n length]; [reflexivity|]. rewrite IH. reflexivity. Qed.
Lemma packbits_n_nth n l k b : (k < n)%nat -> (b < 8)%nat ->
  Z.testbit (nth k (packbits_n n l) 0%Z) (Z.of_nat (7 - b)) = nth (8 * k + b) l false /\ (0 <= nth k (packbits_n n l) 0 < 256)%Z.
Proof.
  revert l k. induction n as [|n IH]; intros l k Hk Hb; [lia|]. cbn [packbits_n]. destruct k as [|k].
  - cbn [nth]. destruct (byte_of_bits (firstn 8 l) b Hb) as [H1 H2]. split; [|exact H2]. rewrite H1, nth_firstn_lt by exact Hb. reflexivity.
  - cbn [nth]. destruct (IH (skipn 8 l) k ltac:(lia) Hb) as [H1 H2]. split; [|exact H2]. rewrite H1, nth_skipn_at. f_equal. lia.
Qed.
Lemma pack_bits d ny nx f : d_state d = DBool ny nx f ->
  exists l, pack_dmd_state d = Ok l /\ length l = ((ny * nx + 7) / 8)%nat /\
    (forall k, (k < length l)%nat -> (0 <= nth k l 0 < 256)%Z) /\
    (forall i j, (i < ny)%nat -> (j < nx)%nat ->
       Z.testbit (nth ((i * nx + j) / 8) l 0%Z) (Z.of_nat (7 - (i * nx + j) mod 8)) = f i j) /\
    (forall k b, (k < length l)%nat -> (b < 8)%nat -> (ny * nx <= 8 * k + b)%nat -> Z.testbit (nth k l 0%Z) (Z.of_nat (7 - b)) = false).
Proof.
  intros E. unfold pack_dmd_state. rewrite E. eexists. split; [reflexivity|]. unfold packbits.
  rewrite packbits_n_length, flatten_length. split; [reflexivity|]. split; [|split].
  - intros k Hk. apply (proj2 (packbits_n_nth ((ny * nx + 7) / 8) (flatten ny nx f) k 0 Hk ltac:(lia))).
  - intros i j Hi Hj. assert (H8 : ((i * nx + j) mod 8 < 8)%nat) by (apply Nat.mod_upper_bound; lia).
    assert (HN : (i * nx + j < ny * nx)%nat) by nia.
    assert (HD := Nat.div_mod (i * nx + j) 8 ltac:(lia)).
    assert (Hk : ((i * nx + j) / 8 < (ny * nx + 7) / 8)%nat).
    { apply Nat.lt_le_trans with (S ((i * nx + j) / 8)); [lia|]. apply Nat.div_le_lower_bound; lia. }
    rewrite (proj1 (packbits_n_nth _ (flatten ny nx f) _ _ Hk H8)). rewrite <- HD. apply nth_flatten; assumption.
  - intros k b Hk Hb Ho. rewrite (proj1 (packbits_n_nth _ (flatten ny nx f) _ _ Hk Hb)). apply nth_overflow. rewrite flatten_length. lia.
Qed.
Lemma pack_injective d d' ny nx f f' l : d_state d = DBool ny nx f -> d_state d' = DBool ny nx f' ->
  pack_dmd_state d = Ok l -> pack_dmd_state d' = Ok l -> forall i j, (i < ny)%nat -> (j < nx)%nat -> f i j = f' i j.
Proof.
  intros E E' P P' i j Hi Hj.
  destruct (pack_bits d ny nx f E) as (l1 & P1 & _ & _ & H1 & _). destruct (pack_bits d' ny nx f' E') as (l2 & P2 & _ & _ & H2 & _).
  assert (l1 = l2) by congruence. subst l2. rewrite <- H1, <- H2 by assumption. reflexivity.
Qed.

(** ** Element types *)
Definition is_bool (d : dmd) : Prop := match d_state d with DBool _ _ _ => True | DFloat _ _ _ => False end.
Lemma pack_iff d : (exists l, pack_dmd_state d = Ok l) <-> is_bool d.
Proof. unfold pack_dmd_state, is_bool. destruct (d_state d); split; intros H; eauto; [destruct H; discriminate|contradiction]. Qed.
Lemma pack_error d e : pack_dmd_state d = Err e -> e = TypeError /\ ~ is_bool d.
Proof. unfold pack_dmd_state, is_bool. destruct (d_state d); [discriminate|]. intros H; inversion H. tauto. Qed.
Definition st_bool (s : dstate) : bool := match s with DBool _ _ _ => true | DFloat _ _ _ => false end.
Definition binary_method (m : method) : bool := match m with MIdeal => false | _ => true end.
Lemma grating_kind m neg amp pin pout x y p th kw inp win u g st :
  calculate_dmd_grating m neg amp pin pout x y p th kw inp win u = Ok g -> to_dstate g = Ok st ->
  st_bool st = binary_method m /\ m <> MUnknown.
Proof.
  unfold calculate_dmd_grating. intros H E.
  destruct m; try discriminate;
    (match goal with H : rmap _ ?r = _ |- _ => destruct r as [t|]; [|discriminate]; injection H as <- end);
    destruct t; cbn in E; try discriminate; injection E as <-; split; [reflexivity|discriminate..|reflexivity|discriminate|reflexivity|discriminate|reflexivity|discriminate].
Qed.
Lemma grating_of_kind h d a b c m kw u st : grating_of h d a b c m kw u = Ok st -> st_bool st = binary_method m /\ m <> MUnknown.
Proof.
  unfold grating_of. intros H.
  destruct (profile_to_tensor_r h (d_slm d) a true) as [ta|]; [|discriminate]. cbn [rbind] in H.
  destruct (profile_to_tensor_r h (d_slm d) b true) as [tb|]; [|discriminate]. cbn [rbind] in H.
  destruct (profile_to_tensor_r h (d_slm d) c true) as [tc|]; [|discriminate]. cbn [rbind] in H.
  destruct (fourier_plane_grid (d_slm d)) as [x y].
  destruct (calculate_dmd_grating m (d_neg d) (tmap Fin ta) tb tc x y (d_p d) (d_theta d) kw (raw_tensor (k_input kw)) (raw_tensor (k_window kw)) u) as [g|] eqn:Eg; [|discriminate].
  cbn [rbind] in H. exact (grating_kind _ _ _ _ _ _ _ _ _ _ _ _ _ _ _ Eg H).
Qed.

(** ** calculate_dmd_state: the only way to raise after the store is a zero division. *)
Definition calc_new (h : heap) (d : dmd) (input target : parg) (m : method) (window : option parg)
  (kw : kwargs) (u : nat -> nat -> R) : res (dstate * xr) :=
  let s := d_slm d in
  let! input := profile_to_tensor_c h s input true in
  let! target := profile_to_tensor_c h s target false in
  let! window := match window with
                 | None => Ok None
                 | Some w => let! w := profile_to_tensor_c h s w true in Ok (Some w)
                 end in
  let! (amp, pin, pout, one) := calc_amp_phase input target window in
  let (x, y) := fourier_plane_grid s in
  let! (inp, win) := match m with
                     | MIfta => match k_window kw with
                                | None => Err KeyError
                                | Some w => let! w := profile_to_tensor_c h s w false in Ok (Some input, Some w)
                                end
                     | _ => Ok (raw_tensor (k_input kw), raw_tensor (k_window kw))
                     end in
  let! g := calculate_dmd_grating m (d_neg d) amp pin pout x y (d_p d) (d_theta d) kw inp win u in
  let! st := to_dstate g in
  Ok (st, one).
Lemma calc_split h d input target m window kw u :
  calculate_dmd_state h d input target m window kw u =
  match calc_new h d input target m window kw u with
  | Err e => (d, Err e)
  | Ok (st, one) =>
      if Req_EM_T (scaling_factor (d_slm d)) 0 then (with_state d st, Err ZeroDivisionError)
      else (with_state d st, py_div (pixel_size (d_slm d) ^ 2 / scaling_factor (d_slm d) * INR (s_Nx (d_slm d)) * INR (s_Ny (d_slm d))) one)
  end.
Proof. reflexivity. Qed.

(** Errors that conversions of profiles can raise. *)
Definition conv_err (e : exn) : Prop := e = NotImplementedError \/ e = EUnmodelled \/ e = TypeError.
Lemma lift_or_err o e : lift_or o = Err e -> e = EUnmodelled.
Proof. destruct o; cbn; congruence. Qed.
Lemma lift_oc_err o e : lift_oc o = Err e -> e = EUnmodelled.
Proof. destruct o; cbn; congruence. Qed.
Lemma bin_val_err o a b e : bin_val o a b = Err e -> e = EUnmodelled.
Proof.
  destruct a, b; cbn [bin_val]; unfold bin_r, bin_c; destruct o; try discriminate;
    match goal with |- context [if ?c then _ else _] => destruct c end; congruence.
Qed.
Lemma pow_val_err a b e : pow_val a b = Err e -> e = EUnmodelled.
Proof. destruct a, b; cbn [pow_val]; intros H; eauto using lift_or_err, lift_oc_err. Qed.
Lemma func_err h p : forall x y e, func h p x y = Err e -> e = NotImplementedError \/ e = EUnmodelled.
Proof.
  induction p; intros x y e H; cbn [func] in H;
    repeat match type of H with
    | context [if ?c then _ else _] => destruct c
    | rbind ?r _ = Err _ => let E := fresh "E" in destruct r eqn:E; cbn [rbind] in H
    end; try discriminate; try (injection H as <-; tauto);
    first [solve [injection H as <-; eauto] | solve [eauto] | right; solve [eauto using lift_or_err, lift_oc_err, bin_val_err, pow_val_err]].
Qed.
Lemma all_ok_row_err {A} (f : nat -> res A) n e : all_ok_row f n = Err e -> exists i, f i = Err e.
Proof.
  induction n as [|n IH]; cbn [all_ok_row]; [discriminate|]. destruct (all_ok_row f n) as [[]|e']; cbn [rbind].
  - destruct (f n) eqn:E; cbn [rbind]; [discriminate|]. intros H; injection H as <-. eauto.
  - intros H; injection H as <-. auto.
Qed.
Lemma all_ok_err {A} (f : nat -> nat -> res A) ny nx e : all_ok f ny nx = Err e -> exists i j, f i j = Err e.
Proof.
  induction ny as [|n IH]; cbn [all_ok]; [discriminate|]. destruct (all_ok f n nx) as [[]|e']; cbn [rbind].
  - intros H. destruct (all_ok_row_err _ _ _ H). eauto.
  - intros H; injection H as <-. auto.
Qed.
Lemma sample_err h p g e : sample h p g = Err e -> e = NotImplementedError \/ e = EUnmodelled.
Proof.
  unfold sample. destruct (scalar_valued p).
  - destruct (func h p 0 0) eqn:E; cbn [rbind]; [discriminate|]. intros H; injection H as <-. eauto using func_err.
  - destruct (fst g) eqn:Eg; [intros H; injection H as <-; tauto|].
    match goal with |- rbind ?r _ = _ -> _ => destruct r eqn:E end; cbn [rbind]; [discriminate|].
    intros H; injection H as <-. destruct (all_ok_err _ _ _ _ E) as (i & j & Hf). eauto using func_err.
Qed.
Lemma ptc_err h s a b e : profile_to_tensor_c h s a b = Err e -> conv_err e.
Proof.
  unfold profile_to_tensor_c, conv_err. destruct a; try discriminate.
  match goal with |- rbind ?r _ = _ -> _ => destruct r eqn:E end; cbn [rbind]; [discriminate|].
  intros H; injection H as <-. apply sample_err in E. tauto.
Qed.
Lemma ptr_err h s a b e : profile_to_tensor_r h s a b = Err e -> conv_err e.
Proof.
  unfold profile_to_tensor_r, conv_err. destruct a; try discriminate.
  - match goal with |- rbind ?r _ = _ -> _ => destruct r eqn:E end; cbn [rbind]; [discriminate|].
    intros H; injection H as <-. apply sample_err in E. tauto.
  - match goal with t : tensor C |- _ => destruct t end; [|discriminate]. intros H; injection H as <-. tauto.
Qed.
Lemma bc_all_err s l e : bc_all s l = Err e -> e = ETensorFlow.
Proof.
  unfold bc_all. assert (G : forall r, (forall e, r = Err e -> e = ETensorFlow) -> fold_left bshape_r l r = Err e -> e = ETensorFlow).
  { induction l as [|t l IH]; intros r Hr; cbn [fold_left]; [apply Hr|]. apply IH. intros e' H. unfold bshape_r in H.
    destruct r; cbn [rbind] in H; [|eauto]. destruct (bshape a t); congruence. }
  apply G. discriminate.
Qed.
Lemma grating_tensor_err {A} px amp pin pout x y e : @grating_tensor A px amp pin pout x y = Err e -> e = ETensorFlow.
Proof.
  unfold grating_tensor. destruct (bc_all _ _) eqn:E; cbn [rbind]; [discriminate|]. intros H; injection H as <-. exact (bc_all_err _ _ _ E).
Qed.
Definition grat_err (e : exn) : Prop := e = ETensorFlow \/ e = EUnmodelled \/ e = ValueError.
Lemma ideal_err neg amp pin pout x y p th e : grating_ideal neg amp pin pout x y p th = Err e -> grat_err e.
Proof. intros H. left. exact (grating_tensor_err _ _ _ _ _ _ _ H). Qed.
Lemma rmap_err {A B} (f : A -> B) r e : rmap f r = Err e -> r = Err e.
Proof. destruct r; cbn; congruence. Qed.
Lemma calculate_grating_err m neg amp pin pout x y p th kw inp win u e :
  calculate_dmd_grating m neg amp pin pout x y p th kw inp win u = Err e -> grat_err e.
Proof.
  unfold calculate_dmd_grating. destruct m; intros H; try (apply rmap_err in H).
  - exact (ideal_err _ _ _ _ _ _ _ _ _ H).
  - left. exact (grating_tensor_err _ _ _ _ _ _ _ H).
  - left. exact (grating_tensor_err _ _ _ _ _ _ _ H).
  - unfold grating_ifta in H. destruct (grating_ideal neg amp pin pout x y p th) eqn:E; cbn [rbind] in H.
    + unfold grat_err. destruct inp as [F|], win as [[|]|], a; try (injection H as <-; tauto).
      match type of H with match ?c with _ => _ end = _ => destruct c end; [|injection H as <-; tauto].
      match type of H with match ?c with _ => _ end = _ => destruct c end; [discriminate|injection H as <-; tauto].
    + injection H as <-. exact (ideal_err _ _ _ _ _ _ _ _ _ E).
  - injection H as <-. unfold grat_err; tauto.
Qed.
Lemma to_dstate_err g e : to_dstate g = Err e -> e = EUnmodelled.
Proof. destruct g as [[|]|[|]]; cbn; congruence. Qed.
Lemma tmap2_err {A B D} (g : A -> B -> D) a b e : tmap2 g a b = Err e -> e = ETensorFlow.
Proof. unfold tmap2, bc2. destruct (bshape _ _); cbn [rbind]; congruence. Qed.
Lemma calc_amp_phase_err i t w e : calc_amp_phase i t w = Err e -> e = ETensorFlow.
Proof.
  unfold calc_amp_phase. destruct t; [congruence|].
  match goal with |- rbind ?r _ = _ -> _ => destruct r eqn:E end; cbn [rbind].
  - match goal with |- rbind ?r _ = _ -> _ => destruct r eqn:E' end; cbn [rbind]; [discriminate|].
    intros H; injection H as <-. exact (tmap2_err _ _ _ _ E').
  - intros H; injection H as <-. destruct w; [exact (tmap2_err _ _ _ _ E)|discriminate].
Qed.
Lemma calc_new_err h d i t m w kw u e : calc_new h d i t m w kw u = Err e -> conv_err e \/ grat_err e \/ e = KeyError.
Proof.
  unfold calc_new. intros H.
  destruct (profile_to_tensor_c h (d_slm d) i true) eqn:E1; cbn [rbind] in H; [|injection H as <-; left; exact (ptc_err _ _ _ _ _ E1)].
  destruct (profile_to_tensor_c h (d_slm d) t false) eqn:E2; cbn [rbind] in H; [|injection H as <-; left; exact (ptc_err _ _ _ _ _ E2)].
  match type of H with rbind ?r _ = _ => destruct r as [w'|] eqn:E3 end; cbn [rbind] in H.
  2: { injection H as <-. destruct w as [w|]; [|discriminate]. destruct (profile_to_tensor_c h (d_slm d) w true) eqn:E4; cbn [rbind] in E3; [discriminate|].
       injection E3 as <-. left. exact (ptc_err _ _ _ _ _ E4). }
  destruct (calc_amp_phase a a0 w') as [[[[amp pin] pout] one]|] eqn:E4; cbn [rbind] in H.
  2: { injection H as <-. apply calc_amp_phase_err in E4. unfold grat_err. tauto. }
  destruct (fourier_plane_grid (d_slm d)) as [x y].
  match type of H with rbind ?r _ = _ => destruct r as [[inp win]|] eqn:E5 end; cbn [rbind] in H.
  2: { injection H as <-. destruct m; try discriminate. destruct (k_window kw) as [kwn|]; [|injection E5 as <-; tauto].
       destruct (profile_to_tensor_c h (d_slm d) kwn false) eqn:E6; cbn [rbind] in E5; [discriminate|]. injection E5 as <-. left. exact (ptc_err _ _ _ _ _ E6). }
  match type of H with rbind ?r _ = _ => destruct r as [g|] eqn:E6 end; cbn [rbind] in H.
  2: { injection H as <-. right. left. exact (calculate_grating_err _ _ _ _ _ _ _ _ _ _ _ _ _ _ E6). }
  destruct (to_dstate g) eqn:E7; cbn [rbind] in H; [discriminate|]. injection H as <-. apply to_dstate_err in E7. unfold conv_err. tauto.
Qed.
Lemma calc_new_kind h d i t m w kw u st one : calc_new h d i t m w kw u = Ok (st, one) -> st_bool st = binary_method m /\ m <> MUnknown.
Proof.
  unfold calc_new. intros H.
  destruct (profile_to_tensor_c h (d_slm d) i true); cbn [rbind] in H; [|discriminate].
  destruct (profile_to_tensor_c h (d_slm d) t false); cbn [rbind] in H; [|discriminate].
  match type of H with rbind ?r _ = _ => destruct r as [w'|] eqn:E3 end; cbn [rbind] in H; [|discriminate].
  destruct (calc_amp_phase a a0 w') as [[[[amp pin] pout] one']|] eqn:E4; cbn [rbind] in H; [|discriminate].
  destruct (fourier_plane_grid (d_slm d)) as [x y].
  match type of H with rbind ?r _ = _ => destruct r as [[inp win]|] eqn:E5 end; cbn [rbind] in H; [|discriminate].
  match type of H with rbind ?r _ = _ => destruct r as [g|] eqn:E6 end; cbn [rbind] in H; [|discriminate].
  destruct (to_dstate g) eqn:E7; cbn [rbind] in H; [|discriminate]. injection H as <- <-.
  exact (grating_kind _ _ _ _ _ _ _ _ _ _ _ _ _ _ _ E6 E7).
Qed.
Lemma py_div_err a b e : py_div a b = Err e -> e = ZeroDivisionError /\ b = Fin 0.
Proof. destruct b; cbn; try congruence. destruct (Req_EM_T r 0) as [->|]; [|congruence]. intros H; injection H as <-. tauto. Qed.
(** Success or zero division: the state is the new one; any other error: nothing changed. *)
Lemma calc_cases h d i t m w kw u d' r : calculate_dmd_state h d i t m w kw u = (d', r) ->
  (exists st one, calc_new h d i t m w kw u = Ok (st, one) /\ d' = with_state d st /\ st_bool st = binary_method m /\ m <> MUnknown /\
     ((exists eta, r = Ok eta) \/ r = Err ZeroDivisionError)) \/
  (exists e, calc_new h d i t m w kw u = Err e /\ d' = d /\ r = Err e /\ e <> ZeroDivisionError).
Proof.
  rewrite calc_split. destruct (calc_new h d i t m w kw u) as [[st one]|e] eqn:E; intros H.
  - left. exists st, one. destruct (calc_new_kind _ _ _ _ _ _ _ _ _ _ E) as [K1 K2]. split; [reflexivity|].
    destruct (Req_EM_T (scaling_factor (d_slm d)) 0); injection H as <- <-; (split; [reflexivity|]); split; auto; split; auto.
    destruct (py_div _ one) eqn:P; eauto. right. f_equal. exact (proj1 (py_div_err _ _ _ P)).
  - right. exists e. injection H as <- <-. split; [reflexivity|]. split; [reflexivity|]. split; [reflexivity|].
    destruct (calc_new_err _ _ _ _ _ _ _ _ _ E) as [H|[H|H]]; unfold conv_err, grat_err in H; intuition congruence.
Qed.
