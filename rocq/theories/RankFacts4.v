(** Stacks against single holograms; calls that raise; packing and propagating a stack. *)
From Coq Require Import Reals Lra ZArith Arith List Bool Lia.
From Coquelicot Require Import Complex.
From Verif Require Import Cx Sums DFT PyBase ProfileModel SlmModel LibModel DmdModel SimModel SimSpec DmdSpec GridFacts DmdFacts DmdThms RankModel RankSpec RankFacts2 RankFacts3.
Import ListNotations.
Open Scope R_scope.

Section Slices.
Variables (h : heap) (d : dmd) (B : list nat) (input target : nd C) (w : option (nd C)) (F T W : list nat -> nat -> nat -> C) (kw : kwargs) (u0 : nat -> nat -> R) (u : list nat -> R).
Hypotheses (HF : stack_of d B input F) (HT : stack_of d B target T) (HW : stack_window d B w W)
  (Hdeep : deep d B input \/ deep d B target \/ deep_window d B w)
  (Hp : d_p d <> 0) (Hny : (0 < s_Ny (d_slm d))%nat) (Hnx : (0 < s_Nx (d_slm d))%nat) (HB : Forall (fun n => (0 < n)%nat) B) (Hs : scaling_factor (d_slm d) <> 0)
  (Hdark : forall b i j, valid B b -> in_array d i j -> F b i j = RtoC 0 -> windowed d (T b) (W b) i j = RtoC 0)
  (Hlit : exists b i j, valid B b /\ in_array d i j /\ windowed d (T b) (W b) i j <> RtoC 0).
Lemma stack_slices : exists t t' eta,
  nd_calculate_dmd_state d input target MIdeal w (k_r kw) u = (Some (NFloat t), Ok (Fin eta)) /\
  nd_calculate_dmd_state d input target MSimple w (k_r kw) u = (Some (NBool t'), Ok (Fin eta)) /\
  (forall b, valid B b -> (exists i j, in_array d i j /\ windowed d (T b) (W b) i j <> RtoC 0) ->
     exists rho g g' eta_b, 0 < rho <= 1 /\ eta = rho * eta_b /\
       alone h d F T W w b MIdeal kw u0 = (with_state d (DFloat (s_Ny (d_slm d)) (s_Nx (d_slm d)) g), Ok (Fin eta_b)) /\
       alone h d F T W w b MSimple kw u0 = (with_state d (DBool (s_Ny (d_slm d)) (s_Nx (d_slm d)) g'), Ok (Fin eta_b)) /\
       (forall i j, in_array d i j -> exists l, g i j = Fin l /\ nel t (j :: i :: b) = Fin (rho * l)) /\
       (forall i j, in_array d i j -> nel t' (j :: i :: b) = true -> g' i j = true) /\
       (rho <= 1 / 2 -> forall i j, in_array d i j -> nel t' (j :: i :: b) = false)) /\
  (forall b, valid B b -> (forall i j, in_array d i j -> windowed d (T b) (W b) i j = RtoC 0) ->
     forall i j, in_array d i j -> nel t (j :: i :: b) = Fin 0 /\ nel t' (j :: i :: b) = false) /\
  (exists b, valid B b /\ exists g, alone h d F T W w b MIdeal kw u0 = (with_state d (DFloat (s_Ny (d_slm d)) (s_Nx (d_slm d)) g), Ok (Fin eta)) /\
     forall i j, in_array d i j -> nel t (j :: i :: b) = g i j).
Proof.
  destruct (stack_hologram d B input target w F T W (k_r kw) u HF HT HW Hdeep Hp Hny Hnx HB Hs Hdark Hlit) as (M & HM & HA & (b1 & i1 & j1 & Hb1 & Hij1 & E1) & (t & Et & _ & Vt) & (t' & Et' & _ & Vt') & _). cbv beta zeta in *.
  assert (Sp : forall b, valid B b -> (exists i j, in_array d i j /\ windowed d (T b) (W b) i j <> RtoC 0) -> exists m, 0 < m <= M /\
     (forall i j, in_array d i j -> Cmod (windowed d (T b) (W b) i j) / Cmod (F b i j) <= m) /\
     exists g g', alone h d F T W w b MIdeal kw u0 = (with_state d (DFloat (s_Ny (d_slm d)) (s_Nx (d_slm d)) g), Ok (Fin (eta_scale (d_slm d) / m))) /\
       alone h d F T W w b MSimple kw u0 = (with_state d (DBool (s_Ny (d_slm d)) (s_Nx (d_slm d)) g'), Ok (Fin (eta_scale (d_slm d) / m))) /\
       (forall i j, in_array d i j -> g i j = Fin (Cmod (windowed d (T b) (W b) i j) / Cmod (F b i j) / m * (cos (carrier d i j - signed (d_neg d) (phase_of (windowed d (T b) (W b) i j) - carg (F b i j))) / 2 + 1 / 2))) /\
       (forall i j, in_array d i j -> (g' i j = true <-> 1 / 2 < Cmod (windowed d (T b) (W b) i j) / Cmod (F b i j) / m * (cos (carrier d i j - signed (d_neg d) (phase_of (windowed d (T b) (W b) i j) - carg (F b i j))) / 2 + 1 / 2)))).
  { intros b Hb Hl. set (win := match w with None => None | Some _ => Some (ATensorC (T2 (s_Ny (d_slm d)) (s_Nx (d_slm d)) (W b))) end).
    assert (Hw : window_reads h (d_slm d) win (W b)).
    { unfold win. destruct w; [|exact (HW b)]. eexists. split; [reflexivity|]. split; [right; reflexivity|]. intros i j Hi Hj. apply tget_T2; assumption. }
    destruct (hologram_spec h d (ATensorC (T2 (s_Ny (d_slm d)) (s_Nx (d_slm d)) (F b))) (ATensorC (T2 (s_Ny (d_slm d)) (s_Nx (d_slm d)) (T b))) win (F b) (T b) (W b) kw u0 eq_refl eq_refl Hw Hp Hny Hnx Hs (fun i j => Hdark b i j Hb) Hl)
      as (m & Hm & Ha & (i0 & j0 & Hij & E0) & (g & Eg & Vg) & (g' & Eg' & Vg') & _). cbv beta zeta in *.
    exists m. split; [split; [exact Hm|]|split].
    - assert (Q := proj2 (HA b i0 j0 Hb Hij)). revert E0 Q. generalize (Cmod (windowed d (T b) (W b) i0 j0) / Cmod (F b i0 j0)). intros x E0 Q. assert (x = m) as -> by (apply (f_equal (fun y => y * m)) in E0; field_simplify in E0; lra).
      apply Rmult_le_reg_r with (/ M); [apply Rinv_0_lt_compat, HM|]. rewrite Rinv_r by lra. exact Q.
    - intros i j Hq. assert (Q := proj2 (Ha i j Hq)). revert Q. generalize (Cmod (windowed d (T b) (W b) i j) / Cmod (F b i j)). intros x Q.
      apply Rmult_le_reg_r with (/ m); [apply Rinv_0_lt_compat, Hm|]. rewrite Rinv_r by lra. exact Q.
    - exists g, g'. split; [exact Eg|]. split; [exact Eg'|]. split; [exact Vg|exact Vg']. }
  assert (Cb : forall x, 0 <= cos x / 2 + 1 / 2 <= 1) by (intros x; assert (Q := COS_bound x); lra).
  exists t, t', (eta_scale (d_slm d) / M). split; [exact Et|]. split; [exact Et'|]. split; [|split].
  - intros b Hb Hl. destruct (Sp b Hb Hl) as (m & [Hm0 Hm1] & Hm & g & g' & Eg & Eg' & Vg & Vg').
    exists (m / M), g, g', (eta_scale (d_slm d) / m).
    assert (Hr : 0 < m / M <= 1) by (split; [apply Rdiv_lt_0_compat; assumption|]; apply Rmult_le_reg_r with M; [exact HM|]; replace (m / M * M) with m by (field; lra); lra).
    split; [exact Hr|]. split; [field; lra|]. split; [exact Eg|]. split; [exact Eg'|].
    assert (Sc : forall x c, x / M * c = m / M * (x / m * c)) by (intros x c; field; lra).
    assert (Lv : forall i j c, in_array d i j -> 0 <= c <= 1 -> 0 <= Cmod (windowed d (T b) (W b) i j) / Cmod (F b i j) / m * c <= 1).
    { intros i j c Hij Hc. assert (L := Hm i j Hij). assert (P := proj1 (HA b i j Hb Hij)). revert L P. generalize (Cmod (windowed d (T b) (W b) i j) / Cmod (F b i j)). intros x L P.
      assert (0 <= x) by (replace x with (x / M * M) by (field; lra); apply Rmult_le_pos; lra).
      assert (0 <= x / m <= 1). { split; [apply Rmult_le_pos; [assumption|left; apply Rinv_0_lt_compat; assumption]|]. apply Rmult_le_reg_r with m; [assumption|]. replace (x / m * m) with x by (field; lra). lra. }
      split; [apply Rmult_le_pos; lra|]. apply Rle_trans with (1 * 1); [|lra]. apply Rmult_le_compat; lra. }
    split; [|split].
    + intros i j Hij. eexists. split; [apply Vg; exact Hij|]. rewrite Vt by assumption. f_equal. apply Sc.
    + intros i j Hij Q. apply Vg'; [exact Hij|]. apply Vt' in Q; [|exact Hb|exact Hij]. rewrite Sc in Q. assert (L := Lv i j _ Hij (Cb (carrier d i j - signed (d_neg d) (phase_of (windowed d (T b) (W b) i j) - carg (F b i j))))).
      eapply Rlt_le_trans; [exact Q|]. rewrite <- Rmult_1_l. apply Rmult_le_compat_r; [apply L|apply Hr].
    + intros Hh i j Hij. destruct (nel t' (j :: i :: b)) eqn:Q; [|reflexivity]. exfalso. apply Vt' in Q; [|exact Hb|exact Hij]. rewrite Sc in Q.
      assert (L := Lv i j _ Hij (Cb (carrier d i j - signed (d_neg d) (phase_of (windowed d (T b) (W b) i j) - carg (F b i j))))).
      revert L Q. generalize (Cmod (windowed d (T b) (W b) i j) / Cmod (F b i j) / m * (cos (carrier d i j - signed (d_neg d) (phase_of (windowed d (T b) (W b) i j) - carg (F b i j))) / 2 + 1 / 2)). intros l L Q.
      assert (m / M * l <= 1 / 2 * 1) by (apply Rmult_le_compat; lra). lra.
  - intros b Hb Hz i j Hij. assert (Z : Cmod (windowed d (T b) (W b) i j) / Cmod (F b i j) / M = 0) by (rewrite Hz, Cmod_0 by exact Hij; unfold Rdiv; ring). split.
    + rewrite Vt by assumption. f_equal. rewrite Z. ring.
    + destruct (nel t' (j :: i :: b)) eqn:Q; [|reflexivity]. exfalso. apply Vt' in Q; [|exact Hb|exact Hij]. rewrite Z in Q. lra.
  - exists b1. split; [exact Hb1|].
    assert (N1 : windowed d (T b1) (W b1) i1 j1 <> RtoC 0) by (intros Z; rewrite Z, Cmod_0 in E1; unfold Rdiv in E1; lra).
    destruct (Sp b1 Hb1 (ex_intro _ i1 (ex_intro _ j1 (conj Hij1 N1)))) as (m & [Hm0 Hm1] & Hm & g & g' & Eg & _ & Vg & _).
    assert (m = M) as ->. { assert (L := Hm i1 j1 Hij1). revert E1 L. generalize (Cmod (windowed d (T b1) (W b1) i1 j1) / Cmod (F b1 i1 j1)). intros x E1 L. assert (x = M) by (apply (f_equal (fun y => y * M)) in E1; field_simplify in E1; lra). lra. }
    exists g. split; [exact Eg|]. intros i j Hij. rewrite Vt, Vg by assumption. reflexivity.
Qed.
End Slices.
(** ** Calls that raise *)
Lemma flat_target d input target m w r u : (length (nsh target) < 2)%nat -> nd_calculate_dmd_state d input target m w r u = (None, Err ETensorFlow).
Proof.
  intros H. unfold nd_calculate_dmd_state. destruct (fourier_plane_grid (d_slm d)) as [x y]. unfold nd_calc_amp_phase, nfft2, nifftshift. cbn [nsh].
  destruct (nsh target) as [|a [|b l]]; cbn [length] in H; [reflexivity|reflexivity|lia].
Qed.
Lemma bdim_none a b : a <> b -> a <> 1%nat -> b <> 1%nat -> bdim a b = None.
Proof. intros H1 H2 H3. unfold bdim. destruct (Nat.eqb_spec a b); [contradiction|]. destruct (Nat.eqb_spec a 1); [contradiction|]. destruct (Nat.eqb_spec b 1); [contradiction|]. reflexivity. Qed.
Lemma uneven_stacks d input target m r u nx ny K L : nsh input = [nx; ny; K] -> nsh target = [nx; ny; L] -> K <> L -> K <> 1%nat -> L <> 1%nat ->
  nd_calculate_dmd_state d input target m None r u = (None, Err ETensorFlow).
Proof.
  intros Hi Ht H1 H2 H3. unfold nd_calculate_dmd_state. destruct (fourier_plane_grid (d_slm d)) as [x y]. unfold nd_calc_amp_phase, nfft2, nifftshift, nmap2. cbn [nsh]. rewrite Ht. cbn [rbind nsh nfftshift nmap]. rewrite Hi.
  cbn [nbshape]. rewrite !bdim_same, bdim_none by auto. reflexivity.
Qed.
Lemma channels_last d input target m r u K : nsh input = [s_Nx (d_slm d); s_Ny (d_slm d)] -> nsh target = [K; s_Nx (d_slm d); s_Ny (d_slm d)] ->
  K <> s_Nx (d_slm d) -> K <> 1%nat -> s_Nx (d_slm d) <> 1%nat -> nd_calculate_dmd_state d input target m None r u = (None, Err ETensorFlow).
Proof.
  intros Hi Ht H1 H2 H3. unfold nd_calculate_dmd_state. destruct (fourier_plane_grid (d_slm d)) as [x y]. unfold nd_calc_amp_phase, nfft2, nifftshift, nmap2. cbn [nsh]. rewrite Ht. cbn [rbind nsh nfftshift nmap]. rewrite Hi.
  cbn [nbshape]. rewrite bdim_none by auto. reflexivity.
Qed.
(** ** Packing *)
Lemma packbits_app k l l' : length l = (8 * k)%nat -> packbits (l ++ l') = packbits l ++ packbits l'.
Proof.
  revert l. induction k as [|k IH]; intros l Hl.
  - destruct l; [reflexivity|discriminate].
  - assert (Ep : forall q : list bool, (8 <= length q)%nat -> packbits q = byte_of (firstn 8 q) :: packbits (skipn 8 q)).
    { intros q Hq. unfold packbits. rewrite skipn_length. replace ((length q + 7) / 8)%nat with (S ((length q - 8 + 7) / 8)); [reflexivity|].
      replace (length q + 7)%nat with (length q - 8 + 7 + 1 * 8)%nat by lia. rewrite Nat.div_add by lia. lia. }
    rewrite (Ep (l ++ l')) by (rewrite app_length; lia). rewrite (Ep l) by lia.
    rewrite firstn_app, skipn_app. replace (8 - length l)%nat with 0%nat by lia. rewrite firstn_O, skipn_O, app_nil_r, <- app_comm_cons. f_equal. apply IH. rewrite skipn_length. lia.
Qed.
Lemma packbits_flat_map {A} (f : A -> list bool) k l : (forall x, In x l -> length (f x) = (8 * k)%nat) -> packbits (flat_map f l) = flat_map (fun x => packbits (f x)) l.
Proof.
  induction l as [|x l IH]; intros H; [reflexivity|]. cbn [flat_map]. rewrite (packbits_app k) by (apply H; left; reflexivity). f_equal. apply IH. intros y Hy. apply H. right. exact Hy.
Qed.
Lemma map_flat_map {A D E} (g : D -> E) (f : A -> list D) l : map g (flat_map f l) = flat_map (fun x => map g (f x)) l.
Proof. induction l as [|x l IH]; [reflexivity|]. cbn [flat_map]. rewrite map_app, IH. reflexivity. Qed.
Lemma flat_map_flat_map {A D E} (g : D -> list E) (f : A -> list D) l : flat_map g (flat_map f l) = flat_map (fun x => flat_map g (f x)) l.
Proof. induction l as [|x l IH]; [reflexivity|]. cbn [flat_map]. rewrite flat_map_app, IH. reflexivity. Qed.
Lemma flat_map_map {A D E} (g : D -> list E) (f : A -> D) l : flat_map g (map f l) = flat_map (fun x => g (f x)) l.
Proof. induction l as [|x l IH]; [reflexivity|]. cbn [map flat_map]. rewrite IH. reflexivity. Qed.
Lemma flat_stack (el : list nat -> bool) nx ny B : map el (all_idx (nx :: ny :: B)) = flat_map (fun b => flatten ny nx (fun i j => el (j :: i :: b))) (all_idx B).
Proof.
  cbn [all_idx]. rewrite map_flat_map, flat_map_flat_map. apply flat_map_ext. intros b. rewrite flat_map_map. unfold flatten. rewrite <- flat_map_concat_map. apply flat_map_ext. intros i. rewrite map_map. reflexivity.
Qed.
Lemma flatten_length ny nx f : length (flatten ny nx f) = (ny * nx)%nat.
Proof.
  unfold flatten. rewrite <- flat_map_concat_map. cut (forall o, length (flat_map (fun i => map (f i) (seq 0 nx)) (seq o ny)) = (ny * nx)%nat); [intros H; apply H|].
  induction ny as [|ny IH]; intros o; [reflexivity|]. cbn [seq flat_map]. rewrite app_length, IH, map_length, seq_length. lia.
Qed.
Lemma idx1 K : all_idx [K] = map (fun k => [k]) (seq 0 K).
Proof. cbn [all_idx flat_map]. apply app_nil_r. Qed.
Lemma stack_pack d t ny nx K : nsh t = [nx; ny; K] -> ((ny * nx) mod 8 = 0)%nat -> exists p : nat -> list Z,
  nd_pack (NBool t) = Ok (concat (map p (seq 0 K))) /\
  forall k, pack_dmd_state (with_state d (DBool ny nx (fun i j => nel t [j; i; k]))) = Ok (p k).
Proof.
  intros Ht H8. exists (fun k => packbits (flatten ny nx (fun i j => nel t [j; i; k]))). split; [|reflexivity].
  cbn [nd_pack]. rewrite Ht, flat_stack, (packbits_flat_map _ (ny * nx / 8)).
  - rewrite idx1, flat_map_map, flat_map_concat_map. reflexivity.
  - intros b _. rewrite flatten_length. rewrite (Nat.div_mod (ny * nx) 8) at 1 by lia. lia.
Qed.
Lemma stack_pack_size t ny nx K : nsh t = [nx; ny; K] -> exists l, nd_pack (NBool t) = Ok l /\ length l = ((K * (ny * nx) + 7) / 8)%nat.
Proof.
  intros Ht. eexists. split; [reflexivity|]. unfold packbits. rewrite packbits_n_length, Ht, flat_stack, idx1, flat_map_map.
  f_equal. f_equal. clear Ht. generalize 0%nat. induction K as [|K IH]; intros o; [reflexivity|]. cbn [seq flat_map]. rewrite app_length, flatten_length. rewrite (IH (S o)). lia.
Qed.
(** ** Propagating *)
Lemma stack_propagate s st m inp nx ny n B : (0 <= pad_x m)%Z -> (0 <= pad_y m)%Z -> nsh inp = [nx; ny] ->
  match st with NBool t => nsh t = nx :: ny :: n :: B | NFloat t => nsh t = nx :: ny :: n :: B end ->
  exists fin, nd_propagate s st m inp = (with_fields m (Some fin) (f_output m) (f_image m), Err ETensorFlow) /\
    tf_pad (pad_y m) (pad_x m) (T2 ny nx (fun i j => nel inp [j; i])) = Ok fin.
Proof.
  intros Hx Hy Hi Ht. unfold nd_propagate, nd_tf_pad. rewrite Hi. cbn [tf_pad]. destruct (Z.ltb_spec (pad_y m) 0); [lia|]. destruct (Z.ltb_spec (pad_x m) 0); [lia|].
  eexists. split; [|reflexivity].
  assert (Q : exists q, nd_state_tensor st = Ok q /\ nsh q = nx :: ny :: n :: B) by (destruct st; eexists; (split; [reflexivity|exact Ht])). destruct Q as (q & -> & Hq). cbn [rbind].
  unfold nmap2. rewrite Hi, Hq. cbn [nbshape]. rewrite !bdim_same. reflexivity.
Qed.
Lemma stack_input s st m inp nx ny n B : nsh inp = nx :: ny :: n :: B -> nd_propagate s st m inp = (m, Err ETensorFlow).
Proof. intros Hi. unfold nd_propagate, nd_tf_pad. rewrite Hi. reflexivity. Qed.
