(** Targets made of several beams (C129). *)
From Coq Require Import Reals Lra Psatz ZArith Arith List Bool Lia.
From Coquelicot Require Import Complex.
From Verif Require Import Cx Sums DFT PyBase ProfileModel SlmModel LibModel DmdModel SimModel SimSpec SimExamples DmdSpec DmdFacts DmdFacts2 DmdFacts3 AmpFacts AmpFacts2 AmpFacts3 AmpFacts4 AmpFacts5 DmdThms DmdExamples SimFacts2 OrderFacts MultiSpec.
Open Scope R_scope.

Lemma Cmod_csum n f : Cmod (csum n f) <= rsum n (fun k => Cmod (f k)).
Proof. induction n as [|n IH]; cbn [csum rsum]; [rewrite Cmod_0; lra|]. eapply Rle_trans; [apply Cmod_triangle|]. apply Rplus_le_compat_r, IH. Qed.
Lemma csum_mult_r n f (z : C) : (csum n f * z)%C = csum n (fun k => f k * z)%C.
Proof. induction n as [|n IH]; cbn [csum]; [ring|]. rewrite <- IH. ring. Qed.
Lemma csum_pointwise n f g : (forall k, (k < n)%nat -> f k = g k) -> csum n f = csum n g.
Proof. induction n as [|n IH]; intros H; cbn [csum]; [reflexivity|]. rewrite IH, H by auto. reflexivity. Qed.
Lemma spectrum_superposed ny nx n a T i j : spectrum_of ny nx (superposed n a T) i j = csum n (fun k => a k * spectrum_of ny nx (T k) i j)%C.
Proof.
  unfold superposed. induction n as [|n IH]; cbn [csum].
  - rewrite (spectrum_of_ext ny nx _ (fun _ _ => (RtoC 0 * RtoC 0)%C)) by (intros; ring). rewrite spectrum_of_scal. ring.
  - rewrite <- IH, <- spectrum_of_scal. unfold spectrum_of. rewrite <- csum2_plus. apply csum2_ext. intros u v _ _. ring.
Qed.
Lemma windowed_superposed d n a T W i j : windowed d (superposed n a T) W i j = csum n (fun k => a k * windowed d (T k) W i j)%C.
Proof. unfold windowed. rewrite spectrum_superposed, csum_mult_r. apply csum_pointwise. intros. ring. Qed.
Lemma first_superposed d n a T W i j : first_order d (windowed d (superposed n a T) W) i j = csum n (fun k => a k * first_order d (windowed d (T k) W) i j)%C.
Proof. unfold first_order. rewrite windowed_superposed, csum_mult_r. apply csum_pointwise. intros. ring. Qed.
Lemma image_scal ny nx k E u v : image_of ny nx (fun i j => (k * E i j)%C) u v = (k * image_of ny nx E u v)%C.
Proof. unfold image_of, Cdiv. rewrite Cmult_assoc. f_equal. rewrite <- csum2_scal_l. apply csum2_ext. intros; ring. Qed.
Lemma image_first_superposed ny nx d n a T W u v : image_of ny nx (first_order d (windowed d (superposed n a T) W)) u v = csum n (fun k => a k * image_of ny nx (first_order d (windowed d (T k) W)) u v)%C.
Proof.
  rewrite (image_of_ext ny nx _ (fun i j => csum n (fun k => a k * first_order d (windowed d (T k) W) i j)%C)) by (intros; apply first_superposed).
  rewrite (image_of_sum ny nx n (fun k i j => (a k * first_order d (windowed d (T k) W) i j)%C)). apply csum_pointwise. intros. apply image_scal.
Qed.
Section Device.
Variables (h : heap) (d : dmd) (input : parg) (w : option parg) (F W : nat -> nat -> C) (kw : kwargs) (u : nat -> nat -> R).
Hypothesis RF : full_input h (d_slm d) input F.
Hypothesis RW : window_reads h (d_slm d) w W.
Hypothesis Hp : d_p d <> 0.
Hypothesis Hy : (0 < s_Ny (d_slm d))%nat.
Hypothesis Hx : (0 < s_Nx (d_slm d))%nat.
Hypothesis Hs : 0 < scaling_factor (d_slm d).
Hypothesis Hq : pixel_size (d_slm d) <> 0.
Lemma scale_pos : 0 < eta_scale (d_slm d).
Proof.
  unfold eta_scale. assert (0 < INR (s_Nx (d_slm d))) by (apply lt_0_INR; lia). assert (0 < INR (s_Ny (d_slm d))) by (apply lt_0_INR; lia).
  assert (0 < pixel_size (d_slm d) ^ 2). { assert (P := pow2_ge_0 (pixel_size (d_slm d))). destruct P as [P|P]; [exact P|]. exfalso. apply Hq. nra. }
  apply Rmult_lt_0_compat; [|apply Rinv_0_lt_compat; exact Hs]. apply Rmult_lt_0_compat; [apply Rmult_lt_0_compat|]; assumption.
Qed.
(** The efficiency is the inverse of the largest ratio of spectrum and input. *)
Lemma reported target T : full_target h (d_slm d) target T -> displayable d F T W ->
  exists eta, 0 < eta /\ reports h d input target w kw u eta /\
    (forall i j, in_array d i j -> Cmod (windowed d T W i j) * eta <= eta_scale (d_slm d) * Cmod (F i j)) /\
    (exists i j, in_array d i j /\ 0 < Cmod (F i j) /\ Cmod (windowed d T W i j) * eta = eta_scale (d_slm d) * Cmod (F i j)).
Proof.
  intros RT [D1 D2]. destruct (hologram_spec h d input target w F T W kw u RF RT RW Hp Hy Hx ltac:(lra) D1 D2) as (M & HM & A1 & (i0 & j0 & I0 & A2) & (g & G & _) & (g' & G' & _) & (g'' & G'' & _)).
  assert (P := scale_pos). exists (eta_scale (d_slm d) / M). split; [apply Rmult_lt_0_compat; [exact P|apply Rinv_0_lt_compat, HM]|].
  split; [intros m [->|[->| ->]]; [rewrite G|rewrite G'|rewrite G'']; reflexivity|]. split.
  - intros i j Hij. destruct (Ceq_dec (F i j) (RtoC 0)) as [Z|Z].
    { rewrite (D1 i j Hij Z), Z, Cmod_0. lra. }
    assert (PF := proj1 (Cmod_gt_0 _) Z). destruct (A1 i j Hij) as [_ A]. set (a := Cmod (windowed d T W i j)) in *. set (f := Cmod (F i j)) in *.
    assert (E : a = a / f / M * (f * M)) by (field; lra). assert (a <= f * M) by (rewrite E; rewrite <- (Rmult_1_l (f * M)) at 2; apply Rmult_le_compat_r; [apply Rmult_le_pos; lra|exact A]).
    unfold Rdiv. rewrite Rmult_comm, Rmult_assoc. apply Rmult_le_compat_l; [lra|]. apply Rmult_le_reg_l with M; [exact HM|]. rewrite <- Rmult_assoc, Rinv_r, Rmult_1_l by lra. lra.
  - exists i0, j0. split; [exact I0|]. assert (NF : 0 < Cmod (F i0 j0)).
    { destruct (Ceq_dec (F i0 j0) (RtoC 0)) as [Z|Z]; [|exact (proj1 (Cmod_gt_0 _) Z)]. exfalso. rewrite (D1 i0 j0 I0 Z), Cmod_0 in A2. unfold Rdiv in A2. rewrite !Rmult_0_l in A2. lra. }
    split; [exact NF|]. set (a := Cmod (windowed d T W i0 j0)) in *. set (f := Cmod (F i0 j0)) in *. assert (E : a = f * M). { assert (X : a = a / f / M * (f * M)) by (field; lra). rewrite X, A2. ring. } rewrite E. field. lra.
Qed.
Lemma superposition n a T targets target : (forall k, (k < n)%nat -> full_target h (d_slm d) (targets k) (T k) /\ displayable d F (T k) W) ->
  full_target h (d_slm d) target (superposed n a T) -> (exists i j, in_array d i j /\ windowed d (superposed n a T) W i j <> RtoC 0) ->
  exists eta etas first, reports h d input target w kw u eta /\ 0 < eta /\ (forall k, (k < n)%nat -> reports h d input (targets k) w kw u (etas k) /\ 0 < etas k) /\
    / eta <= rsum n (fun k => Cmod (a k) / etas k) /\
    (forall m, pad_x m = 0%Z -> pad_y m = 0%Z ->
      (forall k, (k < n)%nat -> displays_first h d input (targets k) w kw u F (windowed d (T k) W) (fun p q => RtoC (etas k) * first k p q)%C m) /\
      displays_first h d input target w kw u F (windowed d (superposed n a T) W) (fun p q => RtoC eta * csum n (fun k => a k * first k p q))%C m).
Proof.
  intros HT RT NZ.
  assert (DT : displayable d F (superposed n a T) W).
  { split; [|exact NZ]. intros i j Hij Z. rewrite windowed_superposed. clear NZ RT. induction n as [|n IH]; cbn [csum]; [reflexivity|]. rewrite IH by (intros k Hk; apply HT; lia).
    destruct (HT n ltac:(lia)) as [_ [D1 _]]. rewrite (D1 i j Hij Z). ring. }
  destruct (reported target _ RT DT) as (eta & P & R & B & (i0 & j0 & I0 & F0 & E0)).
  assert (SEL : exists etas, forall k, (k < n)%nat -> reports h d input (targets k) w kw u (etas k) /\ 0 < etas k /\ forall i j, in_array d i j -> Cmod (windowed d (T k) W i j) * etas k <= eta_scale (d_slm d) * Cmod (F i j)).
  { clear - HT RF RW Hp Hy Hx Hs Hq. induction n as [|n IH]; [exists (fun _ => 0); intros; lia|]. destruct IH as (e & He); [intros; apply HT; lia|].
    destruct (HT n ltac:(lia)) as [RT D]. destruct (reported (targets n) (T n) RT D) as (x & X1 & X2 & X3 & _). exists (fun k => if Nat.eqb k n then x else e k).
    intros k Hk. destruct (Nat.eqb_spec k n) as [->|Q]; [auto|apply He; lia]. }
  destruct SEL as (etas & HE).
  exists eta, etas, (fun k p q => (RtoC (/ 4) * image_of (s_Ny (d_slm d)) (s_Nx (d_slm d)) (first_order d (windowed d (T k) W)) p q)%C).
  split; [exact R|]. split; [exact P|]. split; [intros k Hk; destruct (HE k Hk) as (X1 & X2 & _); auto|]. split.
  - assert (Q := scale_pos). set (c := eta_scale (d_slm d)) in *. set (f := Cmod (F i0 j0)) in *.
    assert (S1 : Cmod (windowed d (superposed n a T) W i0 j0) <= c * f * rsum n (fun k => Cmod (a k) / etas k)).
    { rewrite windowed_superposed. eapply Rle_trans; [apply Cmod_csum|]. clear - HE I0. revert HE. induction n as [|n IH]; intros HE; cbn [rsum]; [lra|].
      rewrite Rmult_plus_distr_l. apply Rplus_le_compat; [apply IH; intros; apply HE; lia|]. destruct (HE n ltac:(lia)) as (_ & X2 & X3). specialize (X3 i0 j0 I0). fold f in X3.
      rewrite Cmod_mult. set (y := Cmod (windowed d (T n) W i0 j0)) in *. assert (Y : y <= c * f / etas n). { apply Rmult_le_reg_r with (etas n); [exact X2|]. unfold Rdiv. rewrite Rmult_assoc, Rinv_l, Rmult_1_r by lra. exact X3. }
      replace (c * f * (Cmod (a n) / etas n)) with (Cmod (a n) * (c * f / etas n)) by (unfold Rdiv; ring). apply Rmult_le_compat_l; [apply Cmod_ge_0|exact Y]. }
    set (s := rsum n _) in *. assert (CF : 0 < c * f) by (apply Rmult_lt_0_compat; assumption).
    apply Rmult_le_reg_l with (c * f); [exact CF|]. eapply Rle_trans; [|exact S1]. right. rewrite <- E0. field. lra.
  - intros m Px Py.
    assert (ONE : forall tg TT e, full_target h (d_slm d) tg TT -> displayable d F TT W -> reports h d input tg w kw u e ->
      displays_first h d input tg w kw u F (windowed d TT W) (fun p q => RtoC e * (RtoC (/ 4) * image_of (s_Ny (d_slm d)) (s_Nx (d_slm d)) (first_order d (windowed d TT W)) p q))%C m).
    { intros tg TT e RTT [D1 D2] Re. destruct (fourier_orders h d input tg w F TT W kw u m RF RTT RW Hp Hy Hx ltac:(lra) D1 D2 ltac:(lia) ltac:(lia)) as (M & d' & m' & HM & C1 & _ & C3 & _ & C5).
      assert (Ee := Re MIdeal (or_introl eq_refl)). rewrite C1 in Ee. cbn [snd] in Ee. injection Ee as Ee. exists d', m', e. rewrite C1, Ee. split; [reflexivity|]. split; [exact C3|]. specialize (C5 Px Py). cbv zeta in C5. rewrite Ee in C5.
      refine (field_is_ext _ _ _ _ _ _ C5). intros p q _ _. unfold Rdiv. rewrite (RtoC_mult e (/ 4)). ring. }
    split.
    + intros k Hk. destruct (HT k Hk) as [RTk Dk]. destruct (HE k Hk) as (X1 & _). exact (ONE (targets k) (T k) (etas k) RTk Dk X1).
    + destruct (ONE target (superposed n a T) eta RT DT R) as (d' & m' & e & C1 & C2 & C3). exists d', m', e. split; [exact C1|]. split; [exact C2|]. refine (field_is_ext _ _ _ _ _ _ C3). intros p q _ _.
      rewrite image_first_superposed. f_equal. f_equal. f_equal. rewrite <- csum_scal_l. apply csum_pointwise. intros. ring.
Qed.
(** Equality: beams that are all alike, in phase. *)
Lemma alike n a T targets target : (0 < n)%nat -> (forall k, (k < n)%nat -> 0 < a k /\ full_target h (d_slm d) (targets k) T) -> displayable d F T W ->
  full_target h (d_slm d) target (superposed n (fun k => RtoC (a k)) (fun _ => T)) ->
  exists eta etas, reports h d input target w kw u eta /\ 0 < eta /\ (forall k, (k < n)%nat -> reports h d input (targets k) w kw u (etas k) /\ 0 < etas k) /\ / eta = rsum n (fun k => Cmod (RtoC (a k)) / etas k).
Proof.
  intros Hn HT D RT.
  assert (SW : forall i j, windowed d (superposed n (fun k => RtoC (a k)) (fun _ => T)) W i j = (RtoC (rsum n a) * windowed d T W i j)%C).
  { intros i j. rewrite windowed_superposed, <- csum_mult_r. f_equal. clear. induction n as [|n IH]; cbn [csum rsum]; [reflexivity|]. rewrite IH, RtoC_plus. reflexivity. }
  assert (PA : 0 < rsum n a). { clear - Hn HT. induction n as [|[|n] IH]; [lia| |]. { cbn [rsum]. destruct (HT 0%nat ltac:(lia)). lra. } cbn [rsum] in *. destruct (HT (S n) ltac:(lia)). assert (0 < rsum n a + a n) by (apply IH; [lia|intros; apply HT; lia]). lra. }
  assert (NZ : exists i j, in_array d i j /\ windowed d (superposed n (fun k => RtoC (a k)) (fun _ => T)) W i j <> RtoC 0).
  { destruct D as [_ (i & j & Hij & Z)]. exists i, j. split; [exact Hij|]. rewrite SW. apply Cmult_neq_0; [|exact Z]. intros E. apply (f_equal fst) in E. cbn in E. lra. }
  destruct (superposition n (fun k => RtoC (a k)) (fun _ => T) targets target (fun k Hk => conj (proj2 (HT k Hk)) D) RT NZ) as (eta & etas & _ & R & P & HE & LE & _).
  exists eta, etas. split; [exact R|]. split; [exact P|]. split; [exact HE|]. apply Rle_antisym; [exact LE|].
  assert (DT : displayable d F (superposed n (fun k => RtoC (a k)) (fun _ => T)) W).
  { split; [|exact NZ]. intros i j Hij Z. destruct D as [D1 _]. rewrite SW, (D1 i j Hij Z). ring. }
  destruct (reported target _ RT DT) as (eta' & _ & R' & B' & _). assert (Q := R MIdeal (or_introl eq_refl)). rewrite (R' MIdeal (or_introl eq_refl)) in Q. injection Q as ->.
  destruct (HT 0%nat Hn) as [_ RT0]. destruct (reported (targets 0%nat) T RT0 D) as (e & Pe & Re & Be & (i0 & j0 & I0 & F0 & E0)).
  assert (SAME : forall k, (k < n)%nat -> etas k = e).
  { intros k Hk. destruct (HT k Hk) as [_ RTk]. destruct (reported (targets k) T RTk D) as (e' & Pe' & Re' & Be' & (i1 & j1 & I1 & F1 & E1)). destruct (HE k Hk) as [Rk _].
    assert (Q := Rk MIdeal (or_introl eq_refl)). rewrite (Re' MIdeal (or_introl eq_refl)) in Q. injection Q as ->.
    assert (X := Be' i0 j0 I0). assert (Y := Be i1 j1 I1). rewrite <- E0 in X. rewrite <- E1 in Y.
    assert (Q := scale_pos). assert (0 < Cmod (windowed d T W i0 j0)) by (destruct (Cmod_ge_0 (windowed d T W i0 j0)) as [G|G]; [exact G|rewrite <- G in E0; nra]).
    assert (0 < Cmod (windowed d T W i1 j1)) by (destruct (Cmod_ge_0 (windowed d T W i1 j1)) as [G|G]; [exact G|rewrite <- G in E1; nra]).
    apply Rmult_le_reg_l in X; [|assumption]. apply Rmult_le_reg_l in Y; [|assumption]. lra. }
  rewrite (rsum_ext n _ (fun k => a k * / e)). 2:{ intros k Hk. rewrite (SAME k Hk), Cmod_R, Rabs_pos_eq by (destruct (HT k Hk); lra). reflexivity. }
  rewrite rsum_scal_r. specialize (B' i0 j0 I0). rewrite SW, Cmod_mult, Cmod_R, Rabs_pos_eq, <- E0 in B' by lra.
  assert (Q := scale_pos). assert (PS : 0 < Cmod (windowed d T W i0 j0)) by (destruct (Cmod_ge_0 (windowed d T W i0 j0)) as [G|G]; [exact G|rewrite <- G in E0; nra]).
  set (x := Cmod (windowed d T W i0 j0)) in *. assert (Z : rsum n a * eta <= e) by (apply Rmult_le_reg_l with x; [exact PS|]; lra).
  apply Rmult_le_reg_r with (eta * e); [nra|]. replace (rsum n a * / e * (eta * e)) with (rsum n a * eta) by (field; lra). replace (/ eta * (eta * e)) with e by (field; lra). exact Z.
Qed.
End Device.
Definition beams4 (k : nat) : nat -> nat -> C := match k with O => T4 | _ => T4d end.
Definition weights4 (k : nat) : C := match k with O => RtoC 1 | _ => (0, 2) end.
Lemma multi_case : full_input ex_heap (d_slm ex4) in4 F4 /\ window_reads ex_heap (d_slm ex4) None (fun _ _ => RtoC 1) /\ d_p ex4 <> 0 /\ (0 < s_Ny (d_slm ex4))%nat /\ (0 < s_Nx (d_slm ex4))%nat /\
  0 < scaling_factor (d_slm ex4) /\ pixel_size (d_slm ex4) <> 0 /\
  (forall k, (k < 2)%nat -> full_target ex_heap (d_slm ex4) (AConstC (T2 2 4 (beams4 k))) (beams4 k) /\ displayable ex4 F4 (beams4 k) (fun _ _ => RtoC 1)) /\
  full_target ex_heap (d_slm ex4) (AConstC (T2 2 4 (superposed 2 weights4 beams4))) (superposed 2 weights4 beams4) /\
  (exists i j, in_array ex4 i j /\ windowed ex4 (superposed 2 weights4 beams4) (fun _ _ => RtoC 1) i j <> RtoC 0).
Proof.
  destruct ex4_reads as (A1 & A2 & A3 & A4 & A5 & A6 & A7 & A8). repeat apply conj; auto.
  - unfold scaling_factor. cbn. lra.
  - intros k Hk. destruct k as [|k]; [split; [exact A2|exact ex4_bright]|]. split; [exact (proj1 (proj2 ex4_dark))|].
    apply bright_ok; [reflexivity|intros i j _; apply F4_bright|]. exists 1%nat, 2%nat. split; [split; cbn; lia|]. unfold beams4, T4d. cbn. intros E. injection E. lra.
  - reflexivity.
  - refine (proj2 (bright_ok ex4 F4 _ _ _ _ _)); [reflexivity|intros i j _; apply F4_bright|]. exists 0%nat, 0%nat. split; [split; cbn; lia|].
    unfold superposed, weights4, beams4, T4, T4d. cbn. intros E. injection E. lra.
Qed.
