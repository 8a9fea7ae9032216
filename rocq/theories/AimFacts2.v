(** Runs of MRAF on a device (C128). *)
From Coq Require Import Reals Lra Psatz ZArith Arith List Bool Lia.
From Coquelicot Require Import Complex.
From Verif Require Import Cx Sums DFT PyBase ProfileModel SlmModel LibModel DmdModel SimModel SimSpec GridFacts SimFacts SimFacts2 SimExamples DmdSpec DmdFacts DmdFacts2 DmdFacts3 DmdExamples AmpFacts AmpFacts3 AmpFacts5 HoloSpec HoloFacts HoloFacts2 HoloThms HoloExamples MrafFacts StallSpec StallFacts AimSpec AimFacts.
Open Scope R_scope.

Section Device.
Variables (s : slm) (F : nat -> nat -> C) (A : nat -> nat -> R) (c m : R) (T W : nat -> nat -> R).
Let ny := s_Ny s.
Let nx := s_Nx s.
Let Tc := ifftshift2 ny nx T.
Let Wc := ifftshift2 ny nx W.
Definition scaled i j := m / (1 - m) * T i j.
Hypothesis HF : forall i j, in_slm s i j -> F i j = (RtoC (A i j) * cis c)%C /\ 0 <= A i j.
Hypothesis HT : forall i j, in_slm s i j -> 0 <= T i j.
Hypothesis HW : forall i j, in_slm s i j -> 0 <= W i j <= 1.
Hypothesis Hm : 0 <= m < 1.
Lemma back_windowed g : windowed_beam s F W scaled g (raw_wback ny nx F m Wc Tc g).
Proof.
  set (img := ifft2 ny nx (modulated F g)).
  assert (OO : forall u v, (offs ny nx u v * cconj (offs ny nx u v))%C = RtoC 1) by (intros; unfold offs; apply cis_conj_cis).
  exists (fun u v => (cis (carg (img (shift_idx ny u) (shift_idx nx v))) * cconj (offs ny nx u v))%C). split.
  - intros u v [Hu Hv]. cbv zeta. fold ny nx. split; [rewrite Cmod_mult, Cmod_cis, Cmod_cconj, Cmod_offs; ring|].
    assert (E := ifft2_image ny nx (modulated F g) u v Hu Hv). fold img in E.
    assert (EM : Cmod (image_of ny nx (modulated F g) u v) = Cmod (img (shift_idx ny u) (shift_idx nx v))) by (rewrite E, Cmod_mult, Cmod_offs; ring).
    rewrite EM, Cmult_assoc, <- polar, E, <- Cmult_assoc, OO. ring.
  - intros i j [Hi Hj]. unfold raw_wback. cbv zeta. apply fft2_spectrum; try assumption. intros u v Hu Hv. fold (modulated F g). fold img. unfold aim, Tc, Wc. rewrite !shifted_entry by assumption. fold ny nx.
    assert (E := ifft2_image ny nx (modulated F g) u v Hu Hv). fold img in E. fold (scaled u v).
    set (y := cis (carg (img (shift_idx ny u) (shift_idx nx v)))). clearbody y. rewrite E. assert (O1 := OO u v). set (o := offs ny nx u v) in *. set (z := image_of ny nx (modulated F g) u v).
    transitivity (z * o + RtoC (W u v) * (RtoC (scaled u v) * y * (o * cconj o) - z * o))%C; [rewrite O1; ring|ring].
Qed.
Let mstep g := mraf_step ny nx F Tc (ifftshift2 ny nx (fun i j => RtoC (W i j))) m g.
Lemma device_wgain g : window_error ny nx F W scaled (mstep g) + movement s A (raw_wback ny nx F m Wc Tc g) (fun i j => c + g i j) (mstep g) <= window_error ny nx F W scaled g.
Proof.
  rewrite <- !raw_window_error. destruct (Nat.eq_dec ny 0) as [Z|Hy].
  { unfold movement, raw_werror. fold ny. rewrite Z. cbn. unfold Rdiv. lra. }
  destruct (Nat.eq_dec nx 0) as [Z|Hx].
  { unfold movement, raw_werror. fold nx. rewrite Z, !rsum2_nx0. unfold Rdiv. lra. }
  unfold movement. fold ny nx. fold Wc. apply (step_gain ny nx F A c m Wc Tc g); try lia; try exact Hm.
  - intros i j Hi Hj. apply (HF i j (conj Hi Hj)).
  - intros i j Hi Hj. unfold Tc, ifftshift2. apply HT. split; apply ishift_idx_lt; fold ny nx; lia.
  - intros i j Hi Hj. unfold Wc, ifftshift2. apply HW. split; apply ishift_idx_lt; fold ny nx; lia.
Qed.
Lemma mstep_back g i j : raw_wback ny nx F m Wc Tc g i j = (RtoC (Cmod (raw_wback ny nx F m Wc Tc g i j)) * cis (mstep g i j))%C.
Proof. assert (E := step_back ny nx F m Wc Tc g Hm i j). unfold step in E. unfold mstep. change (ifftshift2 ny nx (fun i j => RtoC (W i j))) with (fun i j => RtoC (Wc i j)). rewrite E. apply polar. Qed.
Lemma wmovement_pos B g g' : 0 <= movement s A B g g'.
Proof.
  unfold movement. fold ny nx. destruct (Nat.eq_dec (ny * nx) 0) as [Z|NZ].
  { rewrite Z. cbn [INR]. unfold Rdiv. rewrite Rinv_0. lra. }
  apply Rmult_le_pos; [|left; apply Rinv_0_lt_compat, lt_0_INR; lia]. apply rsum2_ge_0. intros i j Hi Hj.
  apply Rmult_le_pos; [apply Rmult_le_pos; [apply (HF i j (conj Hi Hj))|apply Cmod_ge_0]|apply pow2_ge_0].
Qed.
End Device.
Lemma mraf_array_next ny nx F T W m u k : mraf_array ny nx F T W m u (Z.of_nat (S k)) = mraf_step ny nx F (ifftshift2 ny nx T) (ifftshift2 ny nx W) m (mraf_array ny nx F T W m u (Z.of_nat k)).
Proof. unfold mraf_array. rewrite !Nat2Z.id. reflexivity. Qed.
Section Run.
Variables (h : heap) (l : lcos) (input target w : parg) (F : nat -> nat -> C) (A T W u : nat -> nat -> R) (c m : R) (om : option R).
Let s := l_slm l.
Hypothesis RF : full_input h s input F.
Hypothesis RT : real_target h s target T.
Hypothesis RW : full_target h s w (fun i j => RtoC (W i j)).
Hypothesis HF : forall i j, in_slm s i j -> F i j = (RtoC (A i j) * cis c)%C /\ 0 <= A i j.
Hypothesis HT : forall i j, in_slm s i j -> 0 <= T i j.
Hypothesis HW : forall i j, in_slm s i j -> 0 <= W i j <= 1.
Hypothesis Rm : given om 0.4 m.
Hypothesis Hm : 0 <= m < 1.
Let run N := calculate_hologram h l input target MMraf (mraf_options (Z.of_nat N) w om) u.
Let err p := window_error (s_Ny s) (s_Nx s) F W (fun i j => m / (1 - m) * T i j) p.
Lemma mraf_progress : exists p B e, (forall N, stores s (run N) (p N)) /\ (forall k, windowed_beam s F W (fun i j => m / (1 - m) * T i j) (p k) (B k)) /\
  (forall k i j, in_slm s i j -> B k i j = (RtoC (Cmod (B k i j)) * cis (p (S k) i j))%C) /\
  (forall k, 0 <= movement s A (B k) (fun i j => c + p k i j) (p (S k)) <= err (p k) - err (p (S k))) /\
  (forall N, rsum N (fun k => movement s A (B k) (fun i j => c + p k i j) (p (S k))) <= err (p O) - err (p N)) /\
  Un_cv (fun k => movement s A (B k) (fun i j => c + p k i j) (p (S k))) 0 /\ Un_cv (fun k => err (p k)) e /\ (forall k, 0 <= e <= err (p k)).
Proof.
  set (p := fun N => mraf_array (s_Ny s) (s_Nx s) F T (fun i j => RtoC (W i j)) m u (Z.of_nat N)).
  set (B := fun k => raw_wback (s_Ny s) (s_Nx s) F m (ifftshift2 (s_Ny s) (s_Nx s) W) (ifftshift2 (s_Ny s) (s_Nx s) T) (p k)).
  assert (ST : forall N, stores s (run N) (p N)).
  { intros N. assert (X := mraf_stores h l input target F T RF RT (mraf_options (Z.of_nat N) w om) w (fun i j => RtoC (W i j)) u eq_refl RW). cbn [mraf_options lk_mix lk_N dflt] in X.
    unfold p, run. replace (dflt om 0.4) with m in X; [exact X|]. destruct Rm as [->|[-> ->]]; reflexivity. }
  assert (NEXT : forall k, p (S k) = mraf_step (s_Ny s) (s_Nx s) F (ifftshift2 (s_Ny s) (s_Nx s) T) (ifftshift2 (s_Ny s) (s_Nx s) (fun i j => RtoC (W i j))) m (p k)) by (intros k; apply mraf_array_next). clearbody p.
  assert (M : forall k, 0 <= movement s A (B k) (fun i j => c + p k i j) (p (S k)) <= err (p k) - err (p (S k))).
  { intros k. split; [exact (wmovement_pos s F A c HF (B k) (fun i j => c + p k i j) (p (S k)))|]. assert (G := device_wgain s F A c m T W HF HT HW Hm (p k)). rewrite NEXT. unfold B, err. unfold scaled in G. lra. }
  assert (SUM : forall N, rsum N (fun k => movement s A (B k) (fun i j => c + p k i j) (p (S k))) <= err (p O) - err (p N)).
  { induction N as [|N IH]; cbn [rsum]; [lra|]. specialize (M N). lra. }
  assert (P0 : forall k, 0 <= err (p k)). { intros k. unfold err, window_error. apply rsum2_ge_0. intros i j Hi Hj. apply Rmult_le_pos; [apply (HW i j (conj Hi Hj))|apply pow2_ge_0]. }
  assert (D : Un_decreasing (fun k => err (p k))) by (intros k; specialize (M k); lra).
  assert (LB : has_lb (fun k => err (p k))). { exists 0. intros x [N ->]. unfold opp_seq. specialize (P0 N). lra. }
  destruct (decreasing_cv _ D LB) as [e He]. exists p, B, e.
  split; [exact ST|]. split; [intros k; exact (back_windowed s F m T W (p k))|].
  split; [intros k i j _; rewrite NEXT; unfold B; exact (mstep_back s F m T W Hm (p k) i j)|]. split; [exact M|]. split; [exact SUM|]. split; [|split; [exact He|]].
  - intros eps Hp. destruct (He (eps / 2)) as [N0 HN]; [lra|]. exists N0. intros n Hn. assert (X := HN n Hn). assert (Y := HN (S n) ltac:(lia)). unfold R_dist in *.
    rewrite Rminus_0_r. destruct (M n) as [M1 M2]. rewrite Rabs_pos_eq by exact M1. apply Rabs_def2 in X. apply Rabs_def2 in Y. lra.
  - intros k. split; [|exact (decreasing_ineq _ e D He k)]. destruct (Rle_dec 0 e) as [L|L]; [exact L|]. exfalso. destruct (He (- e)) as [N HN]; [lra|]. specialize (HN N (Nat.le_refl N)). unfold R_dist in HN.
    apply Rabs_def2 in HN. specialize (P0 N). lra.
Qed.
End Run.
Lemma mraf_monotone h l input target w F A c T W u om m N N' : full_input h (l_slm l) input F -> real_target h (l_slm l) target T -> full_target h (l_slm l) w (fun i j => RtoC (W i j)) ->
  (forall i j, in_slm (l_slm l) i j -> F i j = (RtoC (A i j) * cis c)%C /\ 0 <= A i j) -> (forall i j, in_slm (l_slm l) i j -> 0 <= T i j) -> (forall i j, in_slm (l_slm l) i j -> 0 <= W i j <= 1) ->
  given om 0.4 m -> 0 <= m < 1 -> (N <= N')%Z ->
  exists p p', stores (l_slm l) (calculate_hologram h l input target MMraf (mraf_options N w om) u) p /\ stores (l_slm l) (calculate_hologram h l input target MMraf (mraf_options N' w om) u) p' /\
    window_error (s_Ny (l_slm l)) (s_Nx (l_slm l)) F W (fun i j => m / (1 - m) * T i j) p' <= window_error (s_Ny (l_slm l)) (s_Nx (l_slm l)) F W (fun i j => m / (1 - m) * T i j) p.
Proof.
  intros RF RT RW HF HT HW Rm Hm HN. destruct (mraf_progress h l input target w F A T W u c m om RF RT RW HF HT HW Rm Hm) as (p & B & e & ST & _ & _ & M & _).
  assert (NEG : forall K, calculate_hologram h l input target MMraf (mraf_options K w om) u = calculate_hologram h l input target MMraf (mraf_options (Z.of_nat (Z.to_nat K)) w om) u).
  { intros K. assert (X := mraf_stores h l input target F T RF RT (mraf_options K w om) w (fun i j => RtoC (W i j)) u eq_refl RW). assert (Y := mraf_stores h l input target F T RF RT (mraf_options (Z.of_nat (Z.to_nat K)) w om) w (fun i j => RtoC (W i j)) u eq_refl RW).
    cbn [mraf_options lk_mix lk_N dflt] in X, Y. unfold mraf_array in X, Y. rewrite Nat2Z.id in Y. destruct X as [X1 X2]. destruct Y as [Y1 Y2]. rewrite (surjective_pairing (calculate_hologram h l input target MMraf (mraf_options K w om) u)), X1, X2, <- Y2, <- Y1 at 1. apply (eq_sym (surjective_pairing _)). }
  exists (p (Z.to_nat N)), (p (Z.to_nat N')). rewrite (NEG N), (NEG N'). split; [apply ST|]. split; [apply ST|].
  assert (L : (Z.to_nat N <= Z.to_nat N')%nat) by lia. induction L as [|k L IH]; [lra|]. eapply Rle_trans; [|exact IH]. specialize (M k). lra.
Qed.
(** ** Cases *)
Definition in2 (u v : nat) : R := if Nat.eqb v 1 then 1 else 0.
Lemma in2_full : full_target ex_heap slm2 win2 (fun i j => RtoC (in2 i j)).
Proof. unfold full_target. replace (fun i j => RtoC (in2 i j)) with W2h; [reflexivity|]. unfold W2h, in2. apply FunctionalExtensionality.functional_extensionality. intros i. apply FunctionalExtensionality.functional_extensionality. intros j. destruct (Nat.eqb j 1); reflexivity. Qed.
Lemma aim_case : full_input ex_heap slm2 flat2 (fun i j => RtoC 1) /\ real_target ex_heap slm2 half2 T2h /\ full_target ex_heap slm2 win2 (fun i j => RtoC (in2 i j)) /\
  (forall i j, in_slm slm2 i j -> RtoC 1 = (RtoC 1 * cis 0)%C /\ 0 <= 1) /\ (forall i j, in_slm slm2 i j -> 0 <= T2h i j) /\ (forall i j, in_slm slm2 i j -> 0 <= in2 i j <= 1) /\
  given None 0.4 0.4 /\ 0 <= 0.4 < 1 /\ (forall i j, 0.4 / (1 - 0.4) * T2h i j = 2 / 3 * T2h i j) /\
  window_error 1 2 (fun _ _ => RtoC 1) in2 (fun i j => 0.4 / (1 - 0.4) * T2h i j) (fun i j => 2 * PI * quarter i j) = 1 / 18.
Proof.
  assert (Q : 0.4 / (1 - 0.4) = 2 / 3) by lra.
  split; [reflexivity|]. split; [reflexivity|]. split; [exact in2_full|]. split; [intros; rewrite cis_0; split; [ring|lra]|].
  split; [intros; unfold T2h; assert (P := sqrt_pos 2); lra|]. split; [intros; unfold in2; destruct (Nat.eqb j 1); lra|]. split; [right; split; reflexivity|]. split; [lra|]. split; [intros; rewrite Q; reflexivity|].
  unfold window_error, rsum2. cbn [rsum]. rewrite !perfect2 by (split; cbn; lia). unfold in2, T2h. cbn [Nat.eqb]. rewrite Q. assert (X := sqrt_sqrt 2 ltac:(lra)). nra.
Qed.
(** Against the target itself the error of the default mixing factor can grow from zero. *)
Lemma plain_error_grows : exists h l input target w F T V W u p p', full_input h (l_slm l) input F /\ real_target h (l_slm l) target T /\ full_target h (l_slm l) w V /\
  (forall i j, in_slm (l_slm l) i j -> V i j = RtoC (W i j) /\ 0 <= W i j <= 1) /\
  stores (l_slm l) (calculate_hologram h l input target MMraf (mraf_options 0 w None) u) p /\ stores (l_slm l) (calculate_hologram h l input target MMraf (mraf_options 1 w None) u) p' /\
  window_error (s_Ny (l_slm l)) (s_Nx (l_slm l)) F W T p = 0 /\ 0 < window_error (s_Ny (l_slm l)) (s_Nx (l_slm l)) F W T p'.
Proof.
  destruct mraf_spoils as (h & l & input & target & w & F & T & V & u & p' & RF & RT & RW & HV & HP & St & x & y & Hxy & V1 & L).
  exists h, l, input, target, w, F, T, V, (fun i j => fst (V i j)), u, (fun i j => 2 * PI * u i j), p'.
  assert (RV : forall i j, in_slm (l_slm l) i j -> V i j = RtoC (fst (V i j)) /\ 0 <= fst (V i j) <= 1).
  { intros i j Hij. destruct (HV i j Hij) as [-> | ->]; cbn [fst RtoC]; (split; [reflexivity|lra]). }
  split; [exact RF|]. split; [exact RT|]. split; [exact RW|]. split; [exact RV|].
  split; [exact (mraf_stores h l input target F T RF RT (mraf_options 0 w None) w V u eq_refl RW)|]. split; [exact St|]. unfold window_error. split.
  - rewrite (rsum2_ext _ _ _ (fun _ _ => 0)); [apply rsum2_0|]. intros i j Hi Hj. rewrite (HP i j (conj Hi Hj)). ring.
  - set (f := fun i j => _). assert (Pf : forall i j, (i < s_Ny (l_slm l))%nat -> (j < s_Nx (l_slm l))%nat -> 0 <= f i j).
    { intros i j Hi Hj. apply Rmult_le_pos; [apply (RV i j (conj Hi Hj))|apply pow2_ge_0]. }
    destruct (Rle_lt_or_eq_dec 0 _ (rsum2_ge_0 _ _ f Pf)) as [G|G]; [exact G|]. exfalso. destruct Hxy as [Hx Hy].
    assert (Z := rsum2_eq_0 _ _ f Pf (eq_sym G) x y Hx Hy). unfold f in Z. rewrite V1 in Z. cbn [fst RtoC] in Z. set (a := Cmod _) in *. clearbody a. assert (0 < (a - T x y) ^ 2) by nra. lra.
Qed.
