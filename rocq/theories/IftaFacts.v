(** The iterative Fourier transform algorithm for DMDs (C39). *)
From Coq Require Import Reals Lra Psatz ZArith Arith List Bool Lia FunctionalExtensionality.
From Coquelicot Require Import Complex.
From Verif Require Import Cx Sums DFT PyBase ProfileModel SlmModel LibModel DmdModel SimModel SimSpec GridFacts SimFacts SimFacts2 DmdSpec DmdFacts DmdFacts2 DmdFacts3 AmpFacts AmpFacts3 HoloSpec HoloFacts.
Import ListNotations.
Open Scope R_scope.

(** ** Arrays without NaN *)
Lemma allb_true f n : (forall j, (j < n)%nat -> f j = true) -> allb f n = true.
Proof. induction n as [|n IH]; intros H; cbn [allb]; [reflexivity|]. rewrite IH, H by auto. reflexivity. Qed.
Lemma allb_false f n j : (j < n)%nat -> f j = false -> allb f n = false.
Proof.
  induction n as [|n IH]; intros Hj H; [lia|]. cbn [allb]. destruct (Nat.eq_dec j n) as [->|]; [rewrite H; apply andb_false_r|].
  rewrite IH by (auto; lia). reflexivity.
Qed.
Lemma allb2_false f ny nx i j : (i < ny)%nat -> (j < nx)%nat -> f i j = false -> allb2 f ny nx = false.
Proof.
  induction ny as [|n IH]; intros Hi Hj H; [lia|]. cbn [allb2]. destruct (Nat.eq_dec i n) as [->|]; [rewrite (allb_false _ _ j) by auto; apply andb_false_r|].
  rewrite IH by (auto; lia). reflexivity.
Qed.
Definition is_arr (ny nx : nat) (f : arr) (g : nat -> nat -> C) := forall i j, (i < ny)%nat -> (j < nx)%nat -> f i j = Some (g i j).
Lemma offt2_some ny nx f g i j : is_arr ny nx f g -> offt2 ny nx f i j = Some (fft2 ny nx g i j).
Proof.
  intros H. unfold offt2. rewrite allb2_true by (intros; rewrite H by assumption; reflexivity). f_equal. apply fft2_ext. intros a b Ha Hb.
  unfold oget. rewrite H by assumption. reflexivity.
Qed.
Lemma oifft2_some ny nx f g i j : is_arr ny nx f g -> oifft2 ny nx f i j = Some (ifft2 ny nx g i j).
Proof.
  intros H. unfold oifft2. rewrite allb2_true by (intros; rewrite H by assumption; reflexivity). f_equal. apply ifft2_ext. intros a b Ha Hb.
  unfold oget. rewrite H by assumption. reflexivity.
Qed.
Definition is_grat (ny nx : nat) (f : nat -> nat -> option R) (g : nat -> nat -> R) := forall i j, (i < ny)%nat -> (j < nx)%nat -> f i j = Some (g i j).
Definition clip (t r : R) : R := if Rlt_dec r t then 0 else if Rlt_dec (1 - t) r then 1 else r.
Lemma clip_clipped t r : clipped t r (clip t r).
Proof. unfold clipped, clip. destruct (Rlt_dec r t), (Rlt_dec (1 - t) r); repeat split; intros; lra. Qed.
Lemma binarize_clip r t : ifta_binarize (Some r) t = Some (clip t r).
Proof. unfold ifta_binarize, clip. destruct (Rlt_dec r t), (Rlt_dec (1 - t) r); reflexivity. Qed.

Section Arr.
Variables (ny nx : nat) (F V : nat -> nat -> C).
Definition corrected (q b : nat -> nat -> R) (i j : nat) : C :=
  let p := ifft2 ny nx (fun i j => (F i j * RtoC (b i j))%C) i j in
  ((ifft2 ny nx (fun i j => (F i j * RtoC (q i j))%C) i j - p) * ifftshift2 ny nx V i j + p)%C.
Definition rstep (q : nat -> nat -> R) (t : R) (g : nat -> nat -> R) (i j : nat) : R :=
  if C_dec0 (F i j) then 0 else fst (fft2 ny nx (corrected q (fun i j => clip t (g i j))) i j / F i j)%C.
Lemma step_some ideal q t g r : (forall i j, (i < ny)%nat -> (j < nx)%nat -> ideal i j = Some (ifft2 ny nx (fun i j => (F i j * RtoC (q i j))%C) i j)) -> is_grat ny nx g r ->
  is_grat ny nx (ifta_step ny nx F (ifftshift2 ny nx V) ideal t g) (rstep q t r).
Proof.
  intros HI HG i j Hi Hj. unfold ifta_step, rstep. destruct (C_dec0 (F i j)); [reflexivity|].
  rewrite (offt2_some ny nx _ (corrected q (fun i j => clip t (r i j)))); [reflexivity|].
  intros a b Ha Hb. rewrite HI by assumption.
  rewrite (oifft2_some ny nx _ (fun i j => (F i j * RtoC (clip t (r i j)))%C)).
  - reflexivity.
  - intros x y Hx Hy. rewrite HG, binarize_clip by assumption. reflexivity.
Qed.
Fixpoint rloop (q : nat -> nat -> R) (N : Z) (k : nat) : nat -> nat -> R :=
  match k with O => q | S j => rstep q ((INR j + 1) * (0.5 / IZR N)) (rloop q N j) end.
Lemma loop_some ideal q N g k : (forall i j, (i < ny)%nat -> (j < nx)%nat -> ideal i j = Some (ifft2 ny nx (fun i j => (F i j * RtoC (q i j))%C) i j)) ->
  is_grat ny nx g q -> is_grat ny nx (ifta_loop ny nx F (ifftshift2 ny nx V) ideal N k g) (rloop q N k).
Proof. intros HI HG. induction k as [|k IH]; cbn [ifta_loop rloop]; [exact HG|]. apply step_some; assumption. Qed.
Lemma array_some g0 q N s i j : (forall i j, (i < ny)%nat -> (j < nx)%nat -> g0 i j = Fin (q i j)) -> (i < ny)%nat -> (j < nx)%nat ->
  (ifta_array ny nx F V g0 N s i j = true <-> 1 / 2 < rloop (fun i j => q i j * s) N (Z.to_nat N) i j).
Proof.
  intros HG Hi Hj. unfold ifta_array.
  assert (G0 : is_grat ny nx (fun i j => fin_of (xscale (g0 i j) s)) (fun i j => q i j * s)).
  { intros a b Ha Hb. rewrite HG by assumption. reflexivity. }
  rewrite (loop_some _ (fun i j => q i j * s) N _ (Z.to_nat N)); [|intros a b Ha Hb; apply oifft2_some|exact G0|exact Hi|exact Hj].
  - replace 0.5 with (1 / 2) by lra. destruct (Rlt_dec (1 / 2) _); split; intros; [assumption|reflexivity|discriminate|contradiction].
  - intros x y Hx Hy. rewrite G0 by assumption. reflexivity.
Qed.
(** If the corrected image is the image of F times some real pattern c, that pattern comes back. *)
Lemma rstep_pattern q t g c : (forall i j, (i < ny)%nat -> (j < nx)%nat -> corrected q (fun i j => clip t (g i j)) i j = ifft2 ny nx (fun i j => (F i j * RtoC (c i j))%C) i j) ->
  forall i j, (i < ny)%nat -> (j < nx)%nat -> rstep q t g i j = if C_dec0 (F i j) then 0 else c i j.
Proof.
  intros H i j Hi Hj. unfold rstep. destruct (C_dec0 (F i j)) as [|E]; [reflexivity|].
  rewrite (fft2_ext ny nx _ _ i j H), fft2_ifft2 by assumption. 
  replace (F i j * RtoC (c i j) / F i j)%C with (RtoC (c i j)) by (field; exact E). reflexivity.
Qed.
Lemma window0 q t g : (forall i j, (i < ny)%nat -> (j < nx)%nat -> V i j = RtoC 0) ->
  forall i j, (i < ny)%nat -> (j < nx)%nat -> rstep q t g i j = if C_dec0 (F i j) then 0 else clip t (g i j).
Proof.
  intros HV. apply rstep_pattern with (c := fun i j => clip t (g i j)). intros i j Hi Hj. unfold corrected.
  replace (ifftshift2 ny nx V i j) with (RtoC 0) by (symmetry; apply HV; apply ishift_idx_lt; lia). ring.
Qed.
Lemma window1 q t g : (forall i j, (i < ny)%nat -> (j < nx)%nat -> V i j = RtoC 1) ->
  forall i j, (i < ny)%nat -> (j < nx)%nat -> rstep q t g i j = if C_dec0 (F i j) then 0 else q i j.
Proof.
  intros HV. apply rstep_pattern with (c := q). intros i j Hi Hj. unfold corrected.
  replace (ifftshift2 ny nx V i j) with (RtoC 1) by (symmetry; apply HV; apply ishift_idx_lt; lia). ring.
Qed.
Lemma thr_range N k : (1 <= N)%Z -> (k < Z.to_nat N)%nat -> 0 < (INR k + 1) * (0.5 / IZR N) <= 1 / 2.
Proof.
  intros HN Hk. assert (P := pos_INR k). assert (HZ : 1 <= IZR N) by (apply IZR_le in HN; exact HN).
  assert (HK : INR k + 1 <= IZR N) by (rewrite <- S_INR, INR_IZR_INZ; apply IZR_le; lia).
  replace 0.5 with (1 / 2) by lra. split.
  - apply Rmult_lt_0_compat; [lra|]. apply Rdiv_lt_0_compat; lra.
  - replace (1 / 2) with (IZR N * (1 / 2 / IZR N)) at 2 by (field; lra). apply Rmult_le_compat_r; [|exact HK].
    apply Rlt_le, Rdiv_lt_0_compat; lra.
Qed.
Lemma clip_half t r : 0 < t <= 1 / 2 -> (1 / 2 < clip t r <-> 1 / 2 < r).
Proof. intros Ht. unfold clip. destruct (Rlt_dec r t), (Rlt_dec (1 - t) r); split; intros; lra. Qed.
Lemma rloop_window q N k : (1 <= N)%Z -> (k <= Z.to_nat N)%nat ->
  (forall i j, (i < ny)%nat -> (j < nx)%nat -> V i j = RtoC 0) \/ (forall i j, (i < ny)%nat -> (j < nx)%nat -> V i j = RtoC 1) ->
  forall i j, (i < ny)%nat -> (j < nx)%nat -> F i j <> RtoC 0 -> (1 / 2 < rloop q N k i j <-> 1 / 2 < q i j).
Proof.
  intros HN Hk HV i j Hi Hj HF. induction k as [|k IH]; cbn [rloop]; [tauto|].
  destruct HV as [HV|HV].
  - rewrite window0 by assumption. destruct (C_dec0 (F i j)); [contradiction|]. rewrite clip_half by (apply thr_range; lia). apply IH. lia.
  - rewrite window1 by assumption. destruct (C_dec0 (F i j)); [contradiction|]. tauto.
Qed.
Lemma rloop_masked q N i j : (1 <= N)%Z -> F i j = RtoC 0 -> rloop q N (Z.to_nat N) i j = 0.
Proof.
  intros HN HF. replace (Z.to_nat N) with (S (Z.to_nat N - 1)) by lia. cbn [rloop]. unfold rstep. destruct (C_dec0 (F i j)); [reflexivity|contradiction].
Qed.
Lemma rloop_binary q N k : (1 <= N)%Z -> (k <= Z.to_nat N)%nat -> (forall i j, (i < ny)%nat -> (j < nx)%nat -> q i j = 0 \/ q i j = 1) ->
  forall i j, (i < ny)%nat -> (j < nx)%nat -> F i j <> RtoC 0 -> rloop q N k i j = q i j.
Proof.
  intros HN Hk HQ. induction k as [|k IH]; cbn [rloop]; [reflexivity|]. intros i j Hi Hj HF.
  assert (Ht := thr_range N k HN ltac:(lia)). set (t := (INR k + 1) * (0.5 / IZR N)) in *.
  rewrite (rstep_pattern q t _ q); [destruct (C_dec0 (F i j)); [contradiction|reflexivity]| |exact Hi|exact Hj].
  intros a b Ha Hb. unfold corrected. rewrite (ifft2_ext ny nx (fun i j => (F i j * RtoC (clip t (rloop q N k i j)))%C) (fun i j => (F i j * RtoC (q i j))%C)); [ring|].
  intros x y Hx Hy. destruct (C_dec0 (F x y)) as [E|E]; [rewrite E; ring|]. rewrite IH by (auto; lia). do 2 f_equal.
  unfold clip. destruct (HQ x y Hx Hy) as [-> | ->]; destruct (Rlt_dec _ _); try lra; destruct (Rlt_dec _ _); lra.
Qed.
(** The iteration in centred coordinates. *)
Lemma rstep_centred q t g i j : (i < ny)%nat -> (j < nx)%nat ->
  rstep q t g i j = if C_dec0 (F i j) then 0 else
    fst (spectrum_of ny nx (fun u v =>
      let I := image_of ny nx (fun i j => (F i j * RtoC (clip t (g i j)))%C) u v in
      let I0 := image_of ny nx (fun i j => (F i j * RtoC (q i j))%C) u v in
      (I + V u v * (I0 - I))%C) i j / F i j)%C.
Proof.
  intros Hi Hj. unfold rstep. destruct (C_dec0 (F i j)); [reflexivity|]. f_equal. f_equal. apply fft2_spectrum; [exact Hi|exact Hj|].
  intros u v Hu Hv. unfold corrected. rewrite !ifft2_image by assumption. unfold ifftshift2. rewrite !ishift_shift by assumption. cbv zeta. ring.
Qed.
(** ** Contamination by NaN *)
Lemma oifft2_none ny' nx' f i j a b : (i < ny')%nat -> (j < nx')%nat -> f i j = None -> oifft2 ny' nx' f a b = None.
Proof. intros Hi Hj H. unfold oifft2. rewrite (allb2_false _ ny' nx' i j); [reflexivity|exact Hi|exact Hj|]. rewrite H. reflexivity. Qed.
Lemma offt2_none ny' nx' f i j a b : (i < ny')%nat -> (j < nx')%nat -> f i j = None -> offt2 ny' nx' f a b = None.
Proof. intros Hi Hj H. unfold offt2. rewrite (allb2_false _ ny' nx' i j); [reflexivity|exact Hi|exact Hj|]. rewrite H. reflexivity. Qed.
Lemma array_none g0 N s i0 j0 : (1 <= N)%Z -> (i0 < ny)%nat -> (j0 < nx)%nat -> (forall r, g0 i0 j0 <> Fin r) ->
  forall i j, (i < ny)%nat -> (j < nx)%nat -> ifta_array ny nx F V g0 N s i j = false.
Proof.
  intros HN Hi0 Hj0 Hnan i j Hi Hj. unfold ifta_array. replace (Z.to_nat N) with (S (Z.to_nat N - 1)) by lia. cbn [ifta_loop]. unfold ifta_step at 1.
  destruct (C_dec0 (F i j)); [destruct (Rlt_dec 0.5 0); [lra|reflexivity]|].
  rewrite (offt2_none _ _ _ i0 j0); [reflexivity|exact Hi0|exact Hj0|].
  rewrite (oifft2_none _ _ (fun i1 j1 => omul (F i1 j1) (fin_of (xscale (g0 i1 j1) s))) i0 j0).
  - unfold ifta_correct. destruct (oifft2 _ _ _ _ _); reflexivity.
  - exact Hi0. 
  - exact Hj0.
  - destruct (g0 i0 j0) as [r| | |] eqn:E; try reflexivity; [destruct (Hnan r eq_refl)| |]; unfold xscale; destruct (Rlt_dec 0 s); try reflexivity; destruct (Rlt_dec s 0); reflexivity.
Qed.
End Arr.

(** ** The program *)
Lemma array_run ny nx F V g0 q N s : (forall i j, (i < ny)%nat -> (j < nx)%nat -> g0 i j = Fin (q i j)) ->
  ifta_run ny nx F V (fun i j => q i j * s) N (ifta_array ny nx F V g0 N s).
Proof.
  intros HG. exists (rloop ny nx F V (fun i j => q i j * s) N). split; [reflexivity|]. split.
  - intros k Hk. exists (fun i j => clip ((INR k + 1) * (0.5 / IZR N)) (rloop ny nx F V (fun i j => q i j * s) N k i j)). split.
    + intros i j _ _. replace (INR (k + 1) / (2 * IZR N)) with ((INR k + 1) * (0.5 / IZR N)); [apply clip_clipped|].
      rewrite plus_INR. cbn [INR]. replace 0.5 with (1 / 2) by lra. field. apply not_0_IZR. lia.
    + intros disp want fixd i j Hi Hj. cbn [rloop]. rewrite rstep_centred by assumption. destruct (C_dec0 (F i j)); split; intros; try contradiction; reflexivity.
  - intros i j Hi Hj. apply array_some; assumption.
Qed.
Section Prog.
Variables (h : heap) (d : dmd) (input target : parg) (w : option parg) (F T W V : nat -> nat -> C) (kw : kwargs) (wi : parg) (u : nat -> nat -> R).
Let s := d_slm d. Let ny := s_Ny (d_slm d). Let nx := s_Nx (d_slm d).
Hypothesis (HF : full_input h (d_slm d) input F) (HT : full_target h (d_slm d) target T) (HW : window_reads h (d_slm d) w W) (Hp : d_p d <> 0)
  (Hk : k_window kw = Some wi) (HV : full_target h (d_slm d) wi V).
Lemma calc_ifta : exists g r, calculate_dmd_state h d input target MIdeal w kw u = (with_state d (DFloat ny nx g), r) /\
  calculate_dmd_state h d input target MIfta w kw u = (with_state d (DBool ny nx (ifta_array ny nx F V g (dflt (k_N kw) 200%Z) (dflt (k_s kw) 1))), r).
Proof.
  assert (exists wt, match w with None => Ok None | Some a => let! t := profile_to_tensor_c h (d_slm d) a true in Ok (Some t) end = Ok wt /\
     match wt with None => forall i j, W i j = RtoC 1 | Some t => (tshape t = S0 \/ tshape t = S2 ny nx) /\ forall i j, (i < ny)%nat -> (j < nx)%nat -> tget t i j = W i j end)
   as (wt & Ew & HW').
  { unfold window_reads in HW. destruct w as [a|].
    - destruct HW as (t & E & Hs & Ht). rewrite E. cbn [rbind]. exists (Some t). split; [reflexivity|split; [exact Hs|exact Ht]].
    - exists None. split; [reflexivity|exact HW]. }
  destruct (amp_phase_full ny nx F T wt W HW') as (amp & pin & pout & M & E & _ & _).
  destruct (grating_full (fun a pi po x y _ _ => px_ideal (d_neg d) a pi po x y (d_p d) (d_theta d)) (T2 ny nx amp) (T2 ny nx pin) (T2 ny nx pout)
    (fst (fourier_plane_grid s)) (snd (fourier_plane_grid s)) ny nx _ _
    ltac:(right; reflexivity) ltac:(right; reflexivity) ltac:(right; reflexivity) ltac:(rewrite <- surjective_pairing; apply grid_mirrors)) as (g & G & _).
  exists g, (if Req_EM_T (scaling_factor s) 0 then Err ZeroDivisionError else py_div (norm_const d) M).
  assert (C : forall m, calc_new h d input target m w kw u =
    (let! g := calculate_dmd_grating m (d_neg d) (T2 ny nx amp) (T2 ny nx pin) (T2 ny nx pout) (fst (fourier_plane_grid s)) (snd (fourier_plane_grid s))
                (d_p d) (d_theta d) kw (match m with MIfta => Some (T2 ny nx F) | _ => raw_tensor (k_input kw) end) (match m with MIfta => Some (T2 ny nx V) | _ => raw_tensor (k_window kw) end) u in
     let! st := to_dstate g in Ok (st, M))).
  { intros m. unfold calc_new. unfold full_input in HF. unfold full_target in HT, HV. rewrite HF, HT. cbn [rbind]. rewrite Ew. cbn [rbind].
    fold ny nx. rewrite E. cbn [rbind]. fold s. destruct (fourier_plane_grid s) as [x y]. cbn [fst snd]. destruct m; try reflexivity.
    rewrite Hk. unfold s. rewrite HV. reflexivity. }
  split.
  - rewrite calc_split, C. unfold calculate_dmd_grating, grating_ideal, guard_p.
    destruct (Req_EM_T (d_p d) 0); [contradiction|]. rewrite G. cbn [rmap rbind to_dstate]. unfold norm_const, s.
    destruct (Req_EM_T (scaling_factor (d_slm d)) 0); reflexivity.
  - rewrite calc_split, C. unfold calculate_dmd_grating, grating_ifta, grating_ideal, guard_p.
    destruct (Req_EM_T (d_p d) 0); [contradiction|]. rewrite G. cbn [rmap rbind to_dstate stretch]. rewrite !Nat.eqb_refl. cbn [andb orb rmap rbind to_dstate]. unfold norm_const, s.
    destruct (Req_EM_T (scaling_factor (d_slm d)) 0); reflexivity.
Qed.

Lemma ifta_program : exists g r f, calculate_dmd_state h d input target MIdeal w kw u = (with_state d (DFloat ny nx g), r) /\
  calculate_dmd_state h d input target MIfta w kw u = (with_state d (DBool ny nx f), r) /\
  (forall q, (forall i j, in_array d i j -> g i j = Fin (q i j)) -> ifta_run ny nx F V (fun i j => q i j * dflt (k_s kw) 1) (dflt (k_N kw) 200%Z) f) /\
  ((exists i j, in_array d i j /\ forall r, g i j <> Fin r) -> (1 <= dflt (k_N kw) 200)%Z -> forall i j, in_array d i j -> f i j = false).
Proof.
  destruct calc_ifta as (g & r & E1 & E2). exists g, r. eexists. split; [exact E1|]. split; [exact E2|]. split.
  - intros q Hq. apply array_run. intros i j Hi Hj. apply Hq. split; assumption.
  - intros (i0 & j0 & [Hi0 Hj0] & Hn) HN i j [Hi Hj]. apply (array_none ny nx F V g _ _ i0 j0); assumption.
Qed.
End Prog.
Lemma run_facts ny nx F V q N f : ifta_run ny nx F V q N f -> 
  exists g, (forall i j, (i < ny)%nat -> (j < nx)%nat -> (f i j = true <-> 1 / 2 < g i j)) /\ 
   forall i j, (i < ny)%nat -> (j < nx)%nat -> g i j = rloop ny nx F V q N (Z.to_nat N) i j.
Proof.
  intros (G & H0 & HS & Hf). exists (G (Z.to_nat N)). split; [exact Hf|].
  assert (E : forall k, (k <= Z.to_nat N)%nat -> forall i j, (i < ny)%nat -> (j < nx)%nat -> G k i j = rloop ny nx F V q N k i j).
  { induction k as [|k IH]; intros Hk i j Hi Hj; [apply H0; assumption|]. cbn [rloop]. rewrite rstep_centred by assumption.
    destruct (HS k ltac:(lia)) as (B & HB & HG). cbv zeta in HG. destruct (HG i j Hi Hj) as [Ha Hb].
    destruct (C_dec0 (F i j)) as [E|E]; [apply Ha; exact E|]. rewrite Hb by exact E. f_equal. f_equal.
    assert (EB : forall i j, (i < ny)%nat -> (j < nx)%nat -> B i j = clip ((INR k + 1) * (0.5 / IZR N)) (rloop ny nx F V q N k i j)).
    { intros a b Ha' Hb'. specialize (HB a b Ha' Hb'). rewrite IH in HB by (auto; lia).
      replace (INR (k + 1) / (2 * IZR N)) with ((INR k + 1) * (0.5 / IZR N)) in HB.
      2:{ rewrite plus_INR. cbn [INR]. replace 0.5 with (1 / 2) by lra. field. apply not_0_IZR. lia. }
      destruct HB as (B1 & B2 & B3). unfold clip. destruct (Rlt_dec _ _); [auto|]. destruct (Rlt_dec _ _); [apply B2; lra|apply B3; lra]. }
    apply csum2_ext. intros u v Hu Hv. f_equal. cbv zeta. 
    assert (EI : image_of ny nx (fun i j => (F i j * RtoC (B i j))%C) u v
       = image_of ny nx (fun i j => (F i j * RtoC (clip ((INR k + 1) * (0.5 / IZR N)) (rloop ny nx F V q N k i j)))%C) u v).
    { unfold image_of. f_equal. apply csum2_ext. intros a b Ha' Hb'. rewrite EB by assumption. reflexivity. }
    rewrite EI. reflexivity. }
  apply E. lia.
Qed.
(** What follows from the run, for every window unless stated. *)
Lemma run_consequences ny nx F V q N f : ifta_run ny nx F V q N f ->
  ((N <= 0)%Z -> forall i j, (i < ny)%nat -> (j < nx)%nat -> (f i j = true <-> 1 / 2 < q i j)) /\
  ((1 <= N)%Z -> forall i j, (i < ny)%nat -> (j < nx)%nat -> F i j = RtoC 0 -> f i j = false) /\
  ((forall i j, (i < ny)%nat -> (j < nx)%nat -> V i j = RtoC 0) \/ (forall i j, (i < ny)%nat -> (j < nx)%nat -> V i j = RtoC 1) ->
     forall i j, (i < ny)%nat -> (j < nx)%nat -> F i j <> RtoC 0 -> (f i j = true <-> 1 / 2 < q i j)) /\
  ((forall i j, (i < ny)%nat -> (j < nx)%nat -> q i j = 0 \/ q i j = 1) ->
     forall i j, (i < ny)%nat -> (j < nx)%nat -> F i j <> RtoC 0 -> (f i j = true <-> q i j = 1)).
Proof.
  intros H. destruct (run_facts _ _ _ _ _ _ _ H) as (g & Hf & Hg).
  assert (Z0 : (N <= 0)%Z -> forall i j, (i < ny)%nat -> (j < nx)%nat -> (f i j = true <-> 1 / 2 < q i j)).
  { intros HN i j Hi Hj. rewrite Hf, Hg by assumption. replace (Z.to_nat N) with O by lia. cbn [rloop]. tauto. }
  split; [exact Z0|]. split; [|split].
  - intros HN i j Hi Hj E. destruct (f i j) eqn:Ef; [|reflexivity]. apply Hf in Ef; [|assumption|assumption]. rewrite Hg in Ef by assumption.
    rewrite rloop_masked in Ef by assumption. lra.
  - intros HV i j Hi Hj E. destruct (Z_le_gt_dec N 0); [apply Z0; assumption|]. rewrite Hf, Hg by assumption. apply rloop_window; auto; lia.
  - intros HQ i j Hi Hj E. destruct (Z_le_gt_dec N 0).
    + rewrite Z0 by assumption. destruct (HQ i j Hi Hj) as [-> | ->]; split; lra.
    + rewrite Hf, Hg by assumption. rewrite rloop_binary by (auto; lia). destruct (HQ i j Hi Hj) as [-> | ->]; split; lra.
Qed.
Lemma ifta_zero_is_simple h d input target w F T W V kw wi u : full_input h (d_slm d) input F -> full_target h (d_slm d) target T -> window_reads h (d_slm d) w W ->
  d_p d <> 0 -> k_window kw = Some wi -> full_target h (d_slm d) wi V -> (dflt (k_N kw) 200 <= 0)%Z -> dflt (k_s kw) 1 = 1 ->
  exists g r f f', calculate_dmd_state h d input target MIdeal w kw u = (with_state d (DFloat (s_Ny (d_slm d)) (s_Nx (d_slm d)) g), r) /\
    calculate_dmd_state h d input target MIfta w kw u = (with_state d (DBool (s_Ny (d_slm d)) (s_Nx (d_slm d)) f), r) /\
    calculate_dmd_state h d input target MSimple w kw u = (with_state d (DBool (s_Ny (d_slm d)) (s_Nx (d_slm d)) f'), r) /\
    ((forall i j, in_array d i j -> exists q, g i j = Fin q) -> forall i j, in_array d i j -> f i j = f' i j).
Proof.
  intros HF HT HW Hp Hk HV HN Hs. destruct (ifta_program h d input target w F T W V kw wi u HF HT HW Hp Hk HV) as (g & r & f & E1 & E2 & HR & _).
  destruct (calc_ideal h d input target w F T W kw u HF HT HW Hp) as (g' & E3 & G). destruct (calc_simple h d input target w F T W kw u HF HT HW Hp) as (f' & E4 & G').
  rewrite E1 in E3. injection E3 as E3 E5. subst g' r. exists g. eexists. exists f, f'. split; [exact E1|]. split; [exact E2|]. split; [exact E4|].
  intros Hfin i j Hij. assert (Hv : forall a b, in_array d a b -> g a b = Fin (xr_val (g a b))) by (intros a b Hab; destruct (Hfin a b Hab) as (q & ->); reflexivity).
  destruct (run_consequences _ _ _ _ _ _ _ (HR (fun a b => xr_val (g a b)) Hv)) as (H0 & _). rewrite Hs in H0.
  specialize (H0 HN i j (proj1 Hij) (proj2 Hij)). cbn beta in H0. rewrite Rmult_1_r in H0.
  rewrite (G' i j (proj1 Hij) (proj2 Hij)). rewrite <- (G i j (proj1 Hij) (proj2 Hij)). rewrite (Hv i j Hij). unfold xgtb.
  destruct (Rlt_dec (1 / 2) (xr_val (g i j))) as [L|L]; [apply H0; exact L|]. destruct (f i j); [destruct L; apply H0; reflexivity|reflexivity].
Qed.
Section Gr.
Variables (h : heap) (d : dmd) (amp pin pout : parg) (A Pi Po : nat -> nat -> R) (kw : kwargs) (F V : nat -> nat -> C) (u : nat -> nat -> R).
Hypothesis (HA : reads h (d_slm d) amp A) (HI : reads h (d_slm d) pin Pi) (HO : reads h (d_slm d) pout Po) (Hp : d_p d <> 0).
Let ny := s_Ny (d_slm d). Let nx := s_Nx (d_slm d).
Hypothesis (Hin : complex_array (k_input kw) (T2 ny nx F)) (Hwin : complex_array (k_window kw) (T2 ny nx V)).
Lemma ifta_grating : exists f, set_dmd_grating_state h d amp pin pout MIfta kw u = (with_state d (DBool ny nx f), Ok tt) /\
  ifta_run ny nx F V (fun i j => A i j * (cos (carrier d i j - signed (d_neg d) (Po i j - Pi i j)) / 2 + 1 / 2) * dflt (k_s kw) 1) (dflt (k_N kw) 200%Z) f.
Proof.
  destruct (grating_of_px h d amp pin pout A Pi Po HA HI HO (fun a pi po x y _ _ => px_ideal (d_neg d) a pi po x y (d_p d) (d_theta d))) as (ta & ti & to & g & E1 & E2 & E3 & G & Vg).
  eexists. split.
  - unfold set_dmd_grating_state, grating_of. rewrite E1, E2, E3. cbn [rbind].
    destruct (fourier_plane_grid (d_slm d)) as [x y]. cbn [fst snd] in G. unfold calculate_dmd_grating, grating_ifta, grating_ideal, guard_p.
    destruct (Req_EM_T (d_p d) 0); [contradiction|]. rewrite G.
    replace (raw_tensor (k_input kw)) with (Some (T2 ny nx F)) by (destruct Hin as [-> | ->]; reflexivity).
    replace (raw_tensor (k_window kw)) with (Some (T2 ny nx V)) by (destruct Hwin as [-> | ->]; reflexivity).
    cbn [rmap rbind stretch]. fold ny nx. rewrite !Nat.eqb_refl. cbn [andb orb rmap rbind to_dstate]. reflexivity.
  - apply array_run. intros i j Hi Hj. rewrite Vg by assumption. unfold px_ideal. cbn [xscale]. rewrite carrier_phase, rel_phase_signed by exact Hp.
    f_equal. f_equal. lra.
Qed.
End Gr.
