(** Global phases of the input and the target (C72). *)
From Coq Require Import Reals Lra ZArith Arith List Bool Lia.
From Coquelicot Require Import Complex.
From Verif Require Import Cx Sums DFT PyBase ProfileModel SlmModel LibModel DmdModel SimModel SimSpec DmdSpec DmdFacts DmdFacts2 DmdFacts3 RandomFacts AmpFacts AmpFacts2 AmpFacts3 AmpFacts4 AmpFacts5 DmdThms.
Open Scope R_scope.

Lemma cis_nz a : cis a <> RtoC 0.
Proof. intros E. assert (H := Cmod_cis a). rewrite E, Cmod_0 in H. lra. Qed.
Lemma Cmod_turn a z : Cmod (cis a * z)%C = Cmod z.
Proof. rewrite Cmod_mult, Cmod_cis. ring. Qed.
Lemma turn_zero a z : (cis a * z)%C = RtoC 0 <-> z = RtoC 0.
Proof.
  split; intros H; [|rewrite H; ring]. destruct (C_dec0 z) as [E|E]; [exact E|exfalso]. revert H. apply Cmult_neq_0; [apply cis_nz|exact E].
Qed.
Lemma cis_carg_turn a z : z <> RtoC 0 -> cis (carg (cis a * z)%C) = cis (a + carg z).
Proof.
  intros Hz. apply (polar_unique (Cmod z)); [apply Cmod_pos_neq; exact Hz|].
  rewrite (polar z) at 1. rewrite cis_plus. ring.
Qed.
Lemma cos_of_cis x t t' : cis t = cis t' -> cos (x - t) = cos (x - t').
Proof. intros H. assert (A := f_equal fst H). assert (B := f_equal snd H). cbn [cis fst snd] in A, B. rewrite !cos_minus, A, B. reflexivity. Qed.
Lemma cis_minus_eq a b a' b' : cis a = cis a' -> cis b = cis b' -> cis (a - b) = cis (a' - b').
Proof.
  intros H1 H2. assert (A := f_equal fst H1). assert (B := f_equal snd H1). assert (A' := f_equal fst H2). assert (B' := f_equal snd H2).
  cbn [cis fst snd] in A, B, A', B'. unfold cis. rewrite !cos_minus, !sin_minus, A, B, A', B'. reflexivity.
Qed.
Lemma cis_signed n t t' : cis t = cis t' -> cis (signed n t) = cis (signed n t').
Proof.
  intros H. assert (A := f_equal fst H). assert (B := f_equal snd H). cbn [cis fst snd] in A, B. unfold cis, signed.
  destruct n; rewrite ?cos_neg, ?sin_neg, A, B; reflexivity.
Qed.
Lemma folded_cos t t' q q' : folded t q -> folded t' q' -> cos t = cos t' -> q = q'.
Proof.
  intros H1 H2 E. rewrite (folded_unique t q _ H1 (folded_acos t)), (folded_unique t' q' _ H2 (folded_acos t')), E. reflexivity.
Qed.
Lemma windowed_turn d T W b i j : windowed d (fun u v => (cis b * T u v)%C) W i j = (cis b * windowed d T W i j)%C.
Proof. unfold windowed. rewrite spectrum_of_scal. ring. Qed.
(** Difference of target and input phase after turning both. *)
Lemma phase_turn a b (z f : C) : z <> RtoC 0 -> f <> RtoC 0 ->
  cis (phase_of (cis b * z)%C - carg (cis a * f)%C) = cis (phase_of z - carg f + (b - a)).
Proof.
  intros Hz Hf. replace (phase_of z - carg f + (b - a)) with ((b + phase_of z) - (a + carg f)) by ring.
  apply cis_minus_eq; [|apply cis_carg_turn; exact Hf].
  unfold phase_of. destruct (C_dec0 (cis b * z)%C) as [E|E]; [exfalso; apply Hz; apply turn_zero in E; exact E|].
  destruct (C_dec0 z) as [E'|_]; [contradiction|]. apply cis_carg_turn. exact Hz.
Qed.
Lemma max_unique r r' M M' : 0 < M -> 0 < M' -> r / M = 1 -> r' / M' = 1 -> r' / M <= 1 -> r / M' <= 1 -> M' = M.
Proof.
  intros H H' E E' L L'. assert (X : r = M) by (replace r with (r / M * M) by (field; lra); rewrite E; ring).
  assert (X' : r' = M') by (replace r' with (r' / M' * M') by (field; lra); rewrite E'; ring). subst r r'.
  assert (A : M' / M * M <= 1 * M) by (apply Rmult_le_compat_r; lra). assert (B : M / M' * M' <= 1 * M') by (apply Rmult_le_compat_r; lra).
  replace (M' / M * M) with M' in A by (field; lra). replace (M / M' * M') with M in B by (field; lra). lra.
Qed.
Lemma global_phase h d input input' target target' w F T W kw u a b :
  full_input h (d_slm d) input F -> full_target h (d_slm d) target T -> window_reads h (d_slm d) w W -> d_p d <> 0 ->
  (0 < s_Ny (d_slm d))%nat -> (0 < s_Nx (d_slm d))%nat -> scaling_factor (d_slm d) <> 0 ->
  (forall i j, in_array d i j -> F i j = RtoC 0 -> windowed d T W i j = RtoC 0) ->
  (exists i j, in_array d i j /\ windowed d T W i j <> RtoC 0) ->
  full_input h (d_slm d) input' (fun i j => (cis a * F i j)%C) -> full_target h (d_slm d) target' (fun i j => (cis b * T i j)%C) ->
  exists eta A phi, 
  (forall m, m = MIdeal \/ m = MSimple \/ m = MRandom ->
    snd (calculate_dmd_state h d input target m w kw u) = Ok (Fin eta) /\ snd (calculate_dmd_state h d input' target' m w kw u) = Ok (Fin eta) /\
    (cis a = cis b -> same_state (d_state (fst (calculate_dmd_state h d input' target' m w kw u))) (d_state (fst (calculate_dmd_state h d input target m w kw u))))) /\
  (forall i j, in_array d i j ->
    cell_at (d_state (fst (calculate_dmd_state h d input target MIdeal w kw u))) i j = CFloat (Fin (A i j * (cos (carrier d i j - phi i j) / 2 + 1 / 2))) /\
    cell_at (d_state (fst (calculate_dmd_state h d input' target' MIdeal w kw u))) i j = CFloat (Fin (A i j * (cos (carrier d i j - phi i j - signed (d_neg d) (b - a)) / 2 + 1 / 2)))).
Proof.
  intros HF HT HW Hp Hy Hx Hs Hd Hl HF' HT'. destruct Hl as (i0 & j0 & Hij0 & L0).
  destruct (hologram_spec h d input target w F T W kw u HF HT HW Hp Hy Hx Hs Hd (ex_intro _ i0 (ex_intro _ j0 (conj Hij0 L0)))) as (M & HM & P1 & (i1 & j1 & Q1 & R1) & (g1 & G1 & V1) & (g2 & G2 & V2) & (g3 & G3 & V3)).
  destruct (hologram_spec h d input' target' w (fun i j => (cis a * F i j)%C) (fun i j => (cis b * T i j)%C) W kw u HF' HT' HW Hp Hy Hx Hs) as (M' & HM' & P1' & (i1' & j1' & Q1' & R1') & (g1' & G1' & V1') & (g2' & G2' & V2') & (g3' & G3' & V3')).
  { intros i j Hij E. rewrite windowed_turn. apply turn_zero in E. rewrite (Hd i j Hij E). ring. }
  { exists i0, j0. split; [exact Hij0|]. rewrite windowed_turn. intros E. apply turn_zero in E. contradiction. }
  cbv zeta in *. set (S := windowed d T W) in *.
  assert (AE : forall i j, Cmod (windowed d (fun u v => (cis b * T u v)%C) W i j) / Cmod (cis a * F i j)%C = Cmod (S i j) / Cmod (F i j)).
  { intros i j. rewrite windowed_turn, !Cmod_turn. reflexivity. }
  assert (EM : M' = M).
  { assert (U := P1 i1' j1' Q1'). assert (U' := P1' i1 j1 Q1). rewrite AE in U', R1'.
    exact (max_unique _ _ M M' HM HM' R1 R1' (proj2 U) (proj2 U')). }
  subst M'.
  (* levels *)
  assert (CE : forall i j, in_array d i j -> S i j <> RtoC 0 ->
    cos (carrier d i j - signed (d_neg d) (phase_of (windowed d (fun u v => (cis b * T u v)%C) W i j) - carg (cis a * F i j)%C)) =
    cos (carrier d i j - signed (d_neg d) (phase_of (S i j) - carg (F i j)) - signed (d_neg d) (b - a))).
  { intros i j Hij Hz. assert (Hf : F i j <> RtoC 0) by (intros E; apply Hz; apply Hd; assumption).
    rewrite windowed_turn. rewrite (cos_of_cis _ _ (signed (d_neg d) (phase_of (S i j) - carg (F i j) + (b - a)))) by (apply cis_signed, phase_turn; assumption).
    f_equal. unfold signed. destruct (d_neg d); ring. }
  assert (DC : cis a = cis b -> forall x, cos (x - signed (d_neg d) (b - a)) = cos x).
  { intros E x. replace (cos x) with (cos (x - signed (d_neg d) 0)) by (f_equal; unfold signed; destruct (d_neg d); ring).
    apply cos_of_cis, cis_signed. rewrite (cis_minus_eq b a b b) by (congruence || reflexivity). f_equal. ring. }
  exists (eta_scale (d_slm d) / M), (fun i j => Cmod (S i j) / Cmod (F i j) / M), (fun i j => signed (d_neg d) (phase_of (S i j) - carg (F i j))).
  split.
  - intros m [->|[->| ->]].
    + rewrite G1, G1'. split; [reflexivity|]. split; [reflexivity|]. intros E. split; [reflexivity|]. split; [reflexivity|].
      intros i j Hi Hj. cbn [fst d_state with_state cell_at]. cbn [state_shape fst snd d_state with_state] in Hi, Hj. assert (Hij : in_array d i j) by (split; assumption). f_equal.
      rewrite V1, V1' by exact Hij. f_equal. rewrite AE. destruct (C_dec0 (S i j)) as [Z|Z]; [rewrite Z, Cmod_0; unfold Rdiv; ring|].
      rewrite CE by assumption. rewrite (DC E). reflexivity.
    + rewrite G2, G2'. split; [reflexivity|]. split; [reflexivity|]. intros E. split; [reflexivity|]. split; [reflexivity|].
      intros i j Hi Hj. cbn [fst d_state with_state cell_at]. cbn [state_shape fst snd d_state with_state] in Hi, Hj. assert (Hij : in_array d i j) by (split; assumption). f_equal.
      apply eq_true_iff_eq. rewrite V2, V2' by exact Hij. rewrite AE. destruct (C_dec0 (S i j)) as [Z|Z]; [rewrite Z, Cmod_0; unfold Rdiv; rewrite !Rmult_0_l; tauto|].
      rewrite CE by assumption. rewrite (DC E). tauto.
    + rewrite G3, G3'. split; [reflexivity|]. split; [reflexivity|]. intros E. split; [reflexivity|]. split; [reflexivity|].
      intros i j Hi Hj. cbn [fst d_state with_state cell_at]. cbn [state_shape fst snd d_state with_state] in Hi, Hj. assert (Hij : in_array d i j) by (split; assumption). f_equal.
      apply eq_true_iff_eq. destruct (V3 i j Hij) as (q & Fq & Vq). destruct (V3' i j Hij) as (q' & Fq' & Vq'). rewrite Vq, Vq', AE.
      destruct (C_dec0 (S i j)) as [Z|Z].
      * rewrite Z, Cmod_0. replace (0 / Cmod (F i j) / M) with 0 by (unfold Rdiv; ring). unfold duty. rewrite asin_0, !Rplus_0_r, !Rminus_0_r.
        replace (_ - _) with 0 by ring. replace (tanh (dflt (k_r kw) 10 * q) - tanh (dflt (k_r kw) 10 * q)) with 0 by ring. tauto.
      * rewrite (folded_cos _ _ q' q Fq' Fq); [tauto|]. rewrite CE by assumption. apply (DC E).
  - intros i j Hij. rewrite G1, G1'. cbn [fst d_state with_state cell_at]. rewrite V1, V1' by exact Hij. rewrite AE. split; [reflexivity|]. do 2 f_equal.
    destruct (C_dec0 (S i j)) as [Z|Z]; [rewrite Z, Cmod_0; unfold Rdiv; ring|]. rewrite CE by assumption. reflexivity.
Qed.
