(** Rounding errors of analysis.py: the remainder and the decomposition. *)
From Coq Require Import Reals ZArith List Permutation Bool Lia Lra Psatz.
From Verif Require Import Cx Sums PyBase ProfileModel ZernSpec AnaSpec AnaFacts AnaThms AnsiFacts AnalysisModel FloatModel FloatSpec FloatFacts FlSimSpec FlAnaModel FlAnaSpec FlAnaFacts FlAnaFacts2.
Import ListNotations.
Open Scope R_scope.

Section Close.
Variables (u eta v theta : R) (B B' : Z) (q : numerics).
Hypothesis A : arithmetic u eta B (np q).
Hypothesis A' : arithmetic v theta B' (sc q).
Hypothesis Hu : 0 <= u.
Hypothesis He : 0 <= eta.
Hypothesis Hv : 0 <= v.
Hypothesis Ht : 0 <= theta.
Variables (h : heap) (ny nx : nat) (radius : R) (t : summation) (zv : Z -> Z -> nat -> nat -> R) (G : nat -> nat -> Prop).
Hypothesis HR : 0 < radius.
Hypothesis NE : inside ny nx radius <> [].
Hypothesis P : Permutation (pixels t) (inside ny nx radius).
Hypothesis HG : forall i j, In (i, j) (inside ny nx radius) -> G i j.

Section Remove.
Variables (dl e F0 : R).
Hypothesis H0 : 0 <= e.
Hypothesis HF0 : 0 < F0.
Hypothesis Hd : 0 <= dl <= 1 / 1000.
Hypothesis Hed : e <= dl.
Hypothesis Hud : u <= dl.
Hypothesis Hvd : v <= dl.
Hypothesis Hg : (1 + u) ^ (depth t + 2) - 1 <= dl.
Hypothesis Het : eta <= dl * F0.
Hypothesis Htt : theta <= dl * F0.

Definition GG (i j : nat) : Prop := (i < ny)%nat /\ (j < nx)%nat /\ G i j.
Lemma one n m r f fq F E : zvalid n m -> In (n, m) [(0, 0); (1, -1); (1, 1); (2, 0)]%Z -> evaluates G ny nx radius false e n m (zv n m) -> F0 <= F -> 0 <= E <= F / 10 ->
  (forall i j, GG i j -> Rabs (f i j) <= F /\ Rabs (fq i j - f i j) <= E) ->
  exists f', remove_terms h ny nx radius ((n, m) :: r) (Some f) = remove_terms h ny nx radius r (Some f') /\
    forall i j, GG i j -> Rabs (f' i j) <= 5 * F /\ Rabs (fl_sub_mode q fq (fl_coefficient q t fq (zv n m)) (zv n m) i j - f' i j) <= 5.1 * E + 34 * dl * F.
Proof.
  intros V I Ev HF HE H. destruct (zernike_sampled h ny nx radius n m false V HR) as (z & Ez & SM).
  exists (fun i j => f i j - average (inside ny nx radius) (fun i j => f i j * z i j) * z i j). split.
  - apply (remove_step _ _ _ _ _ _ _ _ _ _ Ez). unfold coefficient. rewrite mean_sel_some by exact NE. reflexivity.
  - intros i j Gij. assert (K : dl * F0 <= dl * F) by (apply Rmult_le_compat_l; lra).
    apply (remove_one u eta v theta B B' q A A' Hu He Hv Ht t (inside ny nx radius) GG f fq z (zv n m) F E e dl); try assumption; try lra.
    + intros i0 j0 L. pose proof (HG i0 j0 L). apply in_inside in L. unfold GG. tauto.
    + intros i0 j0 L. destruct (H i0 j0 L). destruct L as (L1 & L2 & L3). split; [assumption|]. split; [assumption|]. split; [exact (trivial_bound _ _ _ _ _ _ HR I SM i0 j0 L1 L2)|]. apply Ev; assumption.
Qed.
Lemma remove_close f (d : bool) g : (forall i j, GG i j -> Rabs (f i j) <= F0) ->
  (forall n m, In (n, m) ([(0, 0); (1, -1); (1, 1)] ++ if d then [(2, 0)] else [])%Z -> evaluates G ny nx radius false e n m (zv n m)) ->
  remove_trivial_phase h ny nx f radius d = Ok (Some g) ->
  forall i j, GG i j -> Rabs (fl_remove_trivial_phase q t zv f d i j - g i j) <= (if d then 17600 else 2700) * dl * F0.
Proof.
  intros HF Ev E i j Gij. unfold remove_trivial_phase in E. unfold fl_remove_trivial_phase. assert (dF : 0 <= dl * F0) by (apply Rmult_le_pos; lra). assert (dF' : dl * F0 <= 1 / 1000 * F0) by (apply Rmult_le_compat_r; lra).
  assert (V00 : zvalid 0 0) by (split; [lia|reflexivity]). assert (V1m : zvalid 1 (-1)) by (split; [lia|reflexivity]). assert (V11 : zvalid 1 1) by (split; [lia|reflexivity]). assert (V20 : zvalid 2 0) by (split; [lia|reflexivity]).
  cbn [app] in *. cbn [fl_remove].
  assert (W0 : forall i j, GG i j -> Rabs (f i j) <= F0 /\ Rabs (f i j - f i j) <= 0). { intros i0 j0 K. split; [apply HF, K|]. replace (f i0 j0 - f i0 j0) with 0 by ring. rewrite Rabs_R0. lra. }
  edestruct (one 0 0 ((1, -1) :: (1, 1) :: if d then [(2, 0)] else [])%Z f f F0 0 V00) as (f1 & E1 & W1); [cbn; tauto|apply Ev; cbn; tauto|lra|lra|exact W0|]. rewrite E1 in E. clear E1.
  set (q1 := fl_sub_mode q f (fl_coefficient q t f (zv 0 0)%Z) (zv 0 0)%Z) in *.
  edestruct (one 1 (-1) ((1, 1) :: if d then [(2, 0)] else [])%Z f1 q1 (5 * F0) (34 * dl * F0) V1m) as (f2 & E2 & W2); [cbn; tauto|apply Ev; cbn; tauto|lra|lra|intros i0 j0 K; destruct (W1 i0 j0 K); split; lra|]. rewrite E2 in E. clear E2.
  set (q2 := fl_sub_mode q q1 (fl_coefficient q t q1 (zv 1 (-1))%Z) (zv 1 (-1))%Z) in *.
  edestruct (one 1 1 (if d then [(2, 0)] else [])%Z f2 q2 (25 * F0) (343.4 * dl * F0) V11) as (f3 & E3 & W3); [cbn; tauto|apply Ev; cbn; tauto|lra|lra|intros i0 j0 K; destruct (W2 i0 j0 K); split; lra|]. rewrite E3 in E. clear E3.
  set (q3 := fl_sub_mode q q2 (fl_coefficient q t q2 (zv 1 1)%Z) (zv 1 1)%Z) in *.
  destruct d; cbn [fl_remove].
  - edestruct (one 2 0 ([])%Z f3 q3 (125 * F0) (2601.34 * dl * F0) V20) as (f4 & E4 & W4); [cbn; tauto|apply Ev; cbn; tauto|lra|lra|intros i0 j0 K; destruct (W3 i0 j0 K); split; lra|]. rewrite E4 in E. cbn [remove_terms] in E. injection E as <-.
    destruct (W4 i j Gij). lra.
  - cbn [remove_terms] in E. injection E as <-. destruct (W3 i j Gij). lra.
Qed.
End Remove.

Section Decompose.
Variables (w xi : R) (B'' : Z).
Hypothesis A'' : arithmetic w xi B'' (flt q).
Hypothesis Hw : 0 <= w.
Hypothesis Hxi : 0 <= xi.
Variables (x : bool) (e Zm F : R) (f : nat -> nat -> R).
Hypothesis H0 : 0 <= e.
Hypothesis HZ : 0 <= Zm.
Hypothesis HF : forall i j, GG i j -> Rabs (f i j) <= F.

Lemma loop_close : forall T a cs acc csf accf k0, (9 + 8 * (Z.of_nat a + Z.of_nat T - 1) <= 2 ^ 53)%Z ->
  (forall k n m, (a <= k < a + T)%nat -> zvalid n m -> (2 * Z.of_nat k = n * (n + 2) + m)%Z -> evaluates G ny nx radius x e n m (zv n m) /\ mode_bound G ny nx radius x Zm n m) ->
  let ec := coefficient_error u eta (depth t) F Zm e in let te := term_error v theta (F * Zm) ec Zm e in
  (forall i j, GG i j -> Rabs (acc i j) <= INR k0 * (F * Zm * Zm) /\ Rabs (accf i j - acc i j) <= reconstruction_error w xi te (F * Zm * Zm) k0) ->
  exists ds dsf g gf, decompose_loop h ny nx radius x f (seq a T) (map Some cs, Some acc) = Ok (map Some (cs ++ ds), Some g) /\
    fl_decompose_loop q t zv f (seq a T) (csf, accf) = Ok (csf ++ dsf, gf) /\ Forall2 (fun c c' => Rabs (c' - c) <= ec) ds dsf /\ length ds = T /\
    (forall i j, GG i j -> Rabs (gf i j - g i j) <= reconstruction_error w xi te (F * Zm * Zm) (k0 + T)).
Proof.
  intros T. induction T as [|T IH]; intros a cs acc csf accf k0 Hb Ev ec te W.
  - exists [], [], acc, accf. cbn [seq decompose_loop fl_decompose_loop]. rewrite !app_nil_r, Nat.add_0_r. split; [reflexivity|]. split; [reflexivity|]. split; [constructor|]. split; [reflexivity|]. intros i j K. apply W, K.
  - destruct (ansi_total (Z.of_nat a)) as (n & m & Ea & V & J); [lia|lia|]. destruct (zernike_sampled h ny nx radius n m x V HR) as (z & Ez & SM).
    destruct (Ev a n m ltac:(lia) V J) as [Ev1 Ev2]. cbn [seq decompose_loop fl_decompose_loop]. unfold decompose_step. rewrite Ea. cbn [rbind]. rewrite Ez. cbn [rbind fst snd coefficient]. rewrite mean_sel_some by exact NE. cbn [add_mode].
    set (c := average (inside ny nx radius) (fun i j => f i j * z i j)). set (cf := fl_coefficient q t f (zv n m)).
    assert (LG : forall i j, In (i, j) (inside ny nx radius) -> GG i j). { intros i j L. pose proof (HG i j L). apply in_inside in L. unfold GG. tauto. }
    assert (Q : forall i j, GG i j -> Rabs (f i j) <= F /\ Rabs (f i j - f i j) <= 0 /\ Rabs (z i j) <= Zm /\ Rabs (zv n m i j - z i j) <= e).
    { intros i j K. split; [apply HF, K|]. destruct K as (k1 & k2 & k3). split; [replace (f i j - f i j) with 0 by ring; rewrite Rabs_R0; lra|]. split; [apply Ev2; assumption|apply Ev1; assumption]. }
    assert (C : Rabs (cf - c) <= ec).
    { pose proof (coefficient_close u eta B q A Hu He t (inside ny nx radius) f f z (zv n m) F 0 Zm e P H0 (fun i j L => Q i j (LG i j L))) as C. rewrite Rplus_0_r, Rmult_0_l, Rplus_0_l in C. exact C. }
    assert (Bc : Rabs c <= F * Zm). { apply average_bound; [exact NE|]. intros i j L. destruct (Q i j (LG i j L)) as (q1 & _ & q3 & _). apply mult_le; assumption. }
    destruct (IH (S a) (cs ++ [c]) (fun i j => acc i j + c * z i j) (csf ++ [cf]) (fl_add_mode q accf cf (zv n m)) (S k0)) as (ds & dsf & g & gf & E1 & E2 & E3 & E4 & E5).
    + lia.
    + intros k n' m' Hk. apply Ev. lia.
    + intros i j K. destruct (W i j K) as [W1 W2]. destruct (Q i j K) as (q1 & _ & q3 & q4). assert (Bz : Rabs (c * z i j) <= F * Zm * Zm) by (apply mult_le; assumption).
      assert (W3 : Rabs (acc i j + c * z i j) <= INR (S k0) * (F * Zm * Zm)). { rewrite S_INR. eapply Rle_trans; [apply Rabs_triang|]. lra. }
      split; [exact W3|]. unfold fl_add_mode. pose proof (term_close v theta B' q A' Hv c cf z (zv n m) (F * Zm) ec Zm e i j H0 Bc C q3 q4) as Tc. fold te in Tc.
      assert (D : Rabs (accf i j + fl_term q cf (zv n m) i j - (acc i j + c * z i j)) <= reconstruction_error w xi te (F * Zm * Zm) k0 + te).
      { replace (accf i j + fl_term q cf (zv n m) i j - (acc i j + c * z i j)) with ((accf i j - acc i j) + (fl_term q cf (zv n m) i j - c * z i j)) by ring. eapply Rle_trans; [apply Rabs_triang|]. fold ec te in W2. lra. }
      eapply Rle_trans; [apply (rnd_err w xi B'' (flt q) A'' Hw _ _ _ D)|]. fold ec te. cbn [reconstruction_error].
      assert (w * (Rabs (acc i j + c * z i j) + (reconstruction_error w xi te (F * Zm * Zm) k0 + te)) <= w * (INR (S k0) * (F * Zm * Zm) + (reconstruction_error w xi te (F * Zm * Zm) k0 + te))) by (apply Rmult_le_compat_l; lra). lra.
    + exists (c :: ds), (cf :: dsf), g, gf. split; [|split; [|split; [|split]]].
      * rewrite map_app in E1. cbn [map] in E1. etransitivity; [exact E1|]. rewrite <- app_assoc. reflexivity.
      * etransitivity; [exact E2|]. rewrite <- app_assoc. reflexivity.
      * constructor; assumption.
      * cbn [length]. congruence.
      * intros i j K. replace (k0 + S T)%nat with (S k0 + T)%nat by lia. apply E5, K.
Qed.
Lemma decompose_close (T : nat) : (9 + 8 * (Z.of_nat T - 1) <= 2 ^ 53)%Z ->
  (forall k n m, (k < T)%nat -> zvalid n m -> (2 * Z.of_nat k = n * (n + 2) + m)%Z -> evaluates G ny nx radius x e n m (zv n m) /\ mode_bound G ny nx radius x Zm n m) ->
  let ec := coefficient_error u eta (depth t) F Zm e in let te := term_error v theta (F * Zm) ec Zm e in
  exists cs g csf gf, zernike_decomposition h ny nx f radius (Z.of_nat T) x = Ok (map Some cs, Some g) /\ fl_zernike_decomposition q t zv f (Z.of_nat T) = Ok (csf, gf) /\ length cs = T /\
    Forall2 (fun c c' => Rabs (c' - c) <= ec) cs csf /\ (forall i j, GG i j -> Rabs (gf i j - g i j) <= reconstruction_error w xi te (F * Zm * Zm) T).
Proof.
  intros Hb Ev ec te. unfold zernike_decomposition, fl_zernike_decomposition. rewrite Nat2Z.id.
  destruct (loop_close T 0 [] (fun _ _ => 0) [] (fun _ _ => 0) 0) as (ds & dsf & g & gf & E1 & E2 & E3 & E4 & E5).
  - lia.
  - intros k n m Hk. apply Ev. lia.
  - intros i j _. rewrite Rminus_0_r, Rabs_R0. cbn. split; lra.
  - exists ds, g, dsf, gf. cbn [app map] in *. do 4 (split; [assumption|]). exact E5.
Qed.
End Decompose.
End Close.
