(** One iteration of Gerchberg-Saxton with rounding does not raise the error by much (C136). *)
From Coq Require Import Reals Lra Psatz ZArith Arith List Lia FunctionalExtensionality.
From Coquelicot Require Import Complex.
From Verif Require FlLcosFacts.
From Verif Require Import Cx Sums DFT PyBase ProfileModel SlmModel LibModel SimModel HoloSpec HoloFacts FloatModel FloatSpec FloatFacts FringeSpec FlSimModel FlSimSpec NormFacts FftFacts2 FlHoloModel FlHoloSpec FlHoloFacts FlGsModel FlGsFacts.
Open Scope R_scope.

(** The direction the library finds for a number, as an exact unit vector. *)
Definition unit_of (q : polar) (z : C) : C := if C_dec0 z then cis (f_angle q z) else (z / RtoC (Cmod z))%C.
Lemma unit_near q v o z : accurate_polar q v o -> 0 <= v -> Cmod (cis (f_angle q z) - unit_of q z)%C <= v.
Proof.
  intros Q Hv. unfold unit_of. destruct (C_dec0 z) as [E|N].
  - replace (cis (f_angle q z) - cis (f_angle q z))%C with (RtoC 0) by ring. rewrite Cmod_0. exact Hv.
  - apply (pol_dir _ _ _ Q). exact N.
Qed.
Lemma unit_Cmod q z : Cmod (unit_of q z) = 1.
Proof. unfold unit_of. destruct (C_dec0 z) as [E|N]; [apply Cmod_cis|]. exact (Cmod_dir z N). Qed.
Lemma unit_polar q z : z = (RtoC (Cmod z) * unit_of q z)%C.
Proof. unfold unit_of. destruct (C_dec0 z) as [->|N]; [rewrite Cmod_0; ring|]. field. intros E. injection E as E. apply N. apply Cmod_eq_0. exact E. Qed.
Lemma unit_dist q z t : 0 <= t -> Cmod (z - RtoC t * unit_of q z)%C = Rabs (Cmod z - t).
Proof. intros Ht. rewrite (unit_polar q z) at 1. replace (RtoC (Cmod z) * unit_of q z - RtoC t * unit_of q z)%C with (RtoC (Cmod z - t) * unit_of q z)%C by (rewrite RtoC_minus; ring). rewrite Cmod_mult, unit_Cmod, Cmod_R. ring. Qed.
(** Among the numbers of modulus A the one in the direction of z is nearest to any positive multiple of z. *)
Lemma unit_nearest q z A x k : 0 <= A -> Cmod x = A -> 0 < k -> Cmod (RtoC A * unit_of q z - z * RtoC k)%C <= Cmod (x - z * RtoC k)%C.
Proof.
  intros HA Hx Hk. rewrite (unit_polar q z) at 2. replace (RtoC A * unit_of q z - RtoC (Cmod z) * unit_of q z * RtoC k)%C with (RtoC (A - Cmod z * k) * unit_of q z)%C by (rewrite RtoC_minus, RtoC_mult; ring).
  rewrite Cmod_mult, unit_Cmod, Cmod_R, Rmult_1_r. assert (D := Cmod_diff x (z * RtoC k)%C). rewrite Hx, Cmod_mult, Cmod_R, (Rabs_pos_eq k) in D by lra. exact D.
Qed.
Section Back.
Context (a : fpu) (q : polar) (v o : R) (G : transform) (e' d' : R) (ny nx : nat).
Hypothesis Hy : (0 < ny)%nat.
Hypothesis Hx : (0 < nx)%nat.
Hypothesis Q : accurate_polar q v o.
Hypothesis Hv : 0 <= v.
Hypothesis HG : accurate_forward a e' d' ny nx (G ny nx).
Let rN := sqrt (INR (ny * nx)).
Let nrm := norm ny nx.

(** The second half of an iteration: the wanted image C0, computed as C' up to a factor k. *)
Lemma back_step (A : nat -> nat -> R) (U C0 C' : nat -> nat -> C) k : 0 < k -> 0 <= e' ->
  (forall i j, (i < ny)%nat -> (j < nx)%nat -> 0 <= A i j /\ Cmod (U i j) = A i j) -> (forall i j, (i < ny)%nat -> (j < nx)%nat -> representable (rnd a) (C' i j)) ->
  let back := G ny nx C' in let U2 := fun i j => (RtoC (A i j) * cis (f_angle q (back i j)))%C in
  nrm (fun i j => ifft2 ny nx U2 i j - C0 i j)%C <= nrm (fun i j => ifft2 ny nx U i j - C0 i j)%C + v * (nrm U / rN) + 2 / k * ((1 + e') * nrm (fun i j => C' i j - C0 i j * RtoC k)%C + e' * (k * nrm C0) + d' / rN).
Proof.
  intros Hk He' HU HC back U2.
  assert (RN : 0 < rN) by (unfold rN; apply sqrt_lt_R0, lt_0_INR; nia).
  assert (Ik : 0 < / k) by (apply Rinv_0_lt_compat, Hk).
  assert (NS : forall c f, 0 <= c -> c * nrm f = nrm (fun i j => f i j * RtoC c)%C) by (intros c f Hc; unfold nrm; rewrite norm_scal, Rabs_pos_eq by exact Hc; reflexivity).
  set (S0 := fft2 ny nx C0). set (S' := fft2 ny nx C').
  assert (P : forall f, rN * nrm (fun i j => ifft2 ny nx f i j - C0 i j)%C = nrm (fun i j => f i j - S0 i j)%C).
  { intros f. unfold rN, nrm. rewrite <- (ifft2_norm' ny nx (fun i j => f i j - S0 i j)%C Hy Hx). f_equal. apply norm_ext. intros i j Hi Hj. rewrite ifft2_minus. unfold S0. rewrite ifft2_fft2 by assumption. reflexivity. }
  set (D := nrm (fun i j => back i j * RtoC (/ k) - S0 i j)%C).
  assert (N1 : nrm (fun i j => U2 i j - back i j * RtoC (/ k))%C <= v * nrm U + nrm (fun i j => U i j - back i j * RtoC (/ k))%C).
  { rewrite NS by exact Hv. unfold nrm. apply norm_two. intros i j Hi Hj. destruct (HU i j Hi Hj) as (A0 & UA).
    replace (U2 i j - back i j * RtoC (/ k))%C with (RtoC (A i j) * (cis (f_angle q (back i j)) - unit_of q (back i j)) + (RtoC (A i j) * unit_of q (back i j) - back i j * RtoC (/ k)))%C by (unfold U2; ring).
    eapply Rle_trans; [apply Cmod_triangle|]. apply Rplus_le_compat.
    - rewrite !Cmod_mult, !Cmod_R, UA, (Rabs_pos_eq v), (Rabs_pos_eq (A i j)) by assumption. apply Rmult_le_compat_l; [exact A0|]. exact (unit_near q v o _ Q Hv).
    - apply unit_nearest; assumption. }
  assert (N2 : nrm (fun i j => U i j - back i j * RtoC (/ k))%C <= nrm (fun i j => U i j - S0 i j)%C + D) by (unfold D, nrm; rewrite (norm_sym ny nx (fun i j => back i j * RtoC (/ k))%C S0); apply (norm_diff ny nx U S0)).
  assert (N3 : nrm (fun i j => U2 i j - S0 i j)%C <= nrm (fun i j => U2 i j - back i j * RtoC (/ k))%C + D) by apply norm_diff.
  assert (N4 : D <= / k * (rN * (e' * nrm C') + d' + rN * nrm (fun i j => C' i j - C0 i j * RtoC k)%C)).
  { assert (Ek : D = / k * nrm (fun i j => back i j - S0 i j * RtoC k)%C).
    { rewrite NS by lra. unfold D, nrm. apply norm_ext. intros i j _ _. assert (K1 : (RtoC k * RtoC (/ k))%C = RtoC 1) by (rewrite <- RtoC_mult, Rinv_r by lra; reflexivity).
      replace ((back i j - S0 i j * RtoC k) * RtoC (/ k))%C with (back i j * RtoC (/ k) - S0 i j * (RtoC k * RtoC (/ k)))%C by ring. rewrite K1. ring. }
    rewrite Ek. apply Rmult_le_compat_l; [lra|]. assert (T := norm_diff ny nx back S' (fun i j => S0 i j * RtoC k)%C). fold nrm in T. eapply Rle_trans; [exact T|]. apply Rplus_le_compat.
    - assert (F := HG C' HC). fold back S' in F. assert (F2 : norm ny nx S' = rN * nrm C') by (unfold S'; apply fft2_norm; assumption). rewrite F2 in F. eapply Rle_trans; [exact F|]. right. ring.
    - right. unfold rN, nrm. rewrite <- (fft2_norm ny nx) by assumption. apply norm_ext. intros i j Hi Hj. rewrite fft2_minus. unfold S', S0. f_equal. rewrite Cmult_comm, <- fft2_scal. f_equal. apply functional_extensionality. intros x. apply functional_extensionality. intros y. apply Cmult_comm. }
  assert (N5 : nrm C' <= nrm (fun i j => C' i j - C0 i j * RtoC k)%C + k * nrm C0).
  { rewrite NS by lra. unfold nrm. apply norm_two. intros i j _ _. replace (C' i j) with ((C' i j - C0 i j * RtoC k) + C0 i j * RtoC k)%C at 1 by ring. apply Cmod_triangle. }
  apply Rmult_le_reg_l with (1 := RN). rewrite P. set (x := nrm (fun i j => U2 i j - S0 i j)%C) in *. set (x' := nrm (fun i j => U2 i j - back i j * RtoC (/ k))%C) in *. set (y := nrm (fun i j => U i j - back i j * RtoC (/ k))%C) in *.
  rewrite !Rmult_plus_distr_l, P. set (w := nrm (fun i j => U i j - S0 i j)%C) in *. set (r := nrm (fun i j => C' i j - C0 i j * RtoC k)%C) in *.
  replace (rN * (v * (nrm U / rN))) with (v * nrm U) by (field; lra). set (b := nrm U) in *. set (c := nrm C0) in *. set (c' := nrm C') in *. clearbody D x x' y w r b c c'.
  assert (N6 : rN * (e' * c') <= rN * (e' * (r + k * c))) by (apply Rmult_le_compat_l; [lra|]; apply Rmult_le_compat_l; lra).
  assert (N7 : D <= / k * (rN * (e' * (r + k * c)) + d' + rN * r)) by (eapply Rle_trans; [exact N4|]; apply Rmult_le_compat_l; lra).
  replace (rN * (2 / k * ((1 + e') * r)) + rN * (2 / k * (e' * (k * c))) + rN * (2 / k * (d' / rN))) with (2 * (/ k * (rN * (e' * (r + k * c)) + d' + rN * r))) by (field; lra). lra.
Qed.
End Back.
