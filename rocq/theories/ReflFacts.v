(** Reflections of phase-retrieval runs (C125). *)
From Coq Require Import Reals Lra Psatz ZArith Arith List Bool Lia.
From Coquelicot Require Import Complex.
From Verif Require Import Cx Sums DFT PyBase ProfileModel SlmModel LibModel DmdModel SimModel SimSpec GridFacts SimFacts SimFacts2 DmdSpec DmdFacts DmdFacts2 AmpFacts5 HoloSpec HoloFacts HoloFacts2 HoloThms IftaSym ReflSpec.
Open Scope R_scope.

(** ** Indices *)
Lemma opposite_lt n k : (0 < n)%nat -> (opposite n k < n)%nat.
Proof. intros H. apply Nat.mod_upper_bound. lia. Qed.
Lemma opposite_Z n k : (k < n)%nat -> exists z : Z, Z.of_nat (opposite n k) = (- Z.of_nat k + z * Z.of_nat n)%Z.
Proof.
  intros H. unfold opposite. assert (E := Nat.div_mod (n - k) n ltac:(lia)). exists (1 - Z.of_nat ((n - k) / n))%Z. nia.
Qed.
Lemma opposite_opposite n k : (k < n)%nat -> opposite n (opposite n k) = k.
Proof.
  intros H. unfold opposite. destruct k as [|k].
  - rewrite Nat.sub_0_r, Nat.mod_same, Nat.sub_0_r, Nat.mod_same by lia. reflexivity.
  - rewrite (Nat.mod_small (n - S k)) by lia. replace (n - (n - S k))%nat with (S k) by lia. apply Nat.mod_small. exact H.
Qed.
Lemma ishift_opposite n k : (k < n)%nat -> ishift_idx n (opposite n k) = reflect n (ishift_idx n k).
Proof.
  intros H. unfold ishift_idx, reflect. assert (E1 : (n / 2 <= n)%nat) by apply half_le. set (h := (n / 2)%nat) in *. clearbody h.
  assert (A : ((opposite n k + h) mod n = (n - k + h) mod n)%nat) by (unfold opposite; apply Nat.add_mod_idemp_l; lia). rewrite A.
  assert (Q := Nat.div_mod (k + h) n ltac:(lia)). assert (L := Nat.mod_upper_bound (k + h) n ltac:(lia)). set (m := ((k + h) mod n)%nat) in *. set (d := ((k + h) / n)%nat) in *. clearbody m d.
  replace (2 * h + n - m)%nat with (n - k + h + d * n)%nat by nia. rewrite Nat.mod_add by lia. reflexivity.
Qed.
Lemma csum_opposite n f : csum n (fun k => f (opposite n k)) = csum n f.
Proof.
  destruct n as [|n]; [reflexivity|]. set (N := S n). rewrite <- (csum_rot N 1 f) by (unfold N; lia).
  rewrite <- (csum_rev N (fun i => f ((i + 1) mod N)%nat)). apply csum_ext. intros k Hk. f_equal. unfold opposite. f_equal. lia.
Qed.
Definition opp_if (b : bool) (n k : nat) : nat := if b then opposite n k else k.
Lemma opp_if_lt b n k : (k < n)%nat -> (opp_if b n k < n)%nat.
Proof. intros H. destruct b; [apply opposite_lt; lia|exact H]. Qed.
Lemma opp_if_twice b n k : (k < n)%nat -> opp_if b n (opp_if b n k) = k.
Proof. intros H. destruct b; [apply opposite_opposite; exact H|reflexivity]. Qed.
Lemma csum2_opp a b ny nx f : csum2 ny nx (fun i j => f (opp_if b ny i) (opp_if a nx j)) = csum2 ny nx f.
Proof.
  unfold csum2. transitivity (csum ny (fun i => csum nx (fun j => f (opp_if b ny i) j))).
  - apply csum_ext. intros i _. destruct a; cbn [opp_if]; [exact (csum_opposite nx (fun j => f (opp_if b ny i) j))|reflexivity].
  - destruct b; cbn [opp_if]; [exact (csum_opposite ny (fun i => csum nx (fun j => f i j)))|reflexivity].
Qed.
(** ** Kernels *)
Lemma ker1 b n k l : (k < n)%nat -> (l < n)%nat -> exists z, INR (opp_if b n k * opp_if b n l) / INR n = INR (k * l) / INR n + IZR z.
Proof.
  intros Hk Hl. destruct b; cbn [opp_if]; [|exists 0%Z; ring]. destruct (opposite_Z n k Hk) as [x X]. destruct (opposite_Z n l Hl) as [y Y].
  exists (x * y * Z.of_nat n - Z.of_nat k * y - Z.of_nat l * x)%Z. rewrite !mult_INR, !INR_IZR_INZ, X, Y.
  rewrite ?minus_IZR, ?plus_IZR, ?mult_IZR, ?opp_IZR, ?mult_IZR. assert (IZR (Z.of_nat n) <> 0) by (apply IZR_neq; lia). field. assumption.
Qed.
Lemma ker_opp a b ny nx i j u v : (i < ny)%nat -> (j < nx)%nat -> (u < ny)%nat -> (v < nx)%nat ->
  cis (2 * PI * (INR (opp_if b ny i * opp_if b ny u) / INR ny + INR (opp_if a nx j * opp_if a nx v) / INR nx)) = cis (2 * PI * (INR (i * u) / INR ny + INR (j * v) / INR nx)).
Proof.
  intros Hi Hj Hu Hv. destruct (ker1 b ny i u Hi Hu) as [x X]. destruct (ker1 a nx j v Hj Hv) as [y Y]. apply cis_int_shift. exists (x + y)%Z. rewrite X, Y, plus_IZR. ring.
Qed.
Lemma ker_conj ny nx i j u v : (i < ny)%nat -> (j < nx)%nat -> (u < ny)%nat -> (v < nx)%nat ->
  cis (2 * PI * (INR (i * opposite ny u) / INR ny + INR (j * opposite nx v) / INR nx)) = cconj (cis (2 * PI * (INR (i * u) / INR ny + INR (j * v) / INR nx))).
Proof.
  intros Hi Hj Hu Hv. rewrite <- cis_neg. destruct (opposite_Z ny u Hu) as [x X]. destruct (opposite_Z nx v Hv) as [y Y].
  apply cis_int_shift. exists (Z.of_nat i * x + Z.of_nat j * y)%Z. rewrite !mult_INR, !INR_IZR_INZ, X, Y, !plus_IZR, !mult_IZR, !opp_IZR.
  assert (IZR (Z.of_nat ny) <> 0) by (apply IZR_neq; lia). assert (IZR (Z.of_nat nx) <> 0) by (apply IZR_neq; lia). field. split; assumption.
Qed.
Lemma ifft2_flip a b ny nx E u v : (u < ny)%nat -> (v < nx)%nat ->
  ifft2 ny nx (fun i j => E (opp_if b ny i) (opp_if a nx j)) u v = ifft2 ny nx E (opp_if b ny u) (opp_if a nx v).
Proof.
  intros Hu Hv. unfold ifft2. f_equal. rewrite <- (csum2_opp a b ny nx (fun i j => (E i j * cis (2 * PI * (INR (i * opp_if b ny u) / INR ny + INR (j * opp_if a nx v) / INR nx)))%C)).
  apply csum2_ext. intros i j Hi Hj. rewrite ker_opp by assumption. reflexivity.
Qed.
Lemma fft2_flip a b ny nx E u v : (u < ny)%nat -> (v < nx)%nat ->
  fft2 ny nx (fun i j => E (opp_if b ny i) (opp_if a nx j)) u v = fft2 ny nx E (opp_if b ny u) (opp_if a nx v).
Proof.
  intros Hu Hv. unfold fft2. rewrite <- (csum2_opp a b ny nx (fun i j => (E i j * cis (- (2 * PI * (INR (opp_if b ny u * i) / INR ny + INR (opp_if a nx v * j) / INR nx))))%C)).
  apply csum2_ext. intros i j Hi Hj. rewrite !cis_neg, ker_opp by assumption. reflexivity.
Qed.
Lemma ifft2_of_conj ny nx E u v : (u < ny)%nat -> (v < nx)%nat -> ifft2 ny nx (fun i j => cconj (E i j)) u v = cconj (ifft2 ny nx E (opposite ny u) (opposite nx v)).
Proof.
  intros Hu Hv. unfold ifft2. rewrite cconj_div_R by (apply INR_neq_0; nia). f_equal. rewrite csum2_conj. apply csum2_ext. intros i j Hi Hj.
  rewrite ker_conj by assumption. rewrite cconj_mult, cconj_conj. reflexivity.
Qed.
Lemma fft2_of_conj ny nx X i j : (i < ny)%nat -> (j < nx)%nat -> fft2 ny nx (fun u v => cconj (X (opposite ny u) (opposite nx v))) i j = cconj (fft2 ny nx X i j).
Proof.
  intros Hi Hj. unfold fft2. rewrite csum2_conj. rewrite <- (csum2_opp true true ny nx). apply csum2_ext. intros u v Hu Hv. cbn [opp_if].
  rewrite !opposite_opposite by assumption. rewrite !cconj_mult. f_equal. rewrite !cis_neg. rewrite (ker_conj ny nx i j u v) by assumption. rewrite !cconj_conj. reflexivity.
Qed.
Lemma cis_carg_conj z : cis (carg (cconj z)) = cconj (cis (carg z)).
Proof.
  destruct (C_dec0 z) as [->|N].
  - replace (cconj (RtoC 0)) with (RtoC 0) by (rewrite cconj_RtoC; reflexivity). rewrite carg_pos_real by lra. rewrite <- cis_neg. f_equal. lra.
  - assert (N' : cconj z <> RtoC 0) by (intros E; apply N; rewrite <- (cconj_conj z), E; apply cconj_RtoC).
    assert (M : Cmod (cconj z) = Cmod z) by (unfold Cmod, cconj; cbn [fst snd]; f_equal; ring).
    rewrite !cis_carg by assumption. rewrite M, cconj_div_R; [reflexivity|]. intros E. apply N. apply Cmod_eq_0. exact E.
Qed.
