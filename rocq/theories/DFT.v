(** The discrete Fourier transforms and index shifts the code calls in numpy / TensorFlow, as their
    defining finite sums.  A 2-D array of [ny] rows and [nx] columns is an index function. *)
From Coq Require Import Reals Lra Lia ZArith Arith.
From Coquelicot Require Import Complex.
From Verif Require Import Cx Sums.
Open Scope R_scope.

(** numpy.fft.fft2 / tf.signal.fft2d: unnormalised, kernel exp(-2 pi i (u*i/ny + v*j/nx)).
    Called at pySLM2/_lib.py:8 (numpy backend) and _lib.py:28 (TensorFlow backend). *)
Definition fft2 (ny nx : nat) (f : nat -> nat -> C) (u v : nat) : C :=
  csum2 ny nx (fun i j => (f i j * cis (- (2 * PI * (INR (u * i) / INR ny + INR (v * j) / INR nx))))%C).

(** numpy.fft.ifft2 / tf.signal.ifft2d: kernel exp(+2 pi i ...), divided by ny*nx.
    Called at pySLM2/_lib.py:15 and _lib.py:38. *)
Definition ifft2 (ny nx : nat) (f : nat -> nat -> C) (i j : nat) : C :=
  (csum2 ny nx (fun u v => (f u v * cis (2 * PI * (INR (u * i) / INR ny + INR (v * j) / INR nx)))%C)
   / RtoC (INR (ny * nx)))%C.

(** fftshift rolls each axis by +(n//2): out[i] = in[(i - n//2) mod n] (tf.signal.fftshift). *)
Definition shift_idx (n i : nat) : nat := ((i + (n - n / 2)) mod n)%nat.
(** ifftshift rolls each axis by -(n//2): out[i] = in[(i + n//2) mod n] (tf.signal.ifftshift). *)
Definition ishift_idx (n i : nat) : nat := ((i + n / 2) mod n)%nat.
Definition fftshift2 {A} (ny nx : nat) (f : nat -> nat -> A) (i j : nat) : A := f (shift_idx ny i) (shift_idx nx j).
Definition ifftshift2 {A} (ny nx : nat) (f : nat -> nat -> A) (i j : nat) : A := f (ishift_idx ny i) (ishift_idx nx j).

(* ------------------------------------------------------------------------------------------ *)
(** * Facts *)

Lemma half_le n : (n / 2 <= n)%nat.
Proof. apply Nat.div_le_upper_bound; lia. Qed.
Lemma shift_idx_lt n i : (0 < n)%nat -> (shift_idx n i < n)%nat.
Proof. intros. apply Nat.mod_upper_bound. lia. Qed.
Lemma ishift_idx_lt n i : (0 < n)%nat -> (ishift_idx n i < n)%nat.
Proof. intros. apply Nat.mod_upper_bound. lia. Qed.
Lemma shift_ishift n i : (i < n)%nat -> shift_idx n (ishift_idx n i) = i.
Proof.
  intros Hi. unfold shift_idx, ishift_idx. assert (H2 := half_le n). rewrite Nat.add_mod_idemp_l by lia.
  replace (i + n / 2 + (n - n / 2))%nat with (i + 1 * n)%nat by lia.
  rewrite Nat.mod_add by lia. apply Nat.mod_small, Hi.
Qed.
Lemma ishift_shift n i : (i < n)%nat -> ishift_idx n (shift_idx n i) = i.
Proof.
  intros Hi. unfold shift_idx, ishift_idx. assert (H2 := half_le n). rewrite Nat.add_mod_idemp_l by lia.
  replace (i + (n - n / 2) + n / 2)%nat with (i + 1 * n)%nat by lia.
  rewrite Nat.mod_add by lia. apply Nat.mod_small, Hi.
Qed.

(** Sums of roots of unity. *)
Lemma cis_pow_geo (t : R) n :
  ((cis t - 1) * csum n (fun k => cis (t * INR k)) = cis (t * INR n) - 1)%C.
Proof.
  induction n as [|n IH].
  - cbn [csum]. replace (t * INR 0) with 0 by (simpl; ring). rewrite cis_0. ring.
  - cbn [csum]. rewrite Cmult_plus_distr_l, IH.
    rewrite S_INR. replace (t * (INR n + 1)) with (t + t * INR n) by ring.
    rewrite cis_plus. ring.
Qed.

Lemma root_sum_0 N (z : Z) : (0 < N)%nat -> (z mod Z.of_nat N <> 0)%Z ->
  csum N (fun n => cis (2 * PI * (IZR z * INR n / INR N))) = RtoC 0.
Proof.
  intros HN Hz. assert (HNR : INR N <> 0) by (apply not_0_INR; lia).
  set (t := 2 * PI * (IZR z / INR N)).
  rewrite (csum_ext N _ (fun k => cis (t * INR k))).
  2:{ intros i _. f_equal. unfold t. field. exact HNR. }
  assert (Hg := cis_pow_geo t N).
  replace (t * INR N) with (2 * PI * IZR z) in Hg by (unfold t; field; exact HNR).
  rewrite cis_2PI_Z in Hg.
  assert (Ht : (cis t - 1)%C <> RtoC 0).
  { intros H0. assert (H1 : cis t = 1%C).
    { replace (cis t) with ((cis t - 1) + 1)%C by ring. rewrite H0. ring. }
    destruct (cis_eq_1_Z _ H1) as [k Hk]. unfold t in Hk.
    assert (HP := PI_RGT_0).
    assert (IZR z = IZR k * INR N).
    { assert (IZR z / INR N = IZR k) by nra. rewrite <- H. field. exact HNR. }
    rewrite INR_IZR_INZ, <- mult_IZR in H. apply eq_IZR in H. apply Hz. rewrite H. apply Z.mod_mul. lia. }
  replace (csum N (fun k : nat => cis (t * INR k)))
    with (((cis t - 1) * csum N (fun k : nat => cis (t * INR k))) / (cis t - 1))%C by (field; exact Ht).
  rewrite Hg. field. exact Ht.
Qed.

Lemma root_sum_N N (z : Z) : (0 < N)%nat -> (z mod Z.of_nat N = 0)%Z ->
  csum N (fun n => cis (2 * PI * (IZR z * INR n / INR N))) = RtoC (INR N).
Proof.
  intros HN Hz. assert (HNR : INR N <> 0) by (apply not_0_INR; lia).
  rewrite (csum_ext N _ (fun _ => RtoC 1)).
  - rewrite csum_const. ring.
  - intros i _. apply Z.mod_divide in Hz; [|lia]. destruct Hz as [k ->].
    replace (2 * PI * (IZR (k * Z.of_nat N) * INR i / INR N)) with (2 * PI * IZR (k * Z.of_nat i)).
    + apply cis_2PI_Z.
    + rewrite !mult_IZR, <- !INR_IZR_INZ. field. exact HNR.
Qed.

(** Orthogonality of the kernel in one dimension. *)
Lemma kernel_orth N a b : (a < N)%nat -> (b < N)%nat ->
  csum N (fun n => (cis (2 * PI * (INR (n * a) / INR N)) * cis (- (2 * PI * (INR (n * b) / INR N))))%C)
  = if Nat.eq_dec a b then RtoC (INR N) else RtoC 0.
Proof.
  intros Ha Hb. assert (HNR : INR N <> 0) by (apply not_0_INR; lia).
  rewrite (csum_ext N _ (fun n => cis (2 * PI * (IZR (Z.of_nat a - Z.of_nat b) * INR n / INR N)))).
  2:{ intros n _. rewrite <- cis_plus. f_equal.
      rewrite minus_IZR, <- !INR_IZR_INZ, !mult_INR. field. exact HNR. }
  destruct (Nat.eq_dec a b) as [->|Hne].
  - apply root_sum_N; [lia|]. rewrite Z.sub_diag. apply Z.mod_0_l. lia.
  - apply root_sum_0; [lia|]. intros H. apply Z.mod_divide in H; [|lia]. destruct H as [k Hk].
    assert (k = 0)%Z by nia. nia.
Qed.

Lemma INR_neq_0 n : (0 < n)%nat -> INR n <> 0.
Proof. intros; apply not_0_INR; lia. Qed.
Lemma RtoC_neq_0 r : r <> 0 -> RtoC r <> RtoC 0.
Proof. intros H H0. injection H0; auto. Qed.

Lemma ker2_split (u i ny v j nx : nat) :
  cis (2 * PI * (INR (u * i) / INR ny + INR (v * j) / INR nx))
  = (cis (2 * PI * (INR (u * i) / INR ny)) * cis (2 * PI * (INR (v * j) / INR nx)))%C.
Proof. rewrite <- cis_plus. f_equal. ring. Qed.
Lemma ker2_split_neg (u i ny v j nx : nat) :
  cis (- (2 * PI * (INR (u * i) / INR ny + INR (v * j) / INR nx)))
  = (cis (- (2 * PI * (INR (u * i) / INR ny))) * cis (- (2 * PI * (INR (v * j) / INR nx))))%C.
Proof. rewrite <- cis_plus. f_equal. ring. Qed.

(** Orthogonality in two dimensions. *)
Lemma kernel2_orth ny nx i j k l : (i < ny)%nat -> (j < nx)%nat -> (k < ny)%nat -> (l < nx)%nat ->
  csum2 ny nx (fun u v => (cis (2 * PI * (INR (u * i) / INR ny + INR (v * j) / INR nx))
                         * cis (- (2 * PI * (INR (u * k) / INR ny + INR (v * l) / INR nx))))%C)
  = if Nat.eq_dec i k then (if Nat.eq_dec j l then RtoC (INR (ny * nx)) else RtoC 0) else RtoC 0.
Proof.
  intros Hi Hj Hk Hl.
  rewrite (csum2_ext ny nx _ (fun u v =>
     ((cis (2 * PI * (INR (u * i) / INR ny)) * cis (- (2 * PI * (INR (u * k) / INR ny))))
    * (cis (2 * PI * (INR (v * j) / INR nx)) * cis (- (2 * PI * (INR (v * l) / INR nx)))))%C)).
  2:{ intros u v _ _. rewrite ker2_split, ker2_split_neg. ring. }
  unfold csum2.
  rewrite (csum_ext ny _ (fun u => ((cis (2 * PI * (INR (u * i) / INR ny)) * cis (- (2 * PI * (INR (u * k) / INR ny))))
     * csum nx (fun v => cis (2 * PI * (INR (v * j) / INR nx)) * cis (- (2 * PI * (INR (v * l) / INR nx)))))%C)).
  2:{ intros u _. apply csum_scal_l. }
  rewrite csum_scal_r, !kernel_orth by assumption.
  destruct (Nat.eq_dec i k), (Nat.eq_dec j l); try ring.
  rewrite mult_INR, RtoC_mult. ring.
Qed.

(** Inversion theorems. *)
Lemma ifft2_fft2 ny nx f i j : (i < ny)%nat -> (j < nx)%nat -> ifft2 ny nx (fft2 ny nx f) i j = f i j.
Proof.
  intros Hi Hj. unfold ifft2, fft2.
  assert (HN : RtoC (INR (ny * nx)) <> RtoC 0) by (apply RtoC_neq_0, INR_neq_0; nia).
  rewrite (csum2_ext ny nx _ (fun u v => csum2 ny nx (fun k l =>
     (f k l * (cis (2 * PI * (INR (u * i) / INR ny + INR (v * j) / INR nx))
             * cis (- (2 * PI * (INR (u * k) / INR ny + INR (v * l) / INR nx)))))%C))).
  2:{ intros u v _ _. rewrite <- csum2_scal_r. apply csum2_ext; intros. ring. }
  assert (Hsw : csum2 ny nx (fun u v => csum2 ny nx (fun k l =>
     (f k l * (cis (2 * PI * (INR (u * i) / INR ny + INR (v * j) / INR nx))
             * cis (- (2 * PI * (INR (u * k) / INR ny + INR (v * l) / INR nx)))))%C))
     = csum2 ny nx (fun k l => (f k l * csum2 ny nx (fun u v =>
         (cis (2 * PI * (INR (u * i) / INR ny + INR (v * j) / INR nx))
             * cis (- (2 * PI * (INR (u * k) / INR ny + INR (v * l) / INR nx))))%C))%C)).
  { unfold csum2 at 1 2.
    rewrite (csum_ext ny _ (fun u => csum ny (fun k => csum nx (fun v => csum nx (fun l =>
      (f k l * (cis (2 * PI * (INR (u * i) / INR ny + INR (v * j) / INR nx))
             * cis (- (2 * PI * (INR (u * k) / INR ny + INR (v * l) / INR nx)))))%C))))).
    2:{ intros u _. rewrite (csum_swap nx ny). reflexivity. }
    rewrite csum_swap. unfold csum2 at 1. apply csum_ext; intros k _.
    rewrite (csum_ext ny _ (fun u => csum nx (fun l => csum nx (fun v =>
      (f k l * (cis (2 * PI * (INR (u * i) / INR ny + INR (v * j) / INR nx))
             * cis (- (2 * PI * (INR (u * k) / INR ny + INR (v * l) / INR nx)))))%C)))).
    2:{ intros u _. apply csum_swap. }
    rewrite csum_swap. apply csum_ext; intros l _. rewrite <- csum2_scal_l. reflexivity. }
  rewrite Hsw. rewrite (csum2_single ny nx i j) by (try assumption;
    intros k l Hk Hl Hne; rewrite kernel2_orth by assumption;
    destruct (Nat.eq_dec i k), (Nat.eq_dec j l); try ring; subst; congruence).
  rewrite kernel2_orth by assumption.
  destruct (Nat.eq_dec i i), (Nat.eq_dec j j); try congruence. field. exact HN.
Qed.

(** Extensionality and linearity. *)
Lemma fft2_ext ny nx f g u v : (forall i j, (i < ny)%nat -> (j < nx)%nat -> f i j = g i j) -> fft2 ny nx f u v = fft2 ny nx g u v.
Proof. intros H. apply csum2_ext; intros i j Hi Hj. rewrite H; auto. Qed.
Lemma ifft2_ext ny nx f g u v : (forall i j, (i < ny)%nat -> (j < nx)%nat -> f i j = g i j) -> ifft2 ny nx f u v = ifft2 ny nx g u v.
Proof. intros H. unfold ifft2. f_equal. apply csum2_ext; intros i j Hi Hj. rewrite H; auto. Qed.
Lemma fft2_plus ny nx f g u v : fft2 ny nx (fun i j => (f i j + g i j)%C) u v = (fft2 ny nx f u v + fft2 ny nx g u v)%C.
Proof. unfold fft2. rewrite <- csum2_plus. apply csum2_ext; intros; ring. Qed.
Lemma ifft2_plus ny nx f g u v : ifft2 ny nx (fun i j => (f i j + g i j)%C) u v = (ifft2 ny nx f u v + ifft2 ny nx g u v)%C.
Proof. unfold ifft2, Cdiv. rewrite <- Cmult_plus_distr_r, <- csum2_plus. f_equal. apply csum2_ext; intros; ring. Qed.
Lemma fft2_scal ny nx c f u v : fft2 ny nx (fun i j => (c * f i j)%C) u v = (c * fft2 ny nx f u v)%C.
Proof. unfold fft2. rewrite <- csum2_scal_l. apply csum2_ext; intros; ring. Qed.
Lemma ifft2_scal ny nx c f u v : ifft2 ny nx (fun i j => (c * f i j)%C) u v = (c * ifft2 ny nx f u v)%C.
Proof.
  unfold ifft2, Cdiv. rewrite Cmult_assoc, <- csum2_scal_l. f_equal. apply csum2_ext; intros; ring.
Qed.
Lemma fft2_minus ny nx f g u v : fft2 ny nx (fun i j => (f i j - g i j)%C) u v = (fft2 ny nx f u v - fft2 ny nx g u v)%C.
Proof.
  transitivity (fft2 ny nx (fun i j => (f i j + (-(1)) * g i j)%C) u v).
  - apply fft2_ext; intros; ring.
  - rewrite fft2_plus, fft2_scal. ring.
Qed.
Lemma ifft2_minus ny nx f g u v : ifft2 ny nx (fun i j => (f i j - g i j)%C) u v = (ifft2 ny nx f u v - ifft2 ny nx g u v)%C.
Proof.
  transitivity (ifft2 ny nx (fun i j => (f i j + (-(1)) * g i j)%C) u v).
  - apply ifft2_ext; intros; ring.
  - rewrite ifft2_plus, ifft2_scal. ring.
Qed.

Lemma cconj_RtoC r : cconj (RtoC r) = RtoC r.
Proof. unfold cconj, RtoC; simpl. f_equal. ring. Qed.
Lemma cconj_div_R (z : C) (r : R) : r <> 0 -> cconj (z / RtoC r)%C = (cconj z / RtoC r)%C.
Proof.
  intros Hr. unfold Cdiv. rewrite cconj_mult. f_equal. rewrite <- RtoC_inv by exact Hr. apply cconj_RtoC.
Qed.

(** The inverse transform is the conjugate of the forward transform of the conjugate. *)
Lemma ifft2_conj ny nx f i j : (0 < ny)%nat -> (0 < nx)%nat ->
  ifft2 ny nx f i j = (cconj (fft2 ny nx (fun u v => cconj (f u v)) i j) / RtoC (INR (ny * nx)))%C.
Proof.
  intros Hy Hx. unfold ifft2, fft2. f_equal. rewrite csum2_conj. apply csum2_ext; intros u v _ _.
  rewrite cconj_mult, cconj_conj, <- cis_neg, Ropp_involutive, (Nat.mul_comm u), (Nat.mul_comm v). reflexivity.
Qed.
Lemma fft2_conj ny nx f i j : (0 < ny)%nat -> (0 < nx)%nat ->
  fft2 ny nx f i j = (RtoC (INR (ny * nx)) * cconj (ifft2 ny nx (fun u v => cconj (f u v)) i j))%C.
Proof.
  intros Hy Hx. rewrite ifft2_conj by assumption.
  assert (HN : INR (ny * nx) <> 0) by (apply INR_neq_0; nia).
  rewrite cconj_div_R by exact HN. rewrite cconj_conj.
  rewrite (fft2_ext _ _ (fun u v => cconj (cconj (f u v))) f) by (intros; apply cconj_conj).
  field. apply RtoC_neq_0, HN.
Qed.

Lemma fft2_ifft2 ny nx f i j : (i < ny)%nat -> (j < nx)%nat -> fft2 ny nx (ifft2 ny nx f) i j = f i j.
Proof.
  intros Hi Hj. assert (HN : INR (ny * nx) <> 0) by (apply INR_neq_0; nia).
  rewrite fft2_conj by lia.
  rewrite (ifft2_ext _ _ _ (fun u v => (RtoC (/ INR (ny * nx)) * fft2 ny nx (fun u v => cconj (f u v)) u v)%C)).
  2:{ intros u v _ _. rewrite ifft2_conj by lia. rewrite cconj_div_R, cconj_conj by exact HN.
      rewrite RtoC_inv by exact HN. unfold Cdiv. ring. }
  rewrite ifft2_scal, ifft2_fft2 by assumption.
  rewrite cconj_mult, cconj_RtoC, cconj_conj, RtoC_inv by exact HN.
  field. apply RtoC_neq_0, HN.
Qed.

(** Parseval. *)
Lemma fft2_parseval ny nx f :
  rsum2 ny nx (fun u v => cnorm2 (fft2 ny nx f u v)) = INR (ny * nx) * rsum2 ny nx (fun i j => cnorm2 (f i j)).
Proof.
  destruct (Nat.eq_dec ny 0) as [->|Hy]; [unfold rsum2; simpl; ring|].
  destruct (Nat.eq_dec nx 0) as [->|Hx]; [rewrite Nat.mul_0_r, !rsum2_nx0; simpl; ring|].
  assert (HN : INR (ny * nx) <> 0) by (apply INR_neq_0; nia).
  assert (HC : RtoC (rsum2 ny nx (fun u v => cnorm2 (fft2 ny nx f u v)))
             = RtoC (INR (ny * nx) * rsum2 ny nx (fun i j => cnorm2 (f i j)))); [|injection HC; auto].
  rewrite RtoC_mult, <- !csum2_RtoC.
  rewrite (csum2_ext ny nx (fun u v => RtoC (cnorm2 (fft2 ny nx f u v)))
    (fun u v => csum2 ny nx (fun i j => (cconj (f i j) * (fft2 ny nx f u v * cis (2 * PI * (INR (u * i) / INR ny + INR (v * j) / INR nx))))%C))).
  2:{ intros u v _ _. rewrite <- mult_cconj. unfold fft2 at 2. rewrite csum2_conj, <- csum2_scal_l.
      apply csum2_ext; intros i j _ _. rewrite cconj_mult, <- cis_neg, Ropp_involutive. ring. }
  rewrite <- csum2_scal_l.
  assert (Hsw : forall g : nat -> nat -> nat -> nat -> C,
    csum2 ny nx (fun u v => csum2 ny nx (fun i j => g u v i j)) = csum2 ny nx (fun i j => csum2 ny nx (fun u v => g u v i j))).
  { intros g. unfold csum2.
    rewrite (csum_ext ny _ (fun u => csum ny (fun i => csum nx (fun v => csum nx (fun j => g u v i j))))).
    2:{ intros; apply csum_swap. }
    rewrite csum_swap. apply csum_ext; intros i _.
    rewrite (csum_ext ny _ (fun u => csum nx (fun j => csum nx (fun v => g u v i j)))).
    2:{ intros; apply csum_swap. }
    rewrite csum_swap. reflexivity. }
  rewrite Hsw. apply csum2_ext; intros i j Hi Hj.
  rewrite csum2_scal_l. rewrite <- mult_cconj.
  assert (H := ifft2_fft2 ny nx f i j Hi Hj). unfold ifft2 in H.
  rewrite <- H at 2. field. apply RtoC_neq_0, HN.
Qed.
Lemma ifft2_parseval ny nx f :
  INR (ny * nx) * rsum2 ny nx (fun u v => cnorm2 (ifft2 ny nx f u v)) = rsum2 ny nx (fun i j => cnorm2 (f i j)).
Proof.
  rewrite <- fft2_parseval. apply rsum2_ext; intros i j Hi Hj. rewrite fft2_ifft2; auto.
Qed.

(** Periodicity of the kernel and the shift theorem. *)
Definition zidx (n : nat) (z : Z) : nat := Z.to_nat (z mod Z.of_nat n).
Lemma zidx_lt n z : (0 < n)%nat -> (zidx n z < n)%nat.
Proof. intros H. unfold zidx. generalize (Z.mod_pos_bound z (Z.of_nat n)). lia. Qed.
Lemma zidx_Z n z : (0 < n)%nat -> Z.of_nat (zidx n z) = (z mod Z.of_nat n)%Z.
Proof. intros H. unfold zidx. rewrite Z2Nat.id; [reflexivity|]. generalize (Z.mod_pos_bound z (Z.of_nat n)); lia. Qed.
Lemma zidx_small n i : (i < n)%nat -> zidx n (Z.of_nat i) = i.
Proof. intros H. unfold zidx. rewrite Z.mod_small by lia. lia. Qed.
Lemma zidx_nat_mod n a : (0 < n)%nat -> (a mod n)%nat = zidx n (Z.of_nat a).
Proof. intros H. unfold zidx. rewrite <- Nat2Z.inj_mod. lia. Qed.
Lemma zidx_ext n a b : (a mod Z.of_nat n = b mod Z.of_nat n)%Z -> zidx n a = zidx n b.
Proof. unfold zidx. intros ->. reflexivity. Qed.

Lemma cis_int_shift t s : (exists k : Z, t - s = 2 * PI * IZR k) -> cis t = cis s.
Proof. intros [k Hk]. replace t with (s + 2 * PI * IZR k) by lra. apply cis_period. Qed.

(** The kernel depends on an index only modulo the size. *)
Lemma ker_zidx n u (z : Z) : (0 < n)%nat ->
  cis (2 * PI * (INR (u * zidx n z) / INR n)) = cis (2 * PI * (INR u * IZR z / INR n)).
Proof.
  intros Hn. assert (HnR := INR_neq_0 n Hn).
  apply cis_int_shift. exists (- (Z.of_nat u * (z / Z.of_nat n)))%Z.
  rewrite mult_INR, (INR_IZR_INZ (zidx n z)), zidx_Z by exact Hn.
  rewrite (Z.mod_eq z (Z.of_nat n)) by lia.
  rewrite minus_IZR, opp_IZR, !mult_IZR, <- !INR_IZR_INZ. field. exact HnR.
Qed.
Lemma ker_zidx_neg n u (z : Z) : (0 < n)%nat ->
  cis (- (2 * PI * (INR (u * zidx n z) / INR n))) = cis (- (2 * PI * (INR u * IZR z / INR n))).
Proof. intros Hn. rewrite !cis_neg, ker_zidx by exact Hn. reflexivity. Qed.

(** Modulation in the Fourier plane = displacement in the image plane. *)
Lemma ifft2_modulate ny nx f (a b : Z) u v : (0 < ny)%nat -> (0 < nx)%nat ->
  ifft2 ny nx (fun i j => (f i j * cis (- (2 * PI * (IZR a * INR i / INR ny + IZR b * INR j / INR nx))))%C) u v
  = ifft2 ny nx f (zidx ny (Z.of_nat u - a)) (zidx nx (Z.of_nat v - b)).
Proof.
  intros Hy Hx. unfold ifft2. f_equal. apply csum2_ext; intros i j _ _.
  rewrite (ker2_split i (zidx ny _)). rewrite !ker_zidx by assumption.
  rewrite <- Cmult_assoc, <- !cis_plus. f_equal. f_equal.
  rewrite !minus_IZR, <- !INR_IZR_INZ, !mult_INR. field. split; apply INR_neq_0; assumption.
Qed.

(** Rolling the input of [ifft2] multiplies its output by a unit phase. *)
Lemma ifft2_roll ny nx f (a b : nat) u v : (0 < ny)%nat -> (0 < nx)%nat ->
  ifft2 ny nx (fun i j => f ((i + a) mod ny) ((j + b) mod nx))%nat u v
  = (ifft2 ny nx f u v * cis (- (2 * PI * (INR a * INR u / INR ny + INR b * INR v / INR nx))))%C.
Proof.
  intros Hy Hx. unfold ifft2.
  set (ph := cis (- (2 * PI * (INR a * INR u / INR ny + INR b * INR v / INR nx)))).
  transitivity (csum2 ny nx (fun i j => (f i j * cis (2 * PI * (INR (i * u) / INR ny + INR (j * v) / INR nx)) * ph)%C) / RtoC (INR (ny * nx)))%C.
  2:{ rewrite csum2_scal_r. unfold Cdiv. ring. }
  f_equal.
  rewrite <- (csum2_rot ny nx a b (fun i j => (f i j * cis (2 * PI * (INR (i * u) / INR ny + INR (j * v) / INR nx)) * ph)%C)) by assumption.
  apply csum2_ext; intros i j _ _. rewrite <- Cmult_assoc. f_equal.
  rewrite !ker2_split, !(Nat.mul_comm _ u), !(Nat.mul_comm _ v), !zidx_nat_mod by assumption.
  rewrite !ker_zidx by assumption. unfold ph. rewrite <- !cis_plus. f_equal.
  rewrite <- !INR_IZR_INZ, !plus_INR, !mult_INR. field. split; apply INR_neq_0; assumption.
Qed.
