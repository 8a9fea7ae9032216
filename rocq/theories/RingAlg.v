(** Laguerre-Gauss modes as sums of Hermite-Gauss modes (C115). *)
From Coq Require Import Reals Lra Psatz ZArith Arith List Bool Lia.
From Coquelicot Require Import Complex.
From Verif Require Import Cx Sums ModeSpec ModeFacts ModeThms ErfInt HermSpec HermSum HermSum2 RingSpec.
Open Scope R_scope.

(** *** Laguerre polynomials *)
Notation Lg := laguerre.
Lemma Lg_0 al x : Lg 0 al x = 1. Proof. reflexivity. Qed.
Lemma Lg_1 al x : Lg 1 al x = 1 + al - x. Proof. reflexivity. Qed.
Lemma Lg_SS n al x : (INR n + 2) * Lg (S (S n)) al x = (2 * INR n + 3 + al - x) * Lg (S n) al x - (INR n + 1 + al) * Lg n al x.
Proof. assert (0 <= INR n) by apply pos_INR. unfold laguerre. cbn [laguerre_pair]. destruct (laguerre_pair al n x) as [a b]. cbn [fst snd]. field. lra. Qed.
Lemma Lg_up n al x : Lg (S n) (al + 1) x = Lg (S n) al x + Lg n (al + 1) x /\ (INR n + 1) * Lg (S n) al x = (INR n + 1 + al) * Lg n al x - x * Lg n (al + 1) x.
Proof.
  induction n as [|n [A B]].
  - rewrite !Lg_1, !Lg_0. cbn [INR]. split; ring.
  - assert (P := pos_INR n). assert (T := Lg_SS n al x). assert (T1 := Lg_SS n (al + 1) x). rewrite S_INR.
    assert (B' : (INR n + 2) * Lg (S (S n)) al x = (INR n + 2 + al) * Lg (S n) al x - x * Lg (S n) (al + 1) x) by (rewrite T, A; lra).
    split; [|lra]. apply (Rmult_eq_reg_l (INR n + 2)); [|lra]. rewrite T1, Rmult_plus_distr_l, B'. replace (Lg n (al + 1) x) with (Lg (S n) (al + 1) x - Lg (S n) al x) by lra. ring.
Qed.

(** *** The sums are linear *)
Lemma vortex_ext j q e f : (forall n m, e n m = f n m) -> vortex j q e = vortex j q f.
Proof. revert e f. induction q as [|q IH]; intros e f H; cbn; [apply H|]. apply IH. intros n m. rewrite !H. reflexivity. Qed.
Lemma rings_ext j p q e f : (forall n m, e n m = f n m) -> rings j p q e = rings j p q f.
Proof. revert e f. induction p as [|p IH]; intros e f H; cbn; [apply vortex_ext, H|]. apply IH. intros n m. rewrite !H. reflexivity. Qed.
Lemma vortex_lin j q e f a b : (vortex j q (fun n m => a * e n m + b * f n m) = a * vortex j q e + b * vortex j q f)%C.
Proof. revert e f. induction q as [|q IH]; intros e f; cbn; [reflexivity|]. rewrite <- IH. apply vortex_ext. intros n m. ring. Qed.
Lemma rings_lin j p q e f a b : (rings j p q (fun n m => a * e n m + b * f n m) = a * rings j p q e + b * rings j p q f)%C.
Proof. revert e f. induction p as [|p IH]; intros e f; cbn; [apply vortex_lin|]. rewrite <- IH. apply rings_ext. intros n m. ring. Qed.
Lemma rings_scal j p q e a : (rings j p q (fun n m => a * e n m) = a * rings j p q e)%C.
Proof. transitivity (a * rings j p q e + 0 * rings j p q e)%C; [|ring]. rewrite <- rings_lin. apply rings_ext. intros; ring. Qed.
Lemma vortex_degree j q (f : nat -> C) e k : (vortex j q (fun n m => f (k + n + m)%nat * e n m) = f (k + q)%nat * vortex j q e)%C.
Proof.
  revert e k. induction q as [|q IH]; intros e k; cbn [vortex]; [rewrite !Nat.add_0_r; reflexivity|]. replace (k + S q)%nat with (S k + q)%nat by lia. rewrite <- IH. apply vortex_ext. intros n m.
  replace (k + S n + m)%nat with (S k + n + m)%nat by lia. replace (k + n + S m)%nat with (S k + n + m)%nat by lia. ring.
Qed.
Lemma rings_degree' j p q (f : nat -> C) e k : (rings j p q (fun n m => f (k + n + m)%nat * e n m) = f (k + 2 * p + q)%nat * rings j p q e)%C.
Proof.
  revert e k. induction p as [|p IH]; intros e k; cbn [rings]; [rewrite vortex_degree; do 2 f_equal; lia|]. replace (k + 2 * S p + q)%nat with (S (S k) + 2 * p + q)%nat by lia. rewrite <- IH. apply rings_ext. intros n m.
  replace (k + S (S n) + m)%nat with (S (S k) + n + m)%nat by lia. replace (k + n + S (S m))%nat with (S (S k) + n + m)%nat by lia. ring.
Qed.
Lemma rings_degree j p q (f : nat -> C) e : (rings j p q (fun n m => f (n + m)%nat * e n m) = f (2 * p + q)%nat * rings j p q e)%C.
Proof. exact (rings_degree' j p q f e 0). Qed.
Lemma vortex_abs_le q e f : (forall n m, e n m <= f n m) -> vortex_abs q e <= vortex_abs q f.
Proof. revert e f. induction q as [|q IH]; intros e f H; cbn; [apply H|]. apply IH. intros n m. apply Rplus_le_compat; apply H. Qed.
Lemma rings_abs_le p q e f : (forall n m, e n m <= f n m) -> rings_abs p q e <= rings_abs p q f.
Proof. revert e f. induction p as [|p IH]; intros e f H; cbn; [apply vortex_abs_le, H|]. apply IH. intros n m. apply Rplus_le_compat; apply H. Qed.
Lemma vortex_mod j q e : Cmod j = 1 -> Cmod (vortex j q e) <= vortex_abs q (fun n m => Cmod (e n m)).
Proof.
  intros Hj. revert e. induction q as [|q IH]; intros e; cbn; [apply Rle_refl|]. eapply Rle_trans; [apply IH|]. apply vortex_abs_le. intros n m. eapply Rle_trans; [apply Cmod_triangle|]. rewrite Cmod_mult, Hj. lra.
Qed.
Lemma rings_mod j p q e : Cmod j = 1 -> Cmod (rings j p q e) <= rings_abs p q (fun n m => Cmod (e n m)).
Proof.
  intros Hj. revert e. induction p as [|p IH]; intros e; cbn; [apply vortex_mod, Hj|]. eapply Rle_trans; [apply IH|]. apply rings_abs_le. intros n m. apply Cmod_triangle.
Qed.

(** *** z and its conjugate *)
Section Z.
Variable j : C.
Hypothesis Hj : (j * j = - RtoC 1)%C.
Definition up (c : C) (e : nat -> nat -> C) : nat -> nat -> C := fun n m => (e (S n) m + c * e n (S m))%C.
(** [mono a b e]: (x - j y)^a (x + j y)^b multiplied out. *)
Fixpoint mono (a b : nat) (e : nat -> nat -> C) : C := match a with O => vortex j b e | S k => mono k b (up (- j)%C e) end.
Lemma mono_ext a b e f : (forall n m, e n m = f n m) -> mono a b e = mono a b f.
Proof. revert e f. induction a as [|a IH]; intros e f H; cbn; [apply vortex_ext, H|]. apply IH. intros n m. unfold up. rewrite !H. reflexivity. Qed.
Lemma mono_lin a b e f u v : (mono a b (fun n m => u * e n m + v * f n m) = u * mono a b e + v * mono a b f)%C.
Proof. revert e f. induction a as [|a IH]; intros e f; cbn; [apply vortex_lin|]. rewrite <- IH. apply mono_ext. intros n m. unfold up. ring. Qed.
Lemma up_swap c d e n m : up c (up d e) n m = up d (up c e) n m.
Proof. unfold up. ring. Qed.
Lemma mono_conj a b e : mono a (S b) e = mono a b (up j e).
Proof. revert e. induction a as [|a IH]; intros e; [reflexivity|]. cbn [mono]. rewrite IH. apply mono_ext. intros n m. apply up_swap. Qed.
Lemma mono_rings p q e : mono p (p + q) e = rings j p q e.
Proof.
  revert e. induction p as [|p IH]; intros e; [reflexivity|]. cbn [mono rings Nat.add]. rewrite mono_conj, <- IH. apply mono_ext. intros n m. unfold up.
  transitivity (e (S (S n)) m - (j * j) * e n (S (S m)))%C; [ring|]. rewrite Hj. ring.
Qed.
(** Lowering: d/dx + c d/dy. *)
Definition down (c : C) (e : nat -> nat -> C) : nat -> nat -> C := fun n m =>
  (match n with O => RtoC 0 | S k => RtoC (INR (S k)) * e k m end + c * match m with O => RtoC 0 | S k => RtoC (INR (S k)) * e n k end)%C.
Lemma down_up c d e n m : up d (down c e) n m = (down c (up d e) n m + (RtoC 1 + d * c) * e n m)%C.
Proof.
  unfold up, down. destruct n as [|n], m as [|m]; rewrite ?(S_INR (S n)), ?(S_INR (S m)), ?RtoC_plus; cbn [INR]; ring.
Qed.
Lemma down_same c e n m : (c * c = - RtoC 1)%C -> up c (down c e) n m = down c (up c e) n m.
Proof. intros H. rewrite down_up, H. ring. Qed.
Lemma down_lin c e f u v n m : down c (fun n m => u * e n m + v * f n m)%C n m = (u * down c e n m + v * down c f n m)%C.
Proof. unfold down. destruct n, m; ring. Qed.
Lemma vortex_down b e : vortex j b (down j e) = RtoC 0.
Proof.
  revert e. induction b as [|b IH]; intros e; cbn [vortex]; [unfold down; ring|]. rewrite <- (IH (up j e)). apply vortex_ext. intros n m. apply (down_same j e n m Hj).
Qed.
Lemma vortex_down' b e : vortex j (S b) (down (- j)%C e) = (RtoC (2 * INR (S b)) * vortex j b e)%C.
Proof.
  revert e. induction b as [|b IH]; intros e.
  - cbn [vortex]. change (up j (down (- j)%C e) 0%nat 0%nat = (RtoC (2 * INR 1) * e 0%nat 0%nat)%C). rewrite down_up. unfold down. transitivity ((RtoC 1 - j * j) * e 0%nat 0%nat)%C; [ring|]. rewrite Hj. cbn [INR]. rewrite RtoC_mult. replace (RtoC 2) with (RtoC 1 + RtoC 1)%C by (rewrite <- RtoC_plus; f_equal; lra). ring.
  - cbn [vortex]. fold (up j (down (- j)%C e)). transitivity (vortex j (S b) (fun n m => RtoC 1 * down (- j)%C (up j e) n m + RtoC 2 * e n m)%C).
    + cbn [vortex]. apply vortex_ext. intros n m.
      assert (Q : forall n m, up j (down (- j)%C e) n m = (RtoC 1 * down (- j)%C (up j e) n m + RtoC 2 * e n m)%C).
      { intros n' m'. rewrite down_up. replace (RtoC 2) with (RtoC 1 - j * j)%C; [ring|]. rewrite Hj. apply injective_projections; cbn; lra. }
      fold (up j (down (- j)%C e) (S n) m). fold (up j (down (- j)%C e) n (S m)). rewrite !Q. reflexivity.
    + rewrite vortex_lin, IH. cbn [vortex]. fold (up j e). rewrite (S_INR (S b)). rewrite !RtoC_mult, RtoC_plus. ring.
Qed.
Lemma mono_down a b e : mono a (S b) (down (- j)%C e) = (RtoC (2 * INR (S b)) * mono a b e)%C.
Proof.
  revert e. induction a as [|a IH]; intros e; [apply vortex_down'|]. cbn [mono]. rewrite <- IH. apply mono_ext. intros n m. apply down_same. transitivity (j * j)%C; [ring|exact Hj].
Qed.
Lemma mono_down0 a e : mono a 0 (down (- j)%C e) = RtoC 0.
Proof.
  revert e. induction a as [|a IH]; intros e; [cbn; unfold down; ring|]. cbn [mono]. rewrite <- (IH (up (- j)%C e)). apply mono_ext. intros n m. apply down_same. transitivity (j * j)%C; [ring|exact Hj].
Qed.

(** *** Hermite polynomials *)
Fixpoint cp (z : C) (n : nat) : C := match n with O => RtoC 1 | S k => (z * cp z k)%C end.
Lemma cp_scal (r : R) z n : cp (RtoC r * z)%C n = (RtoC (r ^ n) * cp z n)%C.
Proof. induction n as [|n IH]; cbn [cp pow]; [ring|]. rewrite IH, RtoC_mult. ring. Qed.
Variables X Y : R.
Definition HH (n m : nat) : C := RtoC (H n X * H m Y).
Lemma HH_up c n m : up c HH n m = (RtoC 2 * (RtoC X + c * RtoC Y) * HH n m + (- RtoC 2) * down c HH n m)%C.
Proof.
  unfold up, HH, down. rewrite (H_rec n), (H_rec m). unfold dn.
  destruct n, m; rewrite ?S_INR, ?RtoC_mult, ?RtoC_minus, ?RtoC_mult, ?RtoC_plus, ?RtoC_mult; ring.
Qed.
Lemma vortex_HH b : vortex j b HH = cp (RtoC 2 * (RtoC X + j * RtoC Y))%C b.
Proof.
  induction b as [|b IH]; [unfold HH, H; cbn; f_equal; ring|]. cbn [vortex]. transitivity (vortex j b (fun n m => (RtoC 2 * (RtoC X + j * RtoC Y)) * HH n m + (- RtoC 2) * down j HH n m)%C).
  - apply vortex_ext. intros n m. exact (HH_up j n m).
  - rewrite vortex_lin, IH, vortex_down. cbn [cp]. ring.
Qed.
Lemma mono_HH a b : mono (S a) (S b) HH = (RtoC 2 * (RtoC X - j * RtoC Y) * mono a (S b) HH - RtoC (4 * INR (S b)) * mono a b HH)%C.
Proof.
  cbn [mono]. transitivity (mono a (S b) (fun n m => (RtoC 2 * (RtoC X + (- j) * RtoC Y)) * HH n m + (- RtoC 2) * down (- j)%C HH n m)%C).
  - apply mono_ext. intros n m. exact (HH_up (- j)%C n m).
  - rewrite mono_lin, mono_down. replace (RtoC (4 * INR (S b))) with (RtoC 2 * RtoC (2 * INR (S b)))%C by (rewrite <- RtoC_mult; f_equal; ring). ring.
Qed.
Lemma rings_HH p q : rings j p q HH = (RtoC (ring_norm p q * Lg p (INR q) (X ^ 2 + Y ^ 2)) * cp (RtoC X + j * RtoC Y)%C q)%C.
Proof.
  rewrite <- mono_rings. revert q. induction p as [|p IH]; intros q.
  - cbn [mono Nat.add]. rewrite vortex_HH, Lg_0. unfold ring_norm. cbn [pow fact INR]. rewrite cp_scal. f_equal. f_equal. ring.
  - replace (S p + q)%nat with (S (p + q)) by lia. rewrite mono_HH. replace (S (p + q)) with (p + S q)%nat at 1 by lia. rewrite !IH. cbn [cp].
    set (z := (RtoC X + j * RtoC Y)%C). set (x := X ^ 2 + Y ^ 2).
    assert (Ez : ((RtoC X - j * RtoC Y) * z = RtoC x)%C).
    { unfold z, x. transitivity (RtoC X * RtoC X - (j * j) * (RtoC Y * RtoC Y))%C; [ring|]. rewrite Hj, RtoC_plus, <- !RtoC_mult. transitivity (RtoC (X * X) + RtoC (Y * Y))%C; [ring|]. f_equal; f_equal; ring. }
    transitivity ((RtoC 2 * RtoC (ring_norm p (S q) * Lg p (INR (S q)) x) * ((RtoC X - j * RtoC Y) * z) - RtoC (4 * INR (S (p + q))) * RtoC (ring_norm p q * Lg p (INR q) x)) * cp z q)%C; [ring|].
    f_equal. rewrite Ez. rewrite <- !RtoC_mult, <- RtoC_minus. f_equal. destruct (Lg_up p (INR q) x) as [_ B]. rewrite <- S_INR in B. unfold ring_norm. rewrite (S_INR (p + q)), plus_INR.
    replace (fact (S p)) with (S p * fact p)%nat by reflexivity. rewrite mult_INR, (S_INR p). rewrite <- !tech_pow_Rmult.
    transitivity ((-4) ^ p * INR (fact p) * 2 ^ q * (- 4 * ((INR p + 1 + INR q) * Lg p (INR q) x - x * Lg p (INR (S q)) x))); [ring|]. rewrite S_INR in B |- *. rewrite <- B. ring.
Qed.
End Z.
