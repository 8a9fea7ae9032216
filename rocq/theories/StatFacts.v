(** Mean and variance of a sum of independently switched mirrors. *)
From Coq Require Import Reals Lra ZArith Arith List Bool Lia FinFun.
From Coquelicot Require Import Hierarchy RInt Complex.
From Verif Require Import Cx Sums StatSpec.
Import ListNotations.
Open Scope R_scope.

Definition on (g t : R) : R := if Rlt_dec t g then 1 else 0.
Lemma int_step (f : R -> R) (g A B : R) : 0 <= g <= 1 -> (forall t, t < g -> f t = A) -> (forall t, g < t -> f t = B) -> is_RInt f 0 1 (g * A + (1 - g) * B).
Proof.
  intros Hg HA HB. apply (is_RInt_Chasles f 0 g 1 (g * A) ((1 - g) * B)).
  - apply (is_RInt_ext (fun _ => A)); [intros t Ht; rewrite Rmax_right in Ht by lra; symmetry; apply HA; lra|].
    replace (g * A) with (scal (g - 0) A) by (unfold scal; cbn; unfold mult; cbn; ring). exact (is_RInt_const (V := R_NormedModule) 0 g A).
  - apply (is_RInt_ext (fun _ => B)); [intros t Ht; rewrite Rmin_left in Ht by lra; symmetry; apply HB; lra|].
    exact (is_RInt_const (V := R_NormedModule) g 1 B).
Qed.
Section Switch.
Variables (c : nat -> nat -> C) (g : nat -> nat -> R).
Fixpoint lsum (l : list (nat * nat)) (f : nat -> nat -> C) : C := match l with [] => RtoC 0 | (i, j) :: l' => (f i j + lsum l' f)%C end.
Fixpoint lrsum (l : list (nat * nat)) (f : nat -> nat -> R) : R := match l with [] => 0 | (i, j) :: l' => f i j + lrsum l' f end.
Definition sums (z0 : (nat -> nat -> R) -> C) (l : list (nat * nat)) (u : nat -> nat -> R) : C := (z0 u + lsum l (fun i j => c i j * RtoC (on (g i j) (u i j))))%C.
Definition greys (z0 : (nat -> nat -> R) -> C) (l : list (nat * nat)) (u : nat -> nat -> R) : C := (z0 u + lsum l (fun i j => c i j * RtoC (g i j)))%C.
Definition blind (l : list (nat * nat)) (z0 : (nat -> nat -> R) -> C) : Prop := forall i j u t, In (i, j) l -> z0 (replace_at u i j t) = z0 u.
Lemma replace_same u i j t : replace_at u i j t i j = t.
Proof. unfold replace_at. rewrite !Nat.eqb_refl. reflexivity. Qed.
Lemma replace_other u i j t a b : (a, b) <> (i, j) -> replace_at u i j t a b = u a b.
Proof. intros H. unfold replace_at. destruct (Nat.eqb_spec a i), (Nat.eqb_spec b j); cbn [andb]; try reflexivity. subst. congruence. Qed.
Lemma blind_next i j l z0 : ~ In (i, j) l -> blind ((i, j) :: l) z0 -> blind l (fun u => (z0 u + c i j * RtoC (on (g i j) (u i j)))%C).
Proof.
  intros Hn Hb a b u t Hin. rewrite Hb by (right; exact Hin). rewrite replace_other; [reflexivity|]. intros E. injection E as <- <-. contradiction.
Qed.
Lemma is_mean_ext l V V' M : (forall u, V u = V' u) -> is_mean l V M -> is_mean l V' M.
Proof.
  revert M. induction l as [|[i j] l IH]; intros M E H; cbn [is_mean] in *; [intros u; rewrite H; apply E|].
  destruct H as (M' & H1 & H2). exists M'. split; [apply IH; assumption|exact H2].
Qed.
Lemma on_step (f : R -> R) gij A B : 0 <= gij <= 1 -> f = (fun t => if Rlt_dec t gij then A else B) -> is_RInt f 0 1 (gij * A + (1 - gij) * B).
Proof. intros H ->. apply int_step; [exact H| |]; intros t Ht; destruct (Rlt_dec t gij); try reflexivity; lra. Qed.
(** Linear functionals [L] of the field (real and imaginary part). *)
Lemma mean_linear (L : C -> R) l z0 : (forall z w, L (z + w)%C = L z + L w) -> NoDup l -> (forall i j, In (i, j) l -> 0 <= g i j <= 1) -> blind l z0 ->
  (forall z r, L (z * RtoC r)%C = L z * r) -> is_mean l (fun u => L (sums z0 l u)) (fun u => L (greys z0 l u)).
Proof.
  intros HL Hnd Hg Hb HLs. revert z0 Hb. induction l as [|[i j] l IH]; intros z0 Hb; [intros u; reflexivity|].
  inversion Hnd as [|x l' Hn Hnd']; subst. cbn [is_mean].
  exists (fun u => L (greys (fun u => (z0 u + c i j * RtoC (on (g i j) (u i j)))%C) l u)). split.
  - eapply is_mean_ext; [|apply IH; [exact Hnd'|intros; apply Hg; right; assumption|apply blind_next; assumption]].
    intros u. unfold sums. cbn [lsum]. f_equal. ring.
  - intros u. unfold greys. cbn [lsum].
    assert (E : forall t, L (z0 (replace_at u i j t) + c i j * RtoC (on (g i j) (replace_at u i j t i j)) + lsum l (fun i j => c i j * RtoC (g i j)))%C
       = L (z0 u) + L (c i j) * on (g i j) t + L (lsum l (fun i j => (c i j * RtoC (g i j))%C))).
    { intros t. rewrite Hb by (left; reflexivity). rewrite replace_same, !HL, HLs. reflexivity. }
    apply (is_RInt_ext (fun t => L (z0 u) + L (c i j) * on (g i j) t + L (lsum l (fun i j => (c i j * RtoC (g i j))%C)))); [intros t _; symmetry; apply E|].
    set (r := L (lsum l _)). rewrite !HL, HLs. fold r.
    replace (L (z0 u) + (L (c i j) * g i j + r)) with (g i j * (L (z0 u) + L (c i j) + r) + (1 - g i j) * (L (z0 u) + r)) by ring.
    apply int_step; [apply Hg; left; reflexivity| |]; intros t Ht; unfold on; destruct (Rlt_dec t (g i j)); lra.
Qed.
Lemma sq_mix (Z w : C) (p : R) : p * Cmod (Z + w)%C ^ 2 + (1 - p) * Cmod Z ^ 2 = Cmod (Z + w * RtoC p)%C ^ 2 + p * (1 - p) * Cmod w ^ 2.
Proof. rewrite <- !cnorm2_Cmod. unfold cnorm2. destruct Z as [a b], w as [x y]. cbn [Cplus Cmult RtoC fst snd]. ring. Qed.
Lemma mean_square l z0 : NoDup l -> (forall i j, In (i, j) l -> 0 <= g i j <= 1) -> blind l z0 ->
  is_mean l (fun u => Cmod (sums z0 l u) ^ 2) (fun u => Cmod (greys z0 l u) ^ 2 + lrsum l (fun i j => g i j * (1 - g i j) * Cmod (c i j) ^ 2)).
Proof.
  intros Hnd Hg. revert z0. induction l as [|[i j] l IH]; intros z0 Hb; [intros u; unfold greys, sums; cbn [lsum lrsum]; ring|].
  inversion Hnd as [|x l' Hn Hnd']; subst. cbn [is_mean].
  eexists. split.
  - eapply is_mean_ext; [|apply (IH Hnd' ltac:(intros; apply Hg; right; assumption) (fun u => (z0 u + c i j * RtoC (on (g i j) (u i j)))%C)); apply blind_next; assumption].
    intros u. unfold sums. cbn [lsum]. do 2 f_equal. ring.
  - intros u. cbv beta. unfold greys. cbn [lsum lrsum]. set (r := lrsum l _). set (w := lsum l _).
    apply (is_RInt_ext (fun t => Cmod (z0 u + c i j * RtoC (on (g i j) t) + w)%C ^ 2 + r)).
    { intros t _. rewrite Hb by (left; reflexivity). rewrite replace_same. reflexivity. }
    replace (Cmod (z0 u + (c i j * RtoC (g i j) + w))%C ^ 2 + (g i j * (1 - g i j) * Cmod (c i j) ^ 2 + r))
      with (g i j * (Cmod (z0 u + w + c i j)%C ^ 2 + r) + (1 - g i j) * (Cmod (z0 u + w)%C ^ 2 + r)).
    + apply int_step; [apply Hg; left; reflexivity| |]; intros t Ht; unfold on; destruct (Rlt_dec t (g i j)); try lra; do 3 f_equal; ring.
    + assert (K := sq_mix (z0 u + w)%C (c i j) (g i j)). replace (z0 u + (c i j * RtoC (g i j) + w))%C with (z0 u + w + c i j * RtoC (g i j))%C by ring. lra.
Qed.
End Switch.

(** Sums over the whole array. *)
Lemma lsum_app l l' f : lsum (l ++ l') f = (lsum l f + lsum l' f)%C.
Proof. induction l as [|[i j] l IH]; cbn [app lsum]; [ring|]. rewrite IH. ring. Qed.
Lemma lrsum_app l l' f : lrsum (l ++ l') f = lrsum l f + lrsum l' f.
Proof. induction l as [|[i j] l IH]; cbn [app lrsum]; [ring|]. rewrite IH. ring. Qed.
Lemma lsum_row i n f : lsum (map (fun j => (i, j)) (seq 0 n)) f = csum n (fun j => f i j).
Proof. induction n as [|n IH]; [reflexivity|]. rewrite seq_S, map_app, lsum_app, IH. cbn [csum map lsum Nat.add]. ring. Qed.
Lemma lrsum_row i n f : lrsum (map (fun j => (i, j)) (seq 0 n)) f = rsum n (fun j => f i j).
Proof. induction n as [|n IH]; [reflexivity|]. rewrite seq_S, map_app, lrsum_app, IH. cbn [rsum map lrsum Nat.add]. ring. Qed.
Lemma mirrors_S n nx : mirrors (S n) nx = mirrors n nx ++ map (fun j => (n, j)) (seq 0 nx).
Proof.
  unfold mirrors. rewrite seq_S. cbn [Nat.add]. generalize (seq 0 n) as l. induction l as [|a l IH]; [cbn [app list_prod]; rewrite app_nil_r; reflexivity|].
  cbn [app list_prod]. rewrite IH, app_assoc. reflexivity.
Qed.
Lemma lsum_mirrors ny nx f : lsum (mirrors ny nx) f = csum2 ny nx f.
Proof. induction ny as [|n IH]; [reflexivity|]. rewrite mirrors_S, lsum_app, IH, lsum_row. reflexivity. Qed.
Lemma lrsum_mirrors ny nx f : lrsum (mirrors ny nx) f = rsum2 ny nx f.
Proof. induction ny as [|n IH]; [reflexivity|]. rewrite mirrors_S, lrsum_app, IH, lrsum_row. reflexivity. Qed.
Lemma mirrors_nodup ny nx : NoDup (mirrors ny nx).
Proof.
  unfold mirrors. assert (H : forall l l' : list nat, NoDup l -> NoDup l' -> NoDup (list_prod l l')).
  { induction l as [|a l IH]; intros l' Hl Hl'; [constructor|]. inversion Hl; subst. cbn [list_prod].
    assert (Q : forall (x : list (nat * nat)) y, NoDup x -> NoDup y -> (forall p, In p x -> ~ In p y) -> NoDup (x ++ y)).
    { induction x as [|p x IHx]; intros y Hx Hy Hd; [exact Hy|]. inversion Hx; subst. cbn [app]. constructor.
      - rewrite in_app_iff. intros [K|K]; [contradiction|]. apply (Hd p); [left; reflexivity|exact K].
      - apply IHx; [assumption|assumption|]. intros q Hq. apply Hd. right. exact Hq. }
    apply Q.
    - apply FinFun.Injective_map_NoDup; [|exact Hl']. intros x y E. injection E. auto.
    - apply IH; assumption.
    - intros [x y] Hin Hin2. apply in_map_iff in Hin. destruct Hin as (z & E & _). injection E as <- <-. apply in_prod_iff in Hin2. tauto. }
  apply H; apply seq_NoDup.
Qed.
Lemma in_mirrors ny nx i j : In (i, j) (mirrors ny nx) <-> (i < ny)%nat /\ (j < nx)%nat.
Proof. unfold mirrors. rewrite in_prod_iff, !in_seq. lia. Qed.
