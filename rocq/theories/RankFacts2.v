(** Stacks of targets: one common scale factor, otherwise every image for itself. *)
From Coq Require Import Reals Lra ZArith Arith List Bool Lia.
From Coquelicot Require Import Complex.
From Verif Require Import Cx Sums DFT PyBase ProfileModel SlmModel LibModel DmdModel SimModel SimSpec DmdSpec GridFacts AmpFacts AmpFacts2 AmpFacts3 DmdThms RankModel RankSpec.
Import ListNotations.
Open Scope R_scope.

Lemma nclip_valid B b : valid B b -> nclip B b = b.
Proof.
  intros H. induction H as [|k n b B Hk _ IH]; [reflexivity|]. cbn [nclip hd tl]. rewrite IH. destruct (Nat.eqb_spec n 1); [|reflexivity]. f_equal. lia.
Qed.
Lemma shift_valid B b : valid B b -> shift_all ishift_idx B (shift_all shift_idx B b) = b.
Proof. intros H. induction H as [|k n b B Hk _ IH]; [reflexivity|]. cbn [shift_all]. rewrite IH, ishift_shift by exact Hk. reflexivity. Qed.
Lemma nmax_fin s : Forall (fun n => (0 < n)%nat) s -> forall el g, (forall ix, valid s ix -> el ix = Fin (g ix)) ->
  exists M, nmax s el = Fin M /\ (forall ix, valid s ix -> g ix <= M) /\ exists ix, valid s ix /\ g ix = M.
Proof.
  induction 1 as [|n s Hn _ IH]; intros el g He.
  - exists (g []). cbn [nmax]. rewrite (He [] (Forall2_nil _)). split; [reflexivity|]. split; [intros ix H; inversion H; lra|]. exists []. split; [constructor|reflexivity].
  - cbn [nmax].
    assert (Q : forall r, exists M, valid s r -> xmax1 (fun k => el (k :: r)) n = Fin M /\ (forall k, (k < n)%nat -> g (k :: r) <= M) /\ exists k, (k < n)%nat /\ g (k :: r) = M).
    { intros r. destruct (xmax1_fin (fun k => g (k :: r)) n Hn) as (M & E & H1 & H2). exists M. intros Hr. split; [|auto].
      rewrite <- E. apply xmax1_ext. intros k Hk. apply He. constructor; assumption. }
    set (pick := fun r => match xmax1 (fun k => el (k :: r)) n with Fin M => M | _ => 0 end).
    destruct (IH (fun r => xmax1 (fun k => el (k :: r)) n) pick) as (M & E & H1 & r1 & R1 & E1).
    { intros r Hr. destruct (Q r) as (M & P). destruct (P Hr) as (E & _). unfold pick. rewrite E. reflexivity. }
    assert (Pk : forall r, valid s r -> (forall k, (k < n)%nat -> g (k :: r) <= pick r) /\ exists k, (k < n)%nat /\ g (k :: r) = pick r).
    { intros r Hr. destruct (Q r) as (M' & P). destruct (P Hr) as (E' & P1 & P2). unfold pick. rewrite E'. auto. }
    exists M. split; [exact E|]. split.
    + intros ix Hix. inversion Hix as [|k ? r ? Hk Hr]; subst. apply Rle_trans with (pick r); [apply (Pk r Hr); exact Hk|apply H1; exact Hr].
    + destruct (Pk r1 R1) as (_ & k & Hk & Ek). exists (k :: r1). split; [constructor; assumption|]. congruence.
Qed.

Section Stack.
Variable nx ny : nat.
Variable B : list nat.
(** An operand whose leading axes are X, all of B or none, reading f. *)
Definition st {A} (a : nd A) (f : list nat -> nat -> nat -> A) (X : list nat) : Prop :=
  nsh a = nx :: ny :: X /\ (X = [] \/ X = B) /\ forall b i j, valid B b -> (i < ny)%nat -> (j < nx)%nat -> nel a (j :: i :: nclip X b) = f b i j.
Lemma clip2 i j X b : (i < ny)%nat -> (j < nx)%nat -> nclip (nx :: ny :: X) (j :: i :: b) = j :: i :: nclip X b.
Proof.
  intros Hi Hj. cbn [nclip hd tl]. f_equal; [destruct (Nat.eqb_spec nx 1); lia|]. f_equal. destruct (Nat.eqb_spec ny 1); lia.
Qed.
Lemma st_get {A} (a : nd A) f X b i j : st a f X -> valid B b -> (i < ny)%nat -> (j < nx)%nat -> nget a (j :: i :: b) = f b i j.
Proof. intros (E & _ & V) Hb Hi Hj. unfold nget. rewrite E, clip2 by assumption. apply V; assumption. Qed.
Lemma st_get2 {A} (a : nd A) f b i j : st a f [] -> valid B b -> (i < ny)%nat -> (j < nx)%nat -> nget a [j; i] = f b i j.
Proof. intros (E & _ & V) Hb Hi Hj. unfold nget. rewrite E, clip2 by assumption. exact (V b i j Hb Hi Hj). Qed.
Lemma st_map {A D} (g : A -> D) a f X : st a f X -> st (nmap g a) (fun b i j => g (f b i j)) X.
Proof. intros (E & HX & V). split; [exact E|]. split; [exact HX|]. intros b i j Hb Hi Hj. cbn [nmap nel]. rewrite V by assumption. reflexivity. Qed.
Lemma st_ext {A} (a : nd A) f g X : st a f X -> (forall b i j, valid B b -> (i < ny)%nat -> (j < nx)%nat -> f b i j = g b i j) -> st a g X.
Proof. intros (E & HX & V) H. split; [exact E|]. split; [exact HX|]. intros b i j Hb Hi Hj. rewrite V, H by assumption. reflexivity. Qed.
Lemma bdim_same n : bdim n n = Some n. Proof. unfold bdim. rewrite Nat.eqb_refl. reflexivity. Qed.
Lemma nbshape_same X : nbshape X X = Some X.
Proof. induction X as [|n X IH]; [reflexivity|]. cbn [nbshape]. rewrite bdim_same, IH. reflexivity. Qed.
Definition join (X Y : list nat) : list nat := match X with [] => Y | _ => X end.
Lemma nbshape_join X Y : (X = [] \/ X = B) -> (Y = [] \/ Y = B) -> nbshape (nx :: ny :: X) (nx :: ny :: Y) = Some (nx :: ny :: join X Y).
Proof.
  intros [->| ->] [->| ->]; cbn [nbshape]; rewrite !bdim_same; try reflexivity.
  - destruct B; reflexivity.
  - rewrite nbshape_same. destruct B; reflexivity.
Qed.
Lemma join_ok X Y : (X = [] \/ X = B) -> (Y = [] \/ Y = B) -> join X Y = [] \/ join X Y = B.
Proof. intros [->| ->] [->| ->]; cbn [join]; auto; destruct B; cbn [join]; auto. Qed.
Lemma join_left Y : Y = [] \/ Y = B -> join B Y = B.
Proof. intros [->| ->]; destruct B; reflexivity. Qed.
Lemma join_right X : X = [] \/ X = B -> join X B = B.
Proof. intros [->| ->]; destruct B; reflexivity. Qed.
Lemma st_map2 {A A' D} (g : A -> A' -> D) a f X a' f' X' : st a f X -> st a' f' X' -> exists r, nmap2 g a a' = Ok r /\ st r (fun b i j => g (f b i j) (f' b i j)) (join X X').
Proof.
  intros H H'. assert (HX := proj1 (proj2 H)). assert (HX' := proj1 (proj2 H')). unfold nmap2. rewrite (proj1 H), (proj1 H'), nbshape_join by assumption.
  eexists. split; [reflexivity|]. split; [reflexivity|]. split; [apply join_ok; assumption|]. intros b i j Hb Hi Hj. cbn [nel].
  assert (C : nclip (join X X') b = b \/ (X = [] /\ X' = [] /\ nclip (join X X') b = [])).
  { destruct HX as [->| ->]; [destruct HX' as [->| ->]|]; [right; auto|left; apply nclip_valid; exact Hb|].
    left. rewrite join_left by exact HX'. apply nclip_valid, Hb. }
  destruct C as [->|(-> & -> & ->)].
  - rewrite (st_get a f X b i j H Hb Hi Hj), (st_get a' f' X' b i j H' Hb Hi Hj). reflexivity.
  - rewrite (st_get2 a f b i j H Hb Hi Hj), (st_get2 a' f' b i j H' Hb Hi Hj). reflexivity.
Qed.
Lemma clip_valid X b : (X = [] \/ X = B) -> valid B b -> valid X (nclip X b).
Proof. intros [->| ->] Hb; [constructor|]. rewrite nclip_valid; exact Hb. Qed.
Lemma st_fp t T X : st t T X -> exists fp, nfft2 (nifftshift t) = Ok fp /\ st (nfftshift fp) (fun b => spectrum_of ny nx (T b)) X.
Proof.
  intros (E & HX & V). unfold nfft2, nifftshift. cbn [nsh]. rewrite E. eexists. split; [reflexivity|]. split; [reflexivity|]. split; [exact HX|].
  intros b i j Hb Hi Hj. cbn [nfftshift nel nsh shift_all]. rewrite <- spectrum_fp by assumption. unfold target_fp, fftshift2, ifftshift2.
  apply fft2_ext.
  intros u v Hu Hv. rewrite shift_valid by (apply clip_valid; assumption). apply V; try assumption; apply ishift_idx_lt; lia.
Qed.
End Stack.
