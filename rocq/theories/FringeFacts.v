(** Support for C80. *)
From Coq Require Import Reals Lra ZArith Arith List Bool Lia.
From Coquelicot Require Import Hierarchy RInt Complex.
From Verif Require Import Cx Sums DFT PyBase ProfileModel SlmModel LibModel DmdModel DmdSpec DmdFacts DmdFacts2 RandomFacts.
Open Scope R_scope.

(** A thresholded mirror is a function of the carrier phase alone, whose first Fourier coefficient is explicit. *)
Lemma threshold_mirrors A : 0 <= A -> exists on : R -> bool,
  (forall h d amp pin pout B Pi Po kw u i j, reads h (d_slm d) amp B -> reads h (d_slm d) pin Pi -> reads h (d_slm d) pout Po -> d_p d <> 0 ->
     in_array d i j -> B i j = A ->
     cell_at (d_state (fst (set_dmd_grating_state h d amp pin pout MSimple kw u))) i j = CBool (on (carrier d i j - signed (d_neg d) (Po i j - Pi i j)))) /\
  is_RInt (fun t => (if on t then 1 else 0) * cos t) (- PI) PI (if Rle_dec A (1 / 2) then 0 else 2 * sqrt (2 * A - 1) / A).
Proof.
  intros HA. exists (fun t => if Rlt_dec (1 / 2) (A * (cos t / 2 + 1 / 2)) then true else false). split.
  - intros h d amp pin pout B Pi Po kw u i j HB HI HO Hp [Hi Hj] E.
    destruct (set_simple h d amp pin pout B Pi Po HB HI HO Hp kw u) as (d' & f & E' & -> & V). rewrite E'. cbn [fst with_state d_state cell_at].
    specialize (V i j Hi Hj). rewrite E in V. f_equal. destruct (Rlt_dec _ _) as [L|L].
    + apply V. exact L.
    + destruct (f i j); [|reflexivity]. exfalso. apply L, V. reflexivity.
  - eapply is_RInt_ext; [|exact (threshold_harmonic A HA)]. intros t _. cbv beta. destruct (Rlt_dec (1 / 2) (A * (cos t / 2 + 1 / 2))); reflexivity.
Qed.
