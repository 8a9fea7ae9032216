(** C114: the thresholds of IFTA rise to one half, also after rounding. *)
From Coq Require Import Reals Lra ZArith Arith List Bool Lia.
From Verif Require Import PyBase LibModel FloatModel FloatSpec ThreshModel ThreshFacts.
Open Scope R_scope.

(** ** C114 *)
Theorem C114_thresholds_rise : forall a u N,
  (a = double /\ u = / 2 ^ 53) \/ (a = single /\ u = / 2 ^ 24) -> (1 <= N)%nat -> (Z.of_nat N <= 2 ^ 20)%Z ->
  (forall i, (i < N)%nat -> 0 < fl_threshold a N i <= 1 / 2 /\
     Rabs (fl_threshold a N i - (INR i + 1) / (2 * INR N)) <= (2 * u + u ^ 2) * ((INR i + 1) / (2 * INR N))) /\
  (forall i j, (i < j)%nat -> (j < N)%nat -> fl_threshold a N i < fl_threshold a N j) /\
  1 / 2 - u / 2 <= fl_threshold a N (N - 1).
Proof. exact thr_rise. Qed.
Print Assumptions C114_thresholds_rise.
Theorem C114_no_pixel_is_both : forall a u N,
  (a = double /\ u = / 2 ^ 53) \/ (a = single /\ u = / 2 ^ 24) -> (1 <= N)%nat -> (Z.of_nat N <= 2 ^ 20)%Z ->
  (forall i g, (i < N)%nat -> let t := fl_threshold a N i in exists top, t <= 1 / 2 <= top /\
     (g < t -> fl_binarize a t g = 0) /\ (t <= g <= top -> fl_binarize a t g = g) /\ (top < g -> fl_binarize a t g = 1)) /\
  (forall g, let b := fl_binarize a (fl_threshold a N (N - 1)) g in
     (b = 0 /\ g < 1 / 2) \/ (b = 1 /\ 1 / 2 < g) \/ (b = g /\ 1 / 2 - u / 2 <= g <= 1 / 2)).
Proof. exact thr_sorts. Qed.
Print Assumptions C114_no_pixel_is_both.
(** The default number of iterations ends exactly at one half; others need not. *)
Theorem C114_default_is_exact : fl_threshold double 200 199 = 1 / 2.
Proof. exact default_exact. Qed.
Print Assumptions C114_default_is_exact.
Theorem C114_not_always_exact : fl_threshold double 49 48 = 1 / 2 - / 2 ^ 54.
Proof. exact not_exact_49. Qed.
Print Assumptions C114_not_always_exact.
(** Without rounding these are the thresholds and the binarization of the exact model. *)
Theorem C114_no_rounding : forall N, (0 < N)%nat -> (forall j, fl_threshold exact N j = (INR j + 1) * (0.5 / IZR (Z.of_nat N))) /\
  (forall t g, ifta_binarize (Some g) t = Some (fl_binarize exact t g)).
Proof. exact thr_no_rounding. Qed.
Print Assumptions C114_no_rounding.
(** With 49 iterations in double precision a mirror at one half is left as it is, and would be switched by no iteration. *)
Example C114_case : fl_binarize double (fl_threshold double 49 48) (1 / 2 - / 2 ^ 54) = 1 / 2 - / 2 ^ 54 /\ fl_binarize double (fl_threshold double 200 199) (1 / 2 - / 2 ^ 54) = 0.
Proof.
  assert (P : 0 < / 2 ^ 54) by (apply Rinv_0_lt_compat, pow_lt; lra).
  destruct (C114_no_pixel_is_both double _ 49 (or_introl (conj eq_refl eq_refl)) ltac:(lia) ltac:(lia)) as [A _].
  destruct (C114_no_pixel_is_both double _ 200 (or_introl (conj eq_refl eq_refl)) ltac:(lia) ltac:(lia)) as [B _]. split.
  - destruct (A 48%nat (1 / 2 - / 2 ^ 54) ltac:(lia)) as (top & T & _ & K & _). apply K. rewrite C114_not_always_exact in *. lra.
  - destruct (B 199%nat (1 / 2 - / 2 ^ 54) ltac:(lia)) as (top & T & K & _). apply K. rewrite C114_default_is_exact. lra.
Qed.
