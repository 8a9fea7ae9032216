(** C66-C67: overlap integrals and power of the beam modes. *)
From Coq Require Import Reals Lra ZArith Arith List Bool Lia.
From Coquelicot Require Import Complex Coquelicot.
From Verif Require Import Cx Sums PyBase ProfileModel ProfSpec ProfFacts ModeSpec ModeThms PlaneSpec ModeInt.
Open Scope R_scope.

(** ** C66 *)
Theorem C66_hermite_gaussian_overlap : forall h1 h2 x0 y0 a b w n m n' m' h1' P h2' Q (E1 E2 : R -> R -> R), w <> 0 ->
  hg_new h1 x0 y0 a w (Z.of_nat n) (Z.of_nat m) = Ok (h1', P) -> hg_new h2 x0 y0 b w (Z.of_nat n') (Z.of_nat m') = Ok (h2', Q) ->
  (forall x y, gives h1' P x y (RtoC (E1 x y)) false) -> (forall x y, gives h2' Q x y (RtoC (E2 x y)) false) ->
  plane_xy (fun x y => E1 x y * E2 x y)
    (if ((n =? n') && (m =? m'))%nat%bool then a * b * (PI * w ^ 2 / 2) * (2 ^ (n + m) * INR (fact n) * INR (fact m)) else 0).
Proof. exact hg_overlap. Qed.
Print Assumptions C66_hermite_gaussian_overlap.
Example C66_case : exists (h1' h2' : heap) (P Q : prof) (E1 E2 : R -> R -> R),
  hg_new heap0 1 2 3 (-4) (Z.of_nat 2) (Z.of_nat 1) = Ok (h1', P) /\ hg_new heap0 1 2 5 (-4) (Z.of_nat 2) (Z.of_nat 3) = Ok (h2', Q) /\
  (forall x y, gives h1' P x y (RtoC (E1 x y)) false) /\ (forall x y, gives h2' Q x y (RtoC (E2 x y)) false) /\ E1 2 3 <> 0.
Proof.
  destruct (hg_evaluates heap0 1 2 3 (-4) 2 1 ltac:(lra)) as (h1' & P & N1 & _ & _ & F1). destruct (hg_evaluates heap0 1 2 5 (-4) 2 3 ltac:(lra)) as (h2' & Q & N2 & _ & _ & F2).
  exists h1', h2', P, Q. do 2 eexists. split; [exact N1|]. split; [exact N2|]. split; [exact F1|]. split; [exact F2|]. unfold hg_mode.
  rewrite (proj1 (proj2 (proj2 (hermite_low_orders _)))), (proj1 (proj2 (hermite_low_orders _))). pose proof (exp_pos (- ((2 - 1) ^ 2 + (3 - 2) ^ 2) / (-4) ^ 2)) as He.
  assert (S2 : sqrt 2 * sqrt 2 = 2) by (apply sqrt_sqrt; lra). assert (S0 : 0 < sqrt 2) by (apply sqrt_lt_R0; lra).
  replace (4 * (sqrt 2 * (2 - 1) / -4) ^ 2 - 2) with ((sqrt 2 * sqrt 2) / 4 - 2) by field. rewrite S2.
  repeat apply Rmult_integral_contrapositive_currified; lra.
Qed.
(** Both kinds of plane integral give the same power for a Gaussian. *)
Example C66_integrals_agree : forall a w x0 y0, w <> 0 ->
  plane_xy (fun x y => hg_mode x0 y0 a w 0 0 x y ^ 2) (a ^ 2 * (PI * w ^ 2 / 2)) /\ plane_polar (fun x y => hg_mode x0 y0 a w 0 0 x y ^ 2) x0 y0 (a ^ 2 * (PI * w ^ 2 / 2)).
Proof. exact gaussian_both. Qed.

(** ** C67 *)
Theorem C67_laguerre_gaussian_overlap : forall h1 h2 x0 y0 a b w l l' p q h1' P h2' Q (E1 E2 : R -> R -> C), w <> 0 ->
  lg_new h1 x0 y0 a w l (Z.of_nat p) = Ok (h1', P) -> lg_new h2 x0 y0 b w l' (Z.of_nat q) = Ok (h2', Q) ->
  (forall x y, gives h1' P x y (E1 x y) true) -> (forall x y, gives h2' Q x y (E2 x y) true) ->
  plane_polar (fun x y => Re (E1 x y * cconj (E2 x y))%C) x0 y0
    (if ((l =? l')%Z && (p =? q)%nat)%bool then a * b * (PI * w ^ 2 / 2) * (INR (fact (p + Z.abs_nat l)) / INR (fact p)) else 0) /\
  plane_polar (fun x y => Im (E1 x y * cconj (E2 x y))%C) x0 y0 0.
Proof. exact lg_overlap. Qed.
Print Assumptions C67_laguerre_gaussian_overlap.
Example C67_case : exists (h1' h2' : heap) (P Q : prof) (E1 E2 : R -> R -> C),
  lg_new heap0 1 2 3 4 (-2) (Z.of_nat 1) = Ok (h1', P) /\ lg_new heap0 1 2 5 4 2 (Z.of_nat 1) = Ok (h2', Q) /\
  (forall x y, gives h1' P x y (E1 x y) true) /\ (forall x y, gives h2' Q x y (E2 x y) true).
Proof.
  destruct (lg_evaluates heap0 1 2 3 4 (-2) 1 ltac:(lra)) as (h1' & P & N1 & _ & _ & F1). destruct (lg_evaluates heap0 1 2 5 4 2 1 ltac:(lra)) as (h2' & Q & N2 & _ & _ & F2).
  exists h1', h2', P, Q, (fun x y => lg_mode 3 4 (-2) 1 (sqrt ((x - 1) ^ 2 + (y - 2) ^ 2)) (atan2 (y - 2) (x - 1))), (fun x y => lg_mode 5 4 2 1 (sqrt ((x - 1) ^ 2 + (y - 2) ^ 2)) (atan2 (y - 2) (x - 1))).
  split; [exact N1|]. split; [exact N2|].
  assert (X : forall x y, 1 + sqrt ((x - 1) ^ 2 + (y - 2) ^ 2) * cos (atan2 (y - 2) (x - 1)) = x /\ 2 + sqrt ((x - 1) ^ 2 + (y - 2) ^ 2) * sin (atan2 (y - 2) (x - 1)) = y) by (intros x y; rewrite atan2_cos, atan2_sin; split; ring).
  split; intros x y; destruct (X x y) as [Hx Hy]; [pose proof (F1 _ (atan2 (y - 2) (x - 1)) (sqrt_pos ((x - 1) ^ 2 + (y - 2) ^ 2))) as F|pose proof (F2 _ (atan2 (y - 2) (x - 1)) (sqrt_pos ((x - 1) ^ 2 + (y - 2) ^ 2))) as F]; rewrite Hx, Hy in F; exact F.
Qed.
