(** C27-C30: beam modes and windows. *)
From Coq Require Import Reals Lra ZArith Arith List Bool Lia.
From Coquelicot Require Import Complex Coquelicot.
From Verif Require Import Cx Sums PyBase ProfileModel ProfSpec ProfFacts ProfFacts2 ModeSpec ModeFacts ModeThms.
Import ListNotations.
Open Scope R_scope.

(** ** C27 *)
Theorem C27_hermite_gaussian : forall h x0 y0 a w n m, w <> 0 ->
  exists h1 p, hg_new h x0 y0 a w (Z.of_nat n) (Z.of_nat m) = Ok (h1, p) /\ keeps h h1 /\ lives h1 p /\
  forall x y, gives h1 p x y (RtoC (hg_mode x0 y0 a w n m x y)) false.
Proof. exact hg_evaluates. Qed.
Print Assumptions C27_hermite_gaussian.
Theorem C27_rejects_negative_orders : forall h x0 y0 a w n m, ((n < 0)%Z \/ (m < 0)%Z) -> hg_new h x0 y0 a w n m = Err ValueError.
Proof. exact hg_rejects. Qed.
Print Assumptions C27_rejects_negative_orders.
Theorem C27_parity : forall x0 y0 a w n m u v, w <> 0 ->
  hg_mode x0 y0 a w n m (x0 - u) (y0 + v) = (-1) ^ n * hg_mode x0 y0 a w n m (x0 + u) (y0 + v) /\
  hg_mode x0 y0 a w n m (x0 + u) (y0 - v) = (-1) ^ m * hg_mode x0 y0 a w n m (x0 + u) (y0 + v).
Proof. exact hg_parity. Qed.
Print Assumptions C27_parity.
(** The specification is not degenerate: explicit polynomials of low order. *)
Example C27_case : forall x, hermite 0 x = 1 /\ hermite 1 x = 2 * x /\ hermite 2 x = 4 * x ^ 2 - 2 /\ hermite 3 x = 8 * x ^ 3 - 12 * x.
Proof. exact hermite_low_orders. Qed.

(** ** C28 *)
Theorem C28_laguerre_gaussian : forall h x0 y0 a w l p, w <> 0 ->
  exists h1 q, lg_new h x0 y0 a w l (Z.of_nat p) = Ok (h1, q) /\ keeps h h1 /\ lives h1 q /\
  forall r phi, 0 <= r -> gives h1 q (x0 + r * cos phi) (y0 + r * sin phi) (lg_mode a w l p r phi) true.
Proof. exact lg_evaluates. Qed.
Print Assumptions C28_laguerre_gaussian.
Theorem C28_rejects_negative_p : forall h x0 y0 a w l p, (p < 0)%Z -> lg_new h x0 y0 a w l p = Err ValueError.
Proof. exact lg_rejects. Qed.
Print Assumptions C28_rejects_negative_p.
Theorem C28_rotation_multiplies_by_phase : forall h a w l p h1 q t x y, lg_new h 0 0 a w l (Z.of_nat p) = Ok (h1, q) -> w <> 0 ->
  exists z, gives h1 q x y z true /\ gives h1 (p_rotate q t) x y (z * cis (- IZR l * t))%C true.
Proof. exact lg_rotate. Qed.
Print Assumptions C28_rotation_multiplies_by_phase.
Theorem C28_intensity_depends_on_r : forall a w l p r phi phi', Cmod (lg_mode a w l p r phi) = Cmod (lg_mode a w l p r phi').
Proof. exact lg_modulus. Qed.
Print Assumptions C28_intensity_depends_on_r.
Theorem C28_gaussian : forall a w r phi x0 y0, 0 <= r -> w <> 0 ->
  lg_mode a w 0 0 r phi = RtoC (hg_mode x0 y0 a w 0 0 (x0 + r * cos phi) (y0 + r * sin phi)).
Proof. exact lg_gaussian. Qed.
Print Assumptions C28_gaussian.
Theorem C28_first_order : forall (s : bool) a w r phi x0 y0, 0 <= r -> w <> 0 -> let l := if s then 1%Z else (-1)%Z in
  lg_mode a w l 0 r phi = ((RtoC (hg_mode x0 y0 a w 1 0 (x0 + r * cos phi) (y0 + r * sin phi)) -
    RtoC (IZR l) * Ci * RtoC (hg_mode x0 y0 a w 0 1 (x0 + r * cos phi) (y0 + r * sin phi))) / RtoC 2)%C.
Proof. exact lg_first. Qed.
Print Assumptions C28_first_order.
Theorem C28_centre : forall a w l p phi, w <> 0 -> a <> 0 ->
  (l = 0%Z -> lg_mode a w l p 0 phi = RtoC a) /\ (l <> 0%Z -> lg_mode a w l p 0 phi = RtoC 0).
Proof. exact lg_centre. Qed.
Print Assumptions C28_centre.
Example C28_case : forall al x, laguerre 1 al x = 1 + al - x /\ laguerre 2 al x = x ^ 2 / 2 - (al + 2) * x + (al + 2) * (al + 1) / 2.
Proof. intros al x. unfold laguerre. cbn. split; [ring|field]. Qed.
Example C28_rotation_case : exists h1 q, lg_new heap0 0 0 1 2 (-3) (Z.of_nat 2) = Ok (h1, q).
Proof. do 2 eexists. reflexivity. Qed.

(** ** C29 *)
Theorem C29_super_gaussian : forall h x0 y0 a w p, w <> 0 -> 0 < p ->
  exists h1 q, sg_new h x0 y0 a w p = (h1, q) /\ keeps h h1 /\ lives h1 q /\
  forall x y, gives h1 q x y (RtoC (sg_mode a w p (dist2 x0 y0 x y))) false.
Proof. exact sg_evaluates. Qed.
Print Assumptions C29_super_gaussian.
Theorem C29_peak : forall a w p, sg_mode a w p 0 = a.
Proof. exact sg_peak. Qed.
Print Assumptions C29_peak.
Theorem C29_width : forall a w p, w <> 0 -> sg_mode a w p (Rabs w) = a * exp (-1).
Proof. exact sg_width. Qed.
Print Assumptions C29_width.
Theorem C29_bounded : forall a w p d, Rabs (sg_mode a w p d) <= Rabs a.
Proof. exact sg_bound. Qed.
Print Assumptions C29_bounded.
Theorem C29_decreasing : forall a w p d d', w <> 0 -> 0 < p -> 0 <= d < d' -> a <> 0 ->
  0 < sg_mode a w p d' / a < sg_mode a w p d / a /\ sg_mode a w p d / a <= 1.
Proof. exact sg_decreasing. Qed.
Print Assumptions C29_decreasing.
Theorem C29_gaussian : forall a w x0 y0 x y, w <> 0 -> sg_mode a w 1 (dist2 x0 y0 x y) = hg_mode x0 y0 a w 0 0 x y.
Proof. exact sg_gaussian. Qed.
Print Assumptions C29_gaussian.
Example C29_case : (2 <> 0 /\ 0 < 3 /\ 0 <= 1 < 2) /\ dist2 0 0 3 4 = 5.
Proof. split; [lra|]. unfold dist2. replace ((3 - 0) ^ 2 + (4 - 0) ^ 2) with (5 ^ 2) by ring. apply sqrt_pow2. lra. Qed.

(** ** C30 *)
Theorem C30_rectangle : forall h x0 y0 wx wy, exists h1 p, rect_new h x0 y0 wx wy = (h1, p) /\ keeps h h1 /\ lives h1 p /\
  indicates h1 p (fun x y => Rabs (x - x0) < wx / 2 /\ Rabs (y - y0) < wy / 2).
Proof. exact rect_indicates. Qed.
Print Assumptions C30_rectangle.
Theorem C30_disc : forall h x0 y0 r, 0 <= r -> exists h1 p, circ_new h x0 y0 r = (h1, p) /\ keeps h h1 /\ lives h1 p /\
  indicates h1 p (fun x y => dist2 x0 y0 x y <= r).
Proof. exact circ_indicates. Qed.
Print Assumptions C30_disc.
Theorem C30_product_is_intersection : forall h p q A B, indicates h p A -> indicates h q B -> (forall x y, A x y \/ ~ A x y) -> (forall x y, B x y \/ ~ B x y) ->
  exists r, p_binop Omul h p (OProf q) = (h, Ok r) /\ indicates h r (fun x y => A x y /\ B x y).
Proof. exact indicates_inter. Qed.
Print Assumptions C30_product_is_intersection.
Theorem C30_square : forall h p A, indicates h p A -> (forall x y, A x y \/ ~ A x y) -> exists r, p_binop Omul h p (OProf p) = (h, Ok r) /\ same_value h r h p.
Proof. exact indicates_square. Qed.
Print Assumptions C30_square.
Example C30_case : exists h p, circ_new heap0 0 0 5 = (h, p) /\ indicates h p (fun x y => dist2 0 0 x y <= 5) /\ (forall x y, dist2 0 0 x y <= 5 \/ ~ dist2 0 0 x y <= 5).
Proof.
  destruct (circ_indicates heap0 0 0 5) as [h [p [E [_ [_ I]]]]]; [lra|]. exists h, p. split; [exact E|]. split; [exact I|]. intros x y. destruct (Rle_dec (dist2 0 0 x y) 5); [left|right]; assumption.
Qed.
