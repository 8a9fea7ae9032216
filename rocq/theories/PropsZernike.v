(** C16-C18: Zernike profiles. *)
From Coq Require Import Reals Lra ZArith Arith List Bool Lia.
From Coquelicot Require Import Complex Coquelicot.
From Verif Require Import Cx Sums PyBase ProfileModel ProfSpec ProfFacts ProfFacts2 ModeThms ZernSpec ZernFacts ZernThms.
Import ListNotations.
Open Scope R_scope.

(** ** C16 *)
Theorem C16_zernike_value : forall h a radius n m (nz e : bool), zvalid n m -> 0 < radius ->
  exists h1 p, zernike_new h a radius n m nz e = Ok (h1, p) /\ keeps h h1 /\ lives h1 p /\
  forall r phi, 0 <= r -> gives h1 p (r * cos phi) (r * sin phi)
    (RtoC (if (e || if Rle_dec r radius then true else false)%bool then zmode a radius n m nz r phi else 0)) false.
Proof. exact zern_evaluates. Qed.
Print Assumptions C16_zernike_value.
Theorem C16_unit_on_the_rim : forall h a radius n m e h1 p phi, zvalid n m -> 0 < radius ->
  zernike_new h a radius n m false e = Ok (h1, p) -> gives h1 p (radius * cos phi) (radius * sin phi) (RtoC (a * angular m phi)) false.
Proof. exact zern_rim. Qed.
Print Assumptions C16_unit_on_the_rim.
Theorem C16_zero_outside : forall h a radius n m nz h1 p r phi, zvalid n m -> 0 < radius ->
  zernike_new h a radius n m nz false = Ok (h1, p) -> radius < r -> gives h1 p (r * cos phi) (r * sin phi) (RtoC 0) false.
Proof. exact zern_outside. Qed.
Print Assumptions C16_zero_outside.
(** The textbook polynomials of low order. *)
Example C16_case : forall x, radial 2 0 x = 2 * x ^ 2 - 1 /\ radial 3 1 x = 3 * x ^ 3 - 2 * x /\ radial 4 0 x = 6 * x ^ 4 - 6 * x ^ 2 + 1 /\ radial 3 3 x = x ^ 3.
Proof. intros x. unfold radial. cbn. repeat split; field. Qed.
Example C16_hypotheses : zvalid 5 (-3) /\ exists h1 p, zernike_new heap0 2 10 5 (-3) true false = Ok (h1, p).
Proof. split; [split; [lia|reflexivity]|]. do 2 eexists. reflexivity. Qed.

(** ** C17: the mean over the disc of the product of two normalised modes (radius^2 PI is the area). *)
Theorem C17_orthonormal : forall h1 h2 a b radius n m n' m' e e' h1' p h2' q (Z1 Z2 : R -> R -> R), zvalid n m -> zvalid n' m' -> 0 < radius ->
  zernike_new h1 a radius n m true e = Ok (h1', p) -> zernike_new h2 b radius n' m' true e' = Ok (h2', q) ->
  (forall x y, gives h1' p x y (RtoC (Z1 x y)) false) -> (forall x y, gives h2' q x y (RtoC (Z2 x y)) false) ->
  disc_integral (fun x y => Z1 x y * Z2 x y) radius (if ((n =? n') && (m =? m'))%Z then a * b * (PI * radius ^ 2) else 0).
Proof. exact zern_orthonormal. Qed.
Print Assumptions C17_orthonormal.
(** [disc_integral] is the area for F = 1, so the mean is meaningful. *)
Example C17_area : forall radius, 0 < radius -> disc_integral (fun _ _ => 1) radius (PI * radius ^ 2).
Proof. exact disc_area. Qed.
Example C17_hypotheses : zvalid 4 2 /\ zvalid 2 2 /\ exists (h1' h2' : heap) (p q : prof), zernike_new heap0 1 1 4 2 true false = Ok (h1', p) /\ zernike_new heap0 1 1 2 2 true true = Ok (h2', q) /\
  (exists Z1 : R -> R -> R, forall x y, gives h1' p x y (RtoC (Z1 x y)) false) /\ (exists Z2 : R -> R -> R, forall x y, gives h2' q x y (RtoC (Z2 x y)) false).
Proof. exact C17_case. Qed.

(** ** C18: as stated the property fails, because only m <= n is checked, not |m| <= n. *)
Theorem C18_rejects_invalid_refuted : ~ (forall h a radius n m nz e, ~ zvalid n m -> zernike_new h a radius n m nz e = Err ValueError).
Proof. exact zern_invalid_accepted. Qed.
Print Assumptions C18_rejects_invalid_refuted.
Theorem C18_rejects_large_m_and_odd : forall h a radius n m nz e, (n < m)%Z \/ Z.even (n - m) = false -> zernike_new h a radius n m nz e = Err ValueError.
Proof. exact zern_rejects. Qed.
Print Assumptions C18_rejects_large_m_and_odd.
Theorem C18_accepted_set : forall h a radius n m nz e,
  (exists r, zernike_new h a radius n m nz e = Ok r) <-> ((m <= n)%Z /\ Z.even (n - m) = true /\ (nz = true -> (-1 <= n)%Z)).
Proof. exact zern_accepts. Qed.
Print Assumptions C18_accepted_set.
Theorem C18_invalid_mode_is_zero : forall h a radius n m nz e h1 p, zernike_new h a radius n m nz e = Ok (h1, p) -> ~ zvalid n m -> radius <> 0 ->
  forall x y, gives h1 p x y (RtoC 0) false.
Proof. exact zern_invalid_zero. Qed.
Print Assumptions C18_invalid_mode_is_zero.
Example C18_case : ~ zvalid 1 (-3) /\ exists r, zernike_new heap0 1 1 1 (-3) true false = Ok r.
Proof. split; [intros [H _]; lia|]. eexists. reflexivity. Qed.
