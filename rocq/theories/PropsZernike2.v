(** C64, C65: size and symmetry of the Zernike profiles. *)
From Coq Require Import Reals Lra ZArith Arith List Bool Lia.
From Coquelicot Require Import Complex.
From Verif Require Import Cx Sums PyBase ProfileModel ProfSpec ZernSpec ZernThms ZernBound ZernBound2.
Open Scope R_scope.

(** ** C64 *)
Theorem C64_bounded : forall h a radius n m nz e h1 p x y v, zvalid n m -> 0 < radius -> zernike_new h a radius n m nz e = Ok (h1, p) ->
  gives h1 p x y (RtoC v) false -> (e = false \/ x ^ 2 + y ^ 2 <= radius ^ 2) -> Rabs v <= Rabs a * znorm n m nz.
Proof. exact zern_bounded. Qed.
Print Assumptions C64_bounded.
Theorem C64_attained : forall h a radius n m nz e h1 p, zvalid n m -> 0 < radius -> zernike_new h a radius n m nz e = Ok (h1, p) ->
  exists x y v, x ^ 2 + y ^ 2 = radius ^ 2 /\ gives h1 p x y (RtoC v) false /\ v = a * znorm n m nz.
Proof. exact zern_attained. Qed.
Print Assumptions C64_attained.
Example C64_case : zvalid 5 (-3) /\ (exists h1 p, zernike_new heap0 2 10 5 (-3) false false = Ok (h1, p)) /\ Rabs 2 * znorm 5 (-3) false = 2 /\
  radial 4 0 (1 / 2) = - (1 / 8).
Proof.
  split; [split; [lia|reflexivity]|]. split; [do 2 eexists; reflexivity|]. split; [cbn; rewrite Rabs_right by lra; ring|].
  unfold radial. cbn. field.
Qed.

(** ** C65 *)
Theorem C65_rotate_turns_clockwise : forall h p theta r phi z k,
  gives h (p_rotate p theta) (r * cos (phi - theta)) (r * sin (phi - theta)) z k <-> gives h p (r * cos phi) (r * sin phi) z k.
Proof. exact rotate_clockwise. Qed.
Print Assumptions C65_rotate_turns_clockwise.
Theorem C65_rotation_mixes_partners : forall h g a radius n m nz e h1 p g1 q theta x y u w, zvalid n m -> (0 < m)%Z -> 0 < radius ->
  zernike_new h a radius n m nz e = Ok (h1, p) -> zernike_new g a radius n (- m) nz e = Ok (g1, q) ->
  gives h1 p x y (RtoC u) false -> gives g1 q x y (RtoC w) false ->
  gives h1 (p_rotate p theta) x y (RtoC (cos (IZR m * theta) * u - sin (IZR m * theta) * w)) false /\
  gives g1 (p_rotate q theta) x y (RtoC (cos (IZR m * theta) * w + sin (IZR m * theta) * u)) false.
Proof. exact zern_rotation. Qed.
Print Assumptions C65_rotation_mixes_partners.
Theorem C65_rotation_keeps_m0 : forall h a radius n nz e h1 p theta x y z k, zvalid n 0 -> 0 < radius -> zernike_new h a radius n 0 nz e = Ok (h1, p) ->
  gives h1 p x y z k -> gives h1 (p_rotate p theta) x y z k.
Proof. exact zern_rotation_0. Qed.
Print Assumptions C65_rotation_keeps_m0.
Theorem C65_parity : forall h a radius n m nz e h1 p x y u, zvalid n m -> 0 < radius -> zernike_new h a radius n m nz e = Ok (h1, p) ->
  gives h1 p x y (RtoC u) false -> gives h1 p (- x) (- y) (RtoC ((-1) ^ (Z.to_nat n) * u)) false.
Proof. exact zern_parity. Qed.
Print Assumptions C65_parity.
Example C65_case : zvalid 3 1 /\ exists h1 p g1 q u w, zernike_new heap0 2 10 3 1 false false = Ok (h1, p) /\ zernike_new heap0 2 10 3 (- (1)) false false = Ok (g1, q) /\
  gives h1 p 10 0 (RtoC u) false /\ gives g1 q 10 0 (RtoC w) false /\ u = 2 * angular 1 0 /\ angular 1 0 = 1.
Proof.
  split; [split; [lia|reflexivity]|]. do 6 eexists. split; [reflexivity|]. split; [reflexivity|].
  assert (V1 : zvalid 3 1) by (split; [lia|reflexivity]). assert (V2 : zvalid 3 (- (1))) by (split; [lia|reflexivity]).
  pose proof (zern_rim heap0 2 10 3 1 false _ _ 0 V1 ltac:(lra) eq_refl) as G1.
  pose proof (zern_rim heap0 2 10 3 (- (1)) false _ _ 0 V2 ltac:(lra) eq_refl) as G2.
  rewrite cos_0, sin_0, Rmult_1_r, Rmult_0_r in G1, G2.
  split; [exact G1|]. split; [exact G2|]. split; [reflexivity|]. unfold angular. cbn [Z.leb Z.compare]. rewrite Rmult_0_r. apply cos_0.
Qed.
