(** C163: rounding in super-Gaussian profiles. *)
From Coq Require Import Reals ZArith List Lia Lra.
From Verif Require Import ProfileModel ModeSpec ModeThms FloatModel FloatSpec FlSimSpec WideSpec FlAnaModel FlZernModel FlSupModel FlSupSpec FlSupThms FlSupFacts2 FlSupFacts3 FlSupFar FlSupSing.
Open Scope R_scope.

(** The computed value against the profile with the stored parameters, in any arithmetic, for powers of at least 1. *)
Theorem C163_value : forall u eta B l f_exp f_pow ee vp x0 y0 Am w p x y X Y,
  arithmetic u eta B (z_rnd l) -> 0 <= u <= 1 / 1000 -> 0 <= eta <= u -> accurate_exp f_exp ee eta -> 0 <= ee -> accurate_pow f_pow vp eta -> 0 <= vp ->
  let x0' := z_rnd l x0 in let y0' := z_rnd l y0 in let A' := z_rnd l Am in let w' := z_rnd l w in let p' := z_rnd l p in
  0 < w' -> eta <= u * w' -> 1 <= p' -> 56 * u * p' <= 1 -> 1 <= X -> 1 <= Y -> Rabs ((x - x0') / w') <= X -> Rabs ((y - y0') / w') <= Y -> super_error u ee vp eta p' X Y <= 1 / 2 ->
  Rabs (fl_super l f_exp f_pow x0 y0 Am w p x y - sg_mode A' w' p' (dist2 x0' y0' x y)) <=
    2 * super_error u ee vp eta p' X Y * Rabs (sg_mode A' w' p' (dist2 x0' y0' x y)) + (2 * Rabs A' + 1) * eta.
Proof. exact super_value. Qed.
Print Assumptions C163_value.
(** In double precision, inside the square of one beam width around the centre and for powers up to 10. *)
Theorem C163_double : forall l f_exp f_pow x0 y0 Am w p x y, z_rnd l = binary64 -> accurate_exp f_exp (/ 2 ^ 52) (/ 2 ^ 1075) -> accurate_pow f_pow (/ 2 ^ 52) (/ 2 ^ 1075) ->
  let x0' := binary64 x0 in let y0' := binary64 y0 in let A' := binary64 Am in let w' := binary64 w in let p' := binary64 p in
  / 2 ^ 1022 <= w' -> 1 <= p' <= 10 -> Rabs ((x - x0') / w') <= 1 -> Rabs ((y - y0') / w') <= 1 ->
  Rabs (fl_super l f_exp f_pow x0 y0 Am w p x y - sg_mode A' w' p' (dist2 x0' y0' x y)) <= Rabs (sg_mode A' w' p' (dist2 x0' y0' x y)) / 2 ^ 32 + (2 * Rabs A' + 1) / 2 ^ 1075.
Proof. exact super_double. Qed.
Print Assumptions C163_double.
(** The same with a bound that depends on the exponent at the point only, without a limit on the distance. *)
Theorem C163_pointwise : forall u eta B l f_exp f_pow ee vp x0 y0 Am w p x y,
  arithmetic u eta B (z_rnd l) -> 0 < u <= 1 / 1000 -> 0 <= eta -> 2 * eta <= u -> accurate_exp f_exp ee eta -> 0 <= ee -> accurate_pow f_pow vp eta -> 0 <= vp <= 1 / 2 ->
  let x0' := z_rnd l x0 in let y0' := z_rnd l y0 in let A' := z_rnd l Am in let w' := z_rnd l w in let p' := z_rnd l p in
  0 < w' -> 4 * eta <= (u * w') ^ 2 -> 1 <= p' -> 32 * u * p' <= 1 -> let d := dist2 x0' y0' x y in let z := steep_error u ee vp eta p' (power (d ^ 2 / w' ^ 2) p') in z <= 1 / 2 ->
  Rabs (fl_super l f_exp f_pow x0 y0 Am w p x y - sg_mode A' w' p' d) <= 2 * z * Rabs (sg_mode A' w' p' d) + (2 * Rabs A' + 1) * eta.
Proof. exact super_steep. Qed.
Print Assumptions C163_pointwise.
(** In double precision, for powers from 1 to 100, wherever the exponent is at most 1024 (beyond, the profile is below 2^-1075 times the amplitude). *)
Theorem C163_plane_double : forall l f_exp f_pow x0 y0 Am w p x y, z_rnd l = binary64 -> accurate_exp f_exp (/ 2 ^ 52) (/ 2 ^ 1075) -> accurate_pow f_pow (/ 2 ^ 52) (/ 2 ^ 1075) ->
  let x0' := binary64 x0 in let y0' := binary64 y0 in let A' := binary64 Am in let w' := binary64 w in let p' := binary64 p in let d := dist2 x0' y0' x y in
  / 2 ^ 483 <= w' -> 1 <= p' <= 100 -> power (d ^ 2 / w' ^ 2) p' <= 1024 ->
  Rabs (fl_super l f_exp f_pow x0 y0 Am w p x y - sg_mode A' w' p' d) <= Rabs (sg_mode A' w' p' d) / 2 ^ 30 + (2 * Rabs A' + 1) / 2 ^ 1075.
Proof. exact steep_double. Qed.
Print Assumptions C163_plane_double.
(** Powers up to 1, in any arithmetic; the error depends on the exponent at the point. *)
Theorem C163_small_powers : forall u eta B l f_exp f_pow ee vp x0 y0 Am w p x y,
  arithmetic u eta B (z_rnd l) -> 0 < u <= 1 / 1000 -> 0 <= eta <= u -> accurate_exp f_exp ee eta -> 0 <= ee -> accurate_root f_pow vp eta -> 0 <= vp <= 1 / 2 ->
  let x0' := z_rnd l x0 in let y0' := z_rnd l y0 in let A' := z_rnd l Am in let w' := z_rnd l w in let p' := z_rnd l p in
  0 < w' -> 4 * eta <= (u * w') ^ 2 -> 0 < p' <= 1 -> let d := dist2 x0' y0' x y in let z := root_error u ee vp eta p' (power (d ^ 2 / w' ^ 2) p') in z <= 1 / 2 ->
  Rabs (fl_super l f_exp f_pow x0 y0 Am w p x y - sg_mode A' w' p' d) <= 2 * z * Rabs (sg_mode A' w' p' d) + (2 * Rabs A' + 1) * eta.
Proof. exact super_small. Qed.
Print Assumptions C163_small_powers.
(** In double precision, for powers from 1/16 to 1, where the exponent is at most 1024. *)
Theorem C163_small_double : forall l f_exp f_pow x0 y0 Am w p x y, z_rnd l = binary64 -> accurate_exp f_exp (/ 2 ^ 52) (/ 2 ^ 1075) -> accurate_root f_pow (/ 2 ^ 52) (/ 2 ^ 1075) ->
  let x0' := binary64 x0 in let y0' := binary64 y0 in let A' := binary64 Am in let w' := binary64 w in let p' := binary64 p in let d := dist2 x0' y0' x y in
  / 2 ^ 483 <= w' -> 1 / 16 <= p' <= 1 -> power (d ^ 2 / w' ^ 2) p' <= 1024 ->
  Rabs (fl_super l f_exp f_pow x0 y0 Am w p x y - sg_mode A' w' p' d) <= Rabs (sg_mode A' w' p' d) / 2 ^ 38 + (2 * Rabs A' + 1) / 2 ^ 1075.
Proof. exact small_double. Qed.
Print Assumptions C163_small_double.
(** In double precision, for powers from 1/16 to 100, at every point of the plane. *)
Theorem C163_everywhere_double : forall l f_exp f_pow x0 y0 Am w p x y, z_rnd l = binary64 -> accurate_exp f_exp (/ 2 ^ 52) (/ 2 ^ 1075) ->
  accurate_pow f_pow (/ 2 ^ 52) (/ 2 ^ 1075) -> accurate_root f_pow (/ 2 ^ 52) (/ 2 ^ 1075) ->
  let x0' := binary64 x0 in let y0' := binary64 y0 in let A' := binary64 Am in let w' := binary64 w in let p' := binary64 p in let d := dist2 x0' y0' x y in
  / 2 ^ 483 <= w' -> 1 / 16 <= p' <= 100 ->
  Rabs (fl_super l f_exp f_pow x0 y0 Am w p x y - sg_mode A' w' p' d) <= Rabs (sg_mode A' w' p' d) / 2 ^ 30 + (4 * Rabs A' + 1) / 2 ^ 1075.
Proof. exact everywhere. Qed.
Print Assumptions C163_everywhere_double.
(** In single precision, the default, for powers from 1 to 10 where the exponent is at most 16. *)
Theorem C163_single : forall l f_exp f_pow x0 y0 Am w p x y, z_rnd l = binary32 -> accurate_exp f_exp (/ 2 ^ 23) (/ 2 ^ 150) -> accurate_pow f_pow (/ 2 ^ 23) (/ 2 ^ 150) ->
  let x0' := binary32 x0 in let y0' := binary32 y0 in let A' := binary32 Am in let w' := binary32 w in let p' := binary32 p in let d := dist2 x0' y0' x y in
  / 2 ^ 50 <= w' -> 1 <= p' <= 10 -> power (d ^ 2 / w' ^ 2) p' <= 16 ->
  Rabs (fl_super l f_exp f_pow x0 y0 Am w p x y - sg_mode A' w' p' d) <= Rabs (sg_mode A' w' p' d) / 2 ^ 10 + (2 * Rabs A' + 1) / 2 ^ 150.
Proof. exact steep_single. Qed.
Print Assumptions C163_single.
(** In single precision, for powers from 1 to 10, at every point of the plane. *)
Theorem C163_everywhere_single : forall l f_exp f_pow x0 y0 Am w p x y, z_rnd l = binary32 -> accurate_exp f_exp (/ 2 ^ 23) (/ 2 ^ 150) -> accurate_pow f_pow (/ 2 ^ 23) (/ 2 ^ 150) ->
  let x0' := binary32 x0 in let y0' := binary32 y0 in let A' := binary32 Am in let w' := binary32 w in let p' := binary32 p in let d := dist2 x0' y0' x y in
  / 2 ^ 50 <= w' -> 1 <= p' <= 10 ->
  Rabs (fl_super l f_exp f_pow x0 y0 Am w p x y - sg_mode A' w' p' d) <= Rabs (sg_mode A' w' p' d) / 2 ^ 7 + (4 * Rabs A' + 1) / 2 ^ 150.
Proof. exact everywhere_single. Qed.
Print Assumptions C163_everywhere_single.
(** Without rounding the formula is the profile, for every power. *)
Theorem C163_no_rounding : forall l x0 y0 Am w p x y, (forall t, z_rnd l t = t) -> 0 < w -> fl_super l exp power x0 y0 Am w p x y = sg_mode Am w p (dist2 x0 y0 x y).
Proof. exact no_rounding. Qed.
Print Assumptions C163_no_rounding.
(** A correctly rounded power function. *)
Example C163_case : accurate_pow (fun s p => binary64 (power s p)) (/ 2 ^ 52) (/ 2 ^ 1075) /\ power 4 2 = 16 /\ power 0 2 = 0.
Proof. exact pow_case. Qed.

(** The same for exponents up to 1, and a value of the error. *)
Example C163_root_case : accurate_root (fun s p => binary64 (power s p)) (/ 2 ^ 52) (/ 2 ^ 1075) /\ power 4 (/ 2) = 2 /\ root_error (/ 1000) 0 0 0 (/ 2) 2 = / 50.
Proof. exact root_case. Qed.

(** The same in single precision; at twice the beam width the power 2 is still covered. *)
Example C163_single_case : accurate_pow (fun s p => binary32 (power s p)) (/ 2 ^ 23) (/ 2 ^ 150) /\ power (2 ^ 2 / 1 ^ 2) 2 <= 16.
Proof. exact single_case. Qed.
