(** C164: rounding in Laguerre-Gauss modes. *)
From Coq Require Import Reals ZArith List Lia Lra.
From Coquelicot Require Import Complex.
From Verif Require Import Cx ProfileModel ModeSpec FloatModel FloatSpec FlSimSpec WideSpec FlAnaModel FlZernModel FlZernSpec FlZernThms FlLagModel FlLagSpec FlLagThms.
Open Scope R_scope.

(** The computed value against the mode with the stored parameters, in any arithmetic. The mode is taken at the rounded differences between the point and
    the stored centre, r and phi being their polar coordinates. *)
Theorem C164_value : forall u eta B l f_exp ee f_pow vp kp ea ec s2 h q p x0 y0 Am w x y r phi Q,
  arithmetic u eta B (z_rnd l) -> 0 <= u <= 1 / 1000 -> 0 <= eta <= u -> accurate_exp f_exp ee eta -> 0 <= ee -> accurate_ipow f_pow vp eta -> 0 <= vp <= 4 * u * INR kp -> accurate_zlib l ea ec -> 0 <= ea -> 0 <= ec ->
  near (4 * u) 0 (sqrt 2) s2 -> stored_laguerre u p (Z.abs_nat q) h -> (Z.abs q <= B)%Z -> eta <= u / INR (fact p) ->
  let A' := z_rnd l Am in let w' := z_rnd l w in
  0 < w' -> eta <= u * w' -> 4 * eta <= (u * w') ^ 2 -> eta <= u * Rabs A' -> 1 <= Q -> 0 <= r <= Q * w' -> z_rnd l (x - z_rnd l x0) = r * cos phi -> z_rnd l (y - z_rnd l y0) = r * sin phi ->
  let z := lag_error u ee kp (Z.abs_nat q) p Q in z <= 1 / 2 ->
  let N := laguerre p (INR (Z.abs_nat q)) (- (2 * Q ^ 2)) in let M := Rabs A' * (sqrt 2 * Q) ^ Z.abs_nat q * N in let E := exp (- r ^ 2 / w' ^ 2) in
  let e := component_error u eta (M * E) (amplitude_error z eta M N E) (angular_error u eta ea ec q) in
  let v := fl_laguerre l f_exp f_pow s2 h x0 y0 Am w q x y in let v' := lg_mode A' w' q p r phi in
  Rabs (fst v - fst v') <= e /\ Rabs (snd v - snd v') <= e.
Proof. exact laguerre_value. Qed.
Print Assumptions C164_value.
(** In double precision, up to 20 beam widths from the centre and for |l| + p up to 20. *)
Theorem C164_double : forall l f_exp f_pow h q p x0 y0 Am w x y r phi,
  z_rnd l = binary64 -> accurate_exp f_exp (/ 2 ^ 52) (/ 2 ^ 1075) -> accurate_ipow f_pow (/ 2 ^ 52) (/ 2 ^ 1075) -> accurate_zlib l (/ 2 ^ 50) (/ 2 ^ 50) -> stored_laguerre (/ 2 ^ 53) p (Z.abs_nat q) h -> (Z.abs_nat q + p <= 20)%nat ->
  let A' := binary64 Am in let w' := binary64 w in / 2 ^ 480 <= w' -> / 2 ^ 1022 <= Rabs A' ->
  binary64 (x - binary64 x0) = r * cos phi -> binary64 (y - binary64 y0) = r * sin phi -> 0 <= r <= 20 * w' ->
  let N := laguerre p (INR (Z.abs_nat q)) (- (2 * 20 ^ 2)) in let M := Rabs A' * (sqrt 2 * 20) ^ Z.abs_nat q * N in
  let e := M * exp (- r ^ 2 / w' ^ 2) / 2 ^ 37 + 3 * (M + N + 1) / 2 ^ 1075 in
  let v := fl_laguerre l f_exp f_pow (binary64 (sqrt 2)) h x0 y0 Am w q x y in let v' := lg_mode A' w' q p r phi in
  Rabs (fst v - fst v') <= e /\ Rabs (snd v - snd v') <= e.
Proof. exact laguerre_double. Qed.
Print Assumptions C164_double.
(** Without rounding the formula is the mode. *)
Theorem C164_no_rounding : forall l q p x0 y0 Am w r phi, (forall t, z_rnd l t = t) -> (forall y x, z_atan2 l y x = atan2 y x) -> (forall t, z_cos l t = cos t) -> (forall t, z_sin l t = sin t) -> 0 < w -> 0 <= r ->
  fl_laguerre l exp pow (sqrt 2) (laguerre_coef p (Z.abs_nat q)) x0 y0 Am w q (x0 + r * cos phi) (y0 + r * sin phi) = lg_mode Am w q p r phi.
Proof. exact no_rounding. Qed.
Print Assumptions C164_no_rounding.

(** A correctly rounded power function, a double-precision library, and a point 5 beam widths from the centre. *)
Example C164_case : accurate_ipow (fun s k => binary64 (s ^ k)) (/ 2 ^ 52) (/ 2 ^ 1075) /\ accurate_zlib rounded_lib (/ 2 ^ 50) (/ 2 ^ 50) /\ stored_laguerre (/ 2 ^ 53) 2 1 (laguerre_coef 2 1) /\ / 2 ^ 480 <= binary64 1 /\ / 2 ^ 1022 <= Rabs (binary64 1) /\
  binary64 (5 - binary64 0) = 5 * cos 0 /\ binary64 (0 - binary64 0) = 5 * sin 0 /\ 0 <= 5 <= 20 * binary64 1.
Proof. exact lag_case. Qed.
(** The size of a polynomial is of the order of its values. *)
Example C164_size : laguerre 0 1 (-8) = 1 /\ laguerre 1 1 (-8) = 10 /\ laguerre 1 1 8 = -6.
Proof. exact lag_size. Qed.
