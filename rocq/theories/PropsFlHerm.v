(** C162: rounding in Hermite-Gauss modes of any order. *)
From Coq Require Import Reals ZArith List Lia Lra.
From Verif Require Import ProfileModel ModeSpec FloatModel FloatSpec FlSimSpec WideSpec FlAnaModel FlZernModel FlHermModel FlHermSpec FlHermThms.
Import ListNotations.
Open Scope R_scope.

(** The computed value against the mode with the stored parameters, in any arithmetic. *)
Theorem C162_value : forall u eta B l f_exp ee s2 hn hm n m x0 y0 Am w x y X Y,
  arithmetic u eta B (z_rnd l) -> 0 <= u <= 1 / 1000 -> 0 <= eta <= u -> accurate_exp f_exp ee eta -> 0 <= ee -> near (4 * u) 0 (sqrt 2) s2 -> stored_hermite u n hn -> stored_hermite u m hm ->
  let x0' := z_rnd l x0 in let y0' := z_rnd l y0 in let A' := z_rnd l Am in let w' := z_rnd l w in
  0 < w' -> eta <= u * w' -> eta <= u * Rabs A' -> 1 <= X -> 1 <= Y -> Rabs ((x - x0') / w') <= X -> Rabs ((y - y0') / w') <= Y -> herm_error u ee n m X Y <= 1 / 2 ->
  let M := Rabs A' * hermite_size n (sqrt 2 * X) * hermite_size m (sqrt 2 * Y) in
  Rabs (fl_hermite l f_exp s2 hn hm x0 y0 Am w x y - hg_mode x0' y0' A' w' n m x y) <=
    2 * herm_error u ee n m X Y * (M * exp (- ((x - x0') ^ 2 + (y - y0') ^ 2) / w' ^ 2)) + (2 * M + 1) * eta.
Proof. exact hermite_value. Qed.
Print Assumptions C162_value.
(** In double precision, up to 20 beam widths from the centre and for n + m up to 20. *)
Theorem C162_double : forall l f_exp n m x0 y0 Am w x y, z_rnd l = binary64 -> accurate_exp f_exp (/ 2 ^ 52) (/ 2 ^ 1075) -> (n + m <= 20)%nat ->
  let x0' := binary64 x0 in let y0' := binary64 y0 in let A' := binary64 Am in let w' := binary64 w in
  / 2 ^ 1022 <= w' -> / 2 ^ 1022 <= Rabs A' -> Rabs ((x - x0') / w') <= 20 -> Rabs ((y - y0') / w') <= 20 ->
  let M := Rabs A' * hermite_size n (sqrt 2 * 20) * hermite_size m (sqrt 2 * 20) in
  Rabs (fl_hermite l f_exp (binary64 (sqrt 2)) (hermite_coef n) (hermite_coef m) x0 y0 Am w x y - hg_mode x0' y0' A' w' n m x y) <= M * exp (- ((x - x0') ^ 2 + (y - y0') ^ 2) / w' ^ 2) / 2 ^ 37 + (2 * M + 1) / 2 ^ 1075.
Proof. exact hermite_double. Qed.
Print Assumptions C162_double.
(** Without rounding the formula is the mode. *)
Theorem C162_no_rounding : forall l n m x0 y0 Am w x y, (forall t, z_rnd l t = t) -> 0 < w -> fl_hermite l exp (sqrt 2) (hermite_coef n) (hermite_coef m) x0 y0 Am w x y = hg_mode x0 y0 Am w n m x y.
Proof. exact no_rounding. Qed.
Print Assumptions C162_no_rounding.

(** A correctly rounded exponential, unit amplitude and width, a point three beam widths from the centre. *)
Example C162_case : accurate_exp (fun t => binary64 (exp t)) (/ 2 ^ 52) (/ 2 ^ 1075) /\ / 2 ^ 1022 <= binary64 1 /\ / 2 ^ 1022 <= Rabs (binary64 1) /\ Rabs ((3 - binary64 0) / binary64 1) <= 20.
Proof. exact exp_case. Qed.
(** The size of a polynomial is of the order of its values. *)
Example C162_size : hermite_size 1 (sqrt 2 * 20) = 2 * (sqrt 2 * 20) /\ hermite_size 2 3 = 38 /\ hermite 2 3 = 34.
Proof. exact size_case. Qed.
