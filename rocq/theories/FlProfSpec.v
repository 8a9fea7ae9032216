(** Error bounds for expressions of profiles. *)
From Coq Require Import Reals ZArith List.
From Verif Require Import Cx PyBase ProfileModel FlZernModel FlZernSpec FlProfModel.
Open Scope R_scope.

(** For points with |x| <= X, |y| <= Y and coordinates off by at most dx and dy, the value of p lies between m and M in absolute value and the computed one is
    off by at most e. *)
Definition accurate (l : zlib) (f_pow : R -> R -> option R) (basic : prof -> R -> R -> R) (h : heap) (p : prof) (X Y dx dy m M e : R) : Prop := forall x y x' y',
  Rabs x <= X -> Rabs y <= Y -> Rabs (x' - x) <= dx -> Rabs (y' - y) <= dy ->
  exists v v', func h p x y = Ok (VR v) /\ fl_func l f_pow basic h p x' y' = Some v' /\ m <= Rabs v <= M /\ Rabs (v' - v) <= e.
(** The classes that evaluate a formula of their own. *)
Definition elementary (p : prof) : Prop := match p with PHG _ _ _ _ _ _ | PSG _ _ _ _ _ | PZern _ _ _ _ _ _ _ | PRect _ _ _ _ | PCirc _ _ _ => True | _ => False end.

(** tf.pow with an integer exponent: relative error v, absolute error o (underflow). *)
Definition accurate_power (f : R -> R -> option R) (v o : R) : Prop := forall s n, exists q, f s (INR n) = Some q /\ Rabs (q - s ^ n) <= v * Rabs s ^ n + o.

(** Error of a coordinate after a rotation: g is the error of the cosine and of the sine. *)
Definition turn_error (u eta g X Y dx dy : R) : R := rounded u eta (X + Y) (rounded u eta X (g * (X + dx) + dx) + rounded u eta Y (g * (Y + dy) + dy)).
(** Error of a coordinate after a shift by d, and after a division by m. *)
Definition shift_error (u eta X dx d : R) : R := rounded u eta (X + Rabs d) (dx + (u * Rabs d + eta)).
Definition scale_error (u eta X dx m : R) : R := rounded u eta (X / Rabs m) ((2 * dx + 4 * u * X) / Rabs m).

(** Propagation of the bounds through an expression. ec is the error of tf.cos and tf.sin, vp that of tf.pow. *)
Inductive bounds (u eta ec vp : R) (l : zlib) (f_pow : R -> R -> option R) (basic : prof -> R -> R -> R) (h : heap) : prof -> R -> R -> R -> R -> R -> R -> R -> Prop :=
| b_basic p X Y dx dy m M e : elementary p -> 0 <= m -> accurate l f_pow basic h p X Y dx dy m M e -> bounds u eta ec vp l f_pow basic h p X Y dx dy m M e
| b_const c r X Y dx dy : h_val h c = VR r -> bounds u eta ec vp l f_pow basic h (PConst c) X Y dx dy (Rabs r) (Rabs r) (u * Rabs r + eta)
| b_sum o p q X Y dx dy m M e n N f : o = Oadd \/ o = Oradd \/ o = Osub -> bounds u eta ec vp l f_pow basic h p X Y dx dy m M e -> bounds u eta ec vp l f_pow basic h q X Y dx dy n N f ->
    bounds u eta ec vp l f_pow basic h (PBin o p q) X Y dx dy 0 (M + N) (rounded u eta (M + N) (e + f))
| b_product o p q X Y dx dy m M e n N f : o = Omul \/ o = Ormul -> bounds u eta ec vp l f_pow basic h p X Y dx dy m M e -> bounds u eta ec vp l f_pow basic h q X Y dx dy n N f ->
    bounds u eta ec vp l f_pow basic h (PBin o p q) X Y dx dy (m * n) (M * N) (rounded u eta (M * N) (e * N + M * f + e * f))
| b_quotient p q X Y dx dy m M e n N f : f < n -> 0 < N -> bounds u eta ec vp l f_pow basic h p X Y dx dy m M e -> bounds u eta ec vp l f_pow basic h q X Y dx dy n N f ->
    bounds u eta ec vp l f_pow basic h (PBin Odiv p q) X Y dx dy (m / N) (M / n) (rounded u eta (M / n) ((e + M * f / n) / (n - f)))
| b_power k p X Y dx dy m M e : bounds u eta ec vp l f_pow basic h p X Y dx dy m M e -> z_rnd l (INR k) = INR k ->
    bounds u eta ec vp l f_pow basic h (PPowR p (INR k)) X Y dx dy (m ^ k) (M ^ k) (vp * (M + e) ^ k + eta + ((M + e) ^ k - M ^ k))
| b_rotate th p X Y dx dy m M e : let g := ec + (u * Rabs th + eta) in bounds u eta ec vp l f_pow basic h p (X + Y) (X + Y) (turn_error u eta g X Y dx dy) (turn_error u eta g X Y dx dy) m M e ->
    bounds u eta ec vp l f_pow basic h (PRot th p) X Y dx dy m M e
| b_shift a b p X Y dx dy m M e : bounds u eta ec vp l f_pow basic h p (X + Rabs a) (Y + Rabs b) (shift_error u eta X dx a) (shift_error u eta Y dy b) m M e -> bounds u eta ec vp l f_pow basic h (PShift a b p) X Y dx dy m M e
| b_scale_x k p X Y dx dy m M e : k <> 0 -> eta <= u * Rabs k -> bounds u eta ec vp l f_pow basic h p (X / Rabs k) Y (scale_error u eta X dx k) dy m M e -> bounds u eta ec vp l f_pow basic h (PScaleX k p) X Y dx dy m M e
| b_scale_y k p X Y dx dy m M e : k <> 0 -> eta <= u * Rabs k -> bounds u eta ec vp l f_pow basic h p X (Y / Rabs k) dx (scale_error u eta Y dy k) m M e -> bounds u eta ec vp l f_pow basic h (PScaleY k p) X Y dx dy m M e.
