(** C165: rounding in expressions of profiles. *)
From Coq Require Import Reals ZArith List Lia Lra.
From Coquelicot Require Import Complex.
From Verif Require Import Cx PyBase ProfileModel FloatModel FloatSpec FlSimSpec WideSpec FlZernModel FlZernSpec FlZernThms FlHermModel FlHermSpec FlProfModel FlProfSpec FlProfThms FlProfGauss.
Import ListNotations.
Open Scope R_scope.

(** Calling an expression of real profiles: the bound propagated through the operators and transformations holds, in any arithmetic. *)
Theorem C165_call : forall u eta ec ea vp B l f_pow basic h, arithmetic u eta B (z_rnd l) -> 0 <= u <= 1 / 8 -> accurate_zlib l ea ec -> accurate_power f_pow vp eta -> 0 <= vp ->
  forall p X Y m M e x y, bounds u eta ec vp l f_pow basic h p X Y (u * X + eta) (u * Y + eta) m M e -> Rabs x <= X -> Rabs y <= Y ->
  exists v v', func h p x y = Ok (VR v) /\ fl_call l f_pow basic h p x y = Some v' /\ m <= Rabs v <= M /\ Rabs (v' - v) <= e.
Proof. exact call_close. Qed.
Print Assumptions C165_call.
(** Its complex form exp(1j * p). *)
Theorem C165_complex : forall u eta ec ea vp B l f_pow basic h, arithmetic u eta B (z_rnd l) -> 0 <= u <= 1 / 8 -> accurate_zlib l ea ec -> accurate_power f_pow vp eta -> 0 <= vp ->
  forall p X Y m M e x y, bounds u eta ec vp l f_pow basic h p X Y (u * X + eta) (u * Y + eta) m M e -> Rabs x <= X -> Rabs y <= Y ->
  exists v z, func h p x y = Ok (VR v) /\ func h (PAsC p) x y = Ok (VC (cis v)) /\ fl_call_complex l f_pow basic h p x y = Some z /\ Rabs (fst z - cos v) <= ec + e /\ Rabs (snd z - sin v) <= ec + e.
Proof. exact complex_close. Qed.
Print Assumptions C165_complex.
(** Modes and windows: accuracy at the same point and a Lipschitz condition give the accuracy at perturbed coordinates. *)
Theorem C165_lipschitz : forall l f_pow basic h p f X Y dx dy m M e kx ky, elementary p -> 0 <= kx -> 0 <= ky ->
  (forall x y, Rabs x <= X + dx -> Rabs y <= Y + dy -> func h p x y = Ok (VR (f x y)) /\ Rabs (basic p x y - f x y) <= e) -> (forall x y, Rabs x <= X -> Rabs y <= Y -> m <= Rabs (f x y) <= M) ->
  (forall x y x' y', Rabs x <= X -> Rabs y <= Y -> Rabs (x' - x) <= dx -> Rabs (y' - y) <= dy -> Rabs (f x' y' - f x y) <= kx * Rabs (x' - x) + ky * Rabs (y' - y)) ->
  accurate l f_pow basic h p X Y dx dy m M (e + kx * dx + ky * dy).
Proof. exact lipschitz_accurate. Qed.
Print Assumptions C165_lipschitz.
(** Gaussian beams satisfy these conditions. *)
Theorem C165_gaussian : forall u eta B l f_exp f_pow ee s2 hn hm h x0 y0 a w basic X Y dx dy Q,
  arithmetic u eta B (z_rnd l) -> 0 <= u <= 1 / 1000 -> 0 <= eta <= u -> accurate_exp f_exp ee eta -> 0 <= ee -> near (4 * u) 0 (sqrt 2) s2 -> stored_hermite u 0 hn -> stored_hermite u 0 hm ->
  let vx := getR h x0 in let vy := getR h y0 in let va := getR h a in let vw := getR h w in
  (forall x y, basic (PHG x0 y0 a w 0 0) x y = fl_hermite l f_exp s2 hn hm vx vy va vw x y) -> z_rnd l vx = vx -> z_rnd l vy = vy -> z_rnd l va = va -> z_rnd l vw = vw ->
  0 < vw -> eta <= u * vw -> eta <= u * Rabs va -> 1 <= Q -> X + dx + Rabs vx <= Q * vw -> Y + dy + Rabs vy <= Q * vw -> herm_error u ee 0 0 Q Q <= 1 / 2 ->
  accurate l f_pow basic h (PHG x0 y0 a w 0 0) X Y dx dy 0 (Rabs va) (2 * herm_error u ee 0 0 Q Q * Rabs va + (2 * Rabs va + 1) * eta + Rabs va / vw * dx + Rabs va / vw * dy).
Proof. exact gaussian_accurate. Qed.
Print Assumptions C165_gaussian.
(** In double precision a unit Gaussian beam moved by up to 4 beam widths is accurate to 2^-39 on the square of half-width 4. *)
Theorem C165_moved_gaussian : forall l f_exp f_pow s t x y, z_rnd l = binary64 -> accurate_exp f_exp (/ 2 ^ 52) (/ 2 ^ 1075) -> accurate_zlib l (/ 2 ^ 50) (/ 2 ^ 50) -> accurate_power f_pow (/ 2 ^ 52) (/ 2 ^ 1075) -> Rabs s <= 4 -> Rabs t <= 4 -> Rabs x <= 4 -> Rabs y <= 4 ->
  let h := fst (alloc_reals heap0 [0; 0; 1; 1]) in let p := p_shift (PHG 0%nat 1%nat 2%nat 3%nat 0 0) s t in let basic := fun (_ : prof) x y => fl_hermite l f_exp (binary64 (sqrt 2)) (hermite_coef 0) (hermite_coef 0) 0 0 1 1 x y in
  hg_new heap0 0 0 1 1 0 0 = Ok (h, PHG 0%nat 1%nat 2%nat 3%nat 0 0) /\
  exists v, fl_call l f_pow basic h p x y = Some v /\ Rabs (v - exp (- ((x - s) ^ 2 + (y - t) ^ 2))) <= / 2 ^ 39.
Proof. exact moved_gaussian. Qed.
Print Assumptions C165_moved_gaussian.
(** Without rounding the values are those of the exact model. *)
Theorem C165_no_rounding : forall l basic h p, (forall t, z_rnd l t = t) -> (forall t, z_cos l t = cos t) -> (forall t, z_sin l t = sin t) -> (forall q x y v, elementary q -> func h q x y = Ok (VR v) -> basic q x y = v) ->
  forall x y v, func h p x y = Ok (VR v) -> fl_func l rpow basic h p x y = Some v.
Proof. exact no_rounding. Qed.
Print Assumptions C165_no_rounding.

(** (window + 3) ** 2, the circular window turned by 1 and shifted by 1/8, near the origin, in double precision with a correctly rounded power. *)
Example C165_case : let hw := circ_new heap0 0 0 1 in let hc := new_const (fst hw) (VR 3) in let h := fst hc in let p := PPowR (PBin Oadd (PShift (1 / 8) 0 (PRot 1 (snd hw))) (snd hc)) (INR 2) in
  let u := / 2 ^ 53 in let eta := / 2 ^ 1075 in let basic := fun (_ : prof) x y => circ_value 0 0 1 x y in let f_pow := fun s t => option_map binary64 (rpow s t) in let e := rounded u eta (1 + Rabs 3) (0 + (u * Rabs 3 + eta)) in
  accurate_zlib rounded_lib (/ 2 ^ 50) (/ 2 ^ 50) /\ accurate_power f_pow u eta /\
  bounds u eta (/ 2 ^ 50) u rounded_lib f_pow basic h p (1 / 8) (1 / 8) (u * (1 / 8) + eta) (u * (1 / 8) + eta) (0 ^ 2) ((1 + Rabs 3) ^ 2) (u * (1 + Rabs 3 + e) ^ 2 + eta + ((1 + Rabs 3 + e) ^ 2 - (1 + Rabs 3) ^ 2)) /\ func h p 0 0 = Ok (VR 16).
Proof. exact window_case. Qed.
