(** The random grating after rounding (C124). *)
From Coq Require Import Reals Lra ZArith Arith List Bool Lia.
From Coquelicot Require Import Complex Coquelicot.
From Verif Require Import Cx PyBase ProfileModel SlmModel LibModel DmdModel SimModel SimSpec SimExamples DmdSpec DmdFacts2 DmdExamples FloatModel FloatSpec FringeSpec InverseSpec FringeErr2 FringeRand2.
Open Scope R_scope.

(** [on] is the mirror as computed with rounding, [D] the documented duty cycle, [e] the chance that rounding changes the mirror. *)
Theorem C124_duty_after_rounding : forall a u eta u' eta' v B B' h d amp pin pout A Pi Po kw ru,
  arithmetic u eta B (rnd a) -> arithmetic u' eta' B' (dbl a) -> (2 ^ 22 <= B)%Z -> (2 ^ 22 <= B')%Z -> library a -> accurate a v -> inverse_accurate a v ->
  0 <= u <= / 2 ^ 24 -> u <= v -> 0 <= u' <= v -> v <= / 2 ^ 16 -> 0 <= eta <= v -> eta' <= v ->
  let s := d_slm d in reads h s amp A -> reads h s pin Pi -> reads h s pout Po ->
  (Z.of_nat (s_Ny s) <= 2 ^ 20)%Z -> (Z.of_nat (s_Nx s) <= 2 ^ 20)%Z -> 0 < pixel_size s -> 0 < d_p d -> Rabs (d_theta d) <= 4 -> no_underflow eta v (pixel_size s) (d_p d) ->
  let r := dflt (k_r kw) 10 in 0 < r -> eta <= v * r ->
  (forall i j, in_array d i j -> Rabs (Pi i j) <= 4 /\ Rabs (Po i j) <= 4) ->
  let x := fun i j => fst (fl_grid a (s_Ny s) (s_Nx s) (pixel_size s) i j) in let y := fun i j => snd (fl_grid a (s_Ny s) (s_Nx s) (pixel_size s) i j) in
  let on := fun i j => fl_random a (d_neg d) (A i j) (Pi i j) (Po i j) (x i j) (y i j) (rnd a (d_p d)) (rnd a (d_theta d)) r in
  let bound := fun i j => duty_error v r (phase_size (d_p d) (pixel_size s) (mirror_x s j) (mirror_y s i)) in
  exists f, set_dmd_grating_state h d amp pin pout MRandom kw ru = (with_state d (DBool (s_Ny s) (s_Nx s) f), Ok tt) /\
    forall i j, in_array d i j -> 0 <= A i j <= 1 ->
    exists q, folded (carrier d i j - signed (d_neg d) (Po i j - Pi i j)) q /\
      let D := duty r q (A i j) in (f i j = true <-> ru i j < D) /\
      (on i j (ru i j) <> f i j -> Rabs (ru i j - D) <= bound i j) /\
      exists e, is_RInt (fun z => if Bool.eqb (on i j z) (if Rlt_dec z D then true else false) then 0 else 1) 0 1 e /\ e <= bound i j.
Proof. exact random_rounded. Qed.
Print Assumptions C124_duty_after_rounding.
(** On a DLP9500 and with fringes of at least four mirrors. *)
Theorem C124_DLP9500 : forall wl fl per th neg h amp pin pout A Pi Po kw ru (prec : bool),
  let d := DLP9500 wl fl per th neg in let s := d_slm d in let a := if prec then double else single in
  let r := dflt (k_r kw) 10 in
  let bound := if prec then r / 10 ^ 7 + / 10 ^ 14 else 13 / 1000 * r + / 10 ^ 6 in
  4 <= per <= 2 ^ 20 -> Rabs th <= 4 -> reads h s amp A -> reads h s pin Pi -> reads h s pout Po -> / 2 ^ 20 <= r ->
  (forall i j, in_array d i j -> Rabs (Pi i j) <= 4 /\ Rabs (Po i j) <= 4) ->
  let x := fun i j => fst (fl_grid a (s_Ny s) (s_Nx s) (pixel_size s) i j) in let y := fun i j => snd (fl_grid a (s_Ny s) (s_Nx s) (pixel_size s) i j) in
  let on := fun i j => fl_random a (d_neg d) (A i j) (Pi i j) (Po i j) (x i j) (y i j) (rnd a (d_p d)) (rnd a (d_theta d)) r in
  exists f, set_dmd_grating_state h d amp pin pout MRandom kw ru = (with_state d (DBool (s_Ny s) (s_Nx s) f), Ok tt) /\
    forall i j, in_array d i j -> 0 <= A i j <= 1 ->
    exists q, folded (carrier d i j - signed (d_neg d) (Po i j - Pi i j)) q /\
      let D := duty r q (A i j) in (f i j = true <-> ru i j < D) /\
      (on i j (ru i j) <> f i j -> Rabs (ru i j - D) <= bound) /\
      exists e, is_RInt (fun z => if Bool.eqb (on i j z) (if Rlt_dec z D then true else false) then 0 else 1) 0 1 e /\ e <= bound.
Proof. exact random_9500. Qed.
Print Assumptions C124_DLP9500.
Theorem C124_machines : inverse_accurate single (/ 2 ^ 23) /\ inverse_accurate double (/ 2 ^ 52).
Proof. exact (conj single_inverse double_inverse). Qed.
Print Assumptions C124_machines.
(** Arguments for a DLP9500; the steepness is 10 if the caller gives none. *)
Example C124_case : let s := d_slm (DLP9500 1 1 4 (PI / 4) false) in
  reads ex_heap s (AConstR (T0 1)) (fun _ _ => 1) /\ reads ex_heap s (AConstR (T0 0)) (fun _ _ => 0) /\ Rabs (PI / 4) <= 4 /\ (4 <= 4 <= 2 ^ 20)%R /\ / 2 ^ 20 <= dflt None 10.
Proof.
  split; [apply reads_const|]. split; [apply reads_const|]. assert (P := PI_RGT_0). assert (Q := PI_4). split; [apply Rabs_le; lra|]. split; [lra|]. cbn. lra.
Qed.
