(** Gratings after rounding (C123). *)
From Coq Require Import Reals Lra ZArith Arith List Bool Lia.
From Coquelicot Require Import Complex.
From Verif Require Import Cx PyBase ProfileModel SlmModel LibModel DmdModel SimModel SimSpec SimExamples DmdSpec DmdFacts2 DmdExamples FloatModel FloatSpec FringeSpec FringeErr2.
Open Scope R_scope.

(** Period and angle are rounded when they are stored, the grid and every step of the formula when they are computed. *)
Theorem C123_grey_levels_and_mirrors : forall a u eta u' eta' v B B' h d amp pin pout A Pi Po kw ru,
  arithmetic u eta B (rnd a) -> arithmetic u' eta' B' (dbl a) -> (2 ^ 22 <= B)%Z -> (2 ^ 22 <= B')%Z -> library a -> accurate a v ->
  0 <= u <= / 2 ^ 24 -> u <= v -> 0 <= u' <= v -> v <= / 2 ^ 16 -> 0 <= eta <= v -> eta' <= v ->
  let s := d_slm d in reads h s amp A -> reads h s pin Pi -> reads h s pout Po ->
  (Z.of_nat (s_Ny s) <= 2 ^ 20)%Z -> (Z.of_nat (s_Nx s) <= 2 ^ 20)%Z -> 0 < pixel_size s -> 0 < d_p d -> Rabs (d_theta d) <= 4 -> no_underflow eta v (pixel_size s) (d_p d) ->
  (forall i j, in_array d i j -> Rabs (A i j) <= 1 /\ Rabs (Pi i j) <= 4 /\ Rabs (Po i j) <= 4) ->
  let x := fun i j => fst (fl_grid a (s_Ny s) (s_Nx s) (pixel_size s) i j) in let y := fun i j => snd (fl_grid a (s_Ny s) (s_Nx s) (pixel_size s) i j) in
  let bound := fun i j => 16 * v * (phase_size (d_p d) (pixel_size s) (mirror_x s j) (mirror_y s i) + 8) in
  exists g f, set_dmd_grating_state h d amp pin pout MIdeal kw ru = (with_state d (DFloat (s_Ny s) (s_Nx s) g), Ok tt) /\
    set_dmd_grating_state h d amp pin pout MSimple kw ru = (with_state d (DBool (s_Ny s) (s_Nx s) f), Ok tt) /\
    forall i j, in_array d i j -> exists r, g i j = Fin r /\
      Rabs (fl_ideal a (d_neg d) (A i j) (Pi i j) (Po i j) (x i j) (y i j) (rnd a (d_p d)) (rnd a (d_theta d)) - r) <= bound i j /\
      (fl_simple a (d_neg d) (A i j) (Pi i j) (Po i j) (x i j) (y i j) (rnd a (d_p d)) (rnd a (d_theta d)) <> f i j -> Rabs (r - 1 / 2) <= bound i j).
Proof. exact grating_rounded. Qed.
Print Assumptions C123_grey_levels_and_mirrors.
(** On a DLP9500 and with fringes of at least four mirrors: 1/150 in single precision, 10^-10 in double precision. *)
Theorem C123_DLP9500 : forall wl fl per th neg h amp pin pout A Pi Po kw ru (prec : bool),
  let d := DLP9500 wl fl per th neg in let s := d_slm d in let a := if prec then double else single in
  let bound := if prec then / 10 ^ 10 else 1 / 150 in
  4 <= per <= 2 ^ 20 -> Rabs th <= 4 -> reads h s amp A -> reads h s pin Pi -> reads h s pout Po ->
  (forall i j, in_array d i j -> Rabs (A i j) <= 1 /\ Rabs (Pi i j) <= 4 /\ Rabs (Po i j) <= 4) ->
  let x := fun i j => fst (fl_grid a (s_Ny s) (s_Nx s) (pixel_size s) i j) in let y := fun i j => snd (fl_grid a (s_Ny s) (s_Nx s) (pixel_size s) i j) in
  exists g f, set_dmd_grating_state h d amp pin pout MIdeal kw ru = (with_state d (DFloat (s_Ny s) (s_Nx s) g), Ok tt) /\
    set_dmd_grating_state h d amp pin pout MSimple kw ru = (with_state d (DBool (s_Ny s) (s_Nx s) f), Ok tt) /\
    forall i j, in_array d i j -> exists r, g i j = Fin r /\
      Rabs (fl_ideal a (d_neg d) (A i j) (Pi i j) (Po i j) (x i j) (y i j) (rnd a (d_p d)) (rnd a (d_theta d)) - r) <= bound /\
      (fl_simple a (d_neg d) (A i j) (Pi i j) (Po i j) (x i j) (y i j) (rnd a (d_p d)) (rnd a (d_theta d)) <> f i j -> Rabs (r - 1 / 2) <= bound).
Proof. exact rounded_9500. Qed.
Print Assumptions C123_DLP9500.
Theorem C123_machines : accurate single (/ 2 ^ 23) /\ accurate double (/ 2 ^ 52).
Proof. exact (conj single_accurate double_accurate). Qed.
Print Assumptions C123_machines.
(** Arguments for a DLP9500. *)
Example C123_case : let s := d_slm (DLP9500 1 1 4 (PI / 4) false) in
  reads ex_heap s (AConstR (T0 1)) (fun _ _ => 1) /\ reads ex_heap s (AConstR (T0 0)) (fun _ _ => 0) /\ Rabs (PI / 4) <= 4 /\ (4 <= 4 <= 2 ^ 20)%R.
Proof.
  split; [apply reads_const|]. split; [apply reads_const|]. assert (P := PI_RGT_0). assert (Q := PI_4). split; [apply Rabs_le; lra|lra].
Qed.
