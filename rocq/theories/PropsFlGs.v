(** Gerchberg-Saxton and MRAF computed in floating point (C136). *)
From Coq Require Import Reals Lra Lia ZArith Arith List.
From Coquelicot Require Import Complex.
From Verif Require Import Cx Sums DFT PyBase ProfileModel SlmModel LibModel DmdModel SimModel SimSpec DmdSpec HoloSpec AimSpec FloatModel FloatSpec FringeSpec FlSimModel FlSimSpec NormFacts FftModel FftSpec FftFacts3 FwdModel FwdSpec FwdFacts2 FlHoloModel FlHoloSpec FlGsModel FlGsFacts5 FlGsFacts6.
Import ListNotations.
Open Scope R_scope.

(** Any arithmetic and accurate transforms: an iteration raises the distance between the image and the target by at most the loss that is written out, whatever the number of iterations. *)
Theorem C136_gerchberg_saxton : forall a u eta B v o q F G e d e' d' ny nx E A c T u0 N N',
  arithmetic u eta B (rnd a) -> 0 <= u <= 1 / 8 -> 0 <= eta -> FringeSpec.accurate a v -> u <= v -> v <= / 16 -> accurate_polar q v o -> (0 < ny)%nat -> (0 < nx)%nat ->
  FlSimSpec.accurate a e d ny nx (F ny nx) -> accurate_forward a e' d' ny nx (G ny nx) -> 0 <= e <= / 16 -> 0 <= e' <= / 16 ->
  (forall i j, (i < ny)%nat -> (j < nx)%nat -> E i j = (RtoC (A i j) * cis c)%C /\ 0 <= A i j) -> (forall i j, (i < ny)%nat -> (j < nx)%nat -> 0 <= T i j) -> (N <= N')%Z ->
  let rN := sqrt (INR (ny * nx)) in
  sqrt (image_error ny nx E T (fl_gs_array a q F G ny nx E T u0 N')) <= sqrt (image_error ny nx E T (fl_gs_array a q F G ny nx E T u0 N)) +
    INR (Z.to_nat N' - Z.to_nat N) * ((2 * e + 16 * v) * (norm ny nx E / rN) + (2 * e' + 15 * v) * norm ny nx (fun i j => RtoC (T i j)) + 11 * eta * (1 + rN) + 2 * d + 2 * (d' / rN)).
Proof. exact gs_run_rounded. Qed.
Print Assumptions C136_gerchberg_saxton.
(** The same for MRAF in a window of zeros and ones; the pattern aimed at is the target times the ratio of the rounded factors. *)
Theorem C136_mraf : forall a u eta B v o q F G e d e' d' ny nx E A c T W (w : nat -> nat -> bool) m u0 N N',
  arithmetic u eta B (rnd a) -> (1 <= B)%Z -> 0 <= u <= 1 / 8 -> 0 <= eta -> FringeSpec.accurate a v -> u <= v -> v <= / 16 -> accurate_polar q v o -> (0 < ny)%nat -> (0 < nx)%nat ->
  FlSimSpec.accurate a e d ny nx (F ny nx) -> accurate_forward a e' d' ny nx (G ny nx) -> 0 <= e <= / 16 -> 0 <= e' <= / 16 -> 0 <= d ->
  (forall i j, (i < ny)%nat -> (j < nx)%nat -> E i j = (RtoC (A i j) * cis c)%C /\ 0 <= A i j) -> (forall i j, (i < ny)%nat -> (j < nx)%nat -> 0 <= T i j) ->
  (forall i j, (i < ny)%nat -> (j < nx)%nat -> W i j = if w i j then RtoC 1 else RtoC 0) -> (N <= N')%Z ->
  let m1 := rnd a m in let m2 := rnd a (1 - m1) in 0 <= m1 -> 0 < m2 -> let rN := sqrt (INR (ny * nx)) in let T' := fun i j => m1 / m2 * T i j in
  sqrt (window_error ny nx E (fun i j => if w i j then 1 else 0) T' (fl_mraf_array a q F G ny nx E T W m u0 N')) <= sqrt (window_error ny nx E (fun i j => if w i j then 1 else 0) T' (fl_mraf_array a q F G ny nx E T W m u0 N)) +
    INR (Z.to_nat N' - Z.to_nat N) * ((2 * e + 4 * e' + 47 * v) * (norm ny nx E / rN) + (2 * e' + 20 * v) * norm ny nx (fun i j => RtoC (T' i j)) + 21 * eta + 4 * d + (15 * eta * rN + 2 * (d' / rN)) / m2).
Proof. exact mraf_run_rounded. Qed.
Print Assumptions C136_mraf.
(** Single precision with NumPy's transforms. *)
Theorem C136_gerchberg_saxton_single : forall tab tab' ly lx E A c T u0 N N',
  good_table (2 * / 2 ^ 53) tab -> good_forward_table (2 * / 2 ^ 53) tab' -> Forall (fun r => 2 <= r)%nat (ly ++ lx) -> (size ly <= 4096)%nat -> (size lx <= 4096)%nat ->
  let ny := size ly in let nx := size lx in let F := fun _ _ : nat => numpy_ifft2 single double tab (direct double tab) ly lx in let G := fun _ _ : nat => numpy_fft2 single double tab' (direct double tab') ly lx in let q := rounded_polar binary32 in
  (forall i j, (i < ny)%nat -> (j < nx)%nat -> E i j = (RtoC (A i j) * cis c)%C /\ 0 <= A i j) -> (forall i j, (i < ny)%nat -> (j < nx)%nat -> 0 <= T i j) -> (N <= N')%Z ->
  sqrt (image_error ny nx E T (fl_gs_array single q F G ny nx E T u0 N')) <= sqrt (image_error ny nx E T (fl_gs_array single q F G ny nx E T u0 N)) +
    INR (Z.to_nat N' - Z.to_nat N) * ((norm ny nx E / sqrt (INR (ny * nx)) + norm ny nx (fun i j => RtoC (T i j))) / 100000 + / 2 ^ 100).
Proof. exact gs_single. Qed.
Print Assumptions C136_gerchberg_saxton_single.
(** MRAF, with a mixing factor of at most 0.99. *)
Theorem C136_mraf_single : forall tab tab' ly lx E A c T W (w : nat -> nat -> bool) m u0 N N',
  good_table (2 * / 2 ^ 53) tab -> good_forward_table (2 * / 2 ^ 53) tab' -> Forall (fun r => 2 <= r)%nat (ly ++ lx) -> (size ly <= 4096)%nat -> (size lx <= 4096)%nat ->
  let ny := size ly in let nx := size lx in let F := fun _ _ : nat => numpy_ifft2 single double tab (direct double tab) ly lx in let G := fun _ _ : nat => numpy_fft2 single double tab' (direct double tab') ly lx in let q := rounded_polar binary32 in
  (forall i j, (i < ny)%nat -> (j < nx)%nat -> E i j = (RtoC (A i j) * cis c)%C /\ 0 <= A i j) -> (forall i j, (i < ny)%nat -> (j < nx)%nat -> 0 <= T i j) ->
  (forall i j, (i < ny)%nat -> (j < nx)%nat -> W i j = if w i j then RtoC 1 else RtoC 0) -> 0 <= m <= 99 / 100 -> (N <= N')%Z ->
  let m1 := binary32 m in let m2 := binary32 (1 - m1) in let T' := fun i j => m1 / m2 * T i j in
  sqrt (window_error ny nx E (fun i j => if w i j then 1 else 0) T' (fl_mraf_array single q F G ny nx E T W m u0 N')) <= sqrt (window_error ny nx E (fun i j => if w i j then 1 else 0) T' (fl_mraf_array single q F G ny nx E T W m u0 N)) +
    INR (Z.to_nat N' - Z.to_nat N) * ((norm ny nx E / sqrt (INR (ny * nx)) + norm ny nx (fun i j => RtoC (T' i j))) / 39000 + / 2 ^ 100).
Proof. exact mraf_single. Qed.
Print Assumptions C136_mraf_single.
(** Without rounding these are the phases that calculate_hologram stores. *)
Theorem C136_no_rounding : forall h l input target E T kw u0,
  full_input h (l_slm l) input E -> real_target h (l_slm l) target T -> let s := l_slm l in
  stores s (calculate_hologram h l input target MGs kw u0) (fl_gs_array exact exact_polar ifft2 fft2 (s_Ny s) (s_Nx s) E T u0 (dflt (lk_N kw) 200%Z)) /\
  forall w W, lk_window kw = Some w -> full_target h s w W ->
    stores s (calculate_hologram h l input target MMraf kw u0) (fl_mraf_array exact exact_polar ifft2 fft2 (s_Ny s) (s_Nx s) E T W (dflt (lk_mix kw) 0.4) u0 (dflt (lk_N kw) 200%Z)).
Proof. exact runs_exact. Qed.
Print Assumptions C136_no_rounding.
(** 200 iterations on a PLUTO-2 with an even beam and a target of one bright pixel: the distance (the image's norm is 1) rises by less than 1/249, and by less than 1/110 for MRAF in a window of every other column. *)
Example C136_case : let E := fun _ _ : nat => RtoC 1 in let T := fun i j : nat => if ((i =? 300) && (j =? 700))%bool%nat then 1 else 0 in let u0 := fun i j => INR (i + j) / 3000 in
  let F := fun _ _ : nat => numpy_ifft2 single double (rounded_table binary64) (direct double (rounded_table binary64)) [30; 36]%nat [40; 48]%nat in
  let G := fun _ _ : nat => numpy_fft2 single double (rounded_forward_table binary64) (direct double (rounded_forward_table binary64)) [30; 36]%nat [40; 48]%nat in let q := rounded_polar binary32 in
  sqrt (image_error 1080 1920 E T (fl_gs_array single q F G 1080 1920 E T u0 200)) <= sqrt (image_error 1080 1920 E T (fl_gs_array single q F G 1080 1920 E T u0 0)) + 1 / 249 /\
  let w := fun _ j : nat => Nat.even j in let m1 := binary32 0.4 in let m2 := binary32 (1 - m1) in let T' := fun i j => m1 / m2 * T i j in let W := fun i j => if w i j then RtoC 1 else RtoC 0 in
  sqrt (window_error 1080 1920 E (fun i j => if w i j then 1 else 0) T' (fl_mraf_array single q F G 1080 1920 E T W 0.4 u0 200)) <=
  sqrt (window_error 1080 1920 E (fun i j => if w i j then 1 else 0) T' (fl_mraf_array single q F G 1080 1920 E T W 0.4 u0 0)) + 1 / 110.
Proof. exact gs_mraf_case. Qed.
