(** C111: the transform behind the simulation, evaluated as a fast Fourier transform in floating point. *)
From Coq Require Import Reals Lra ZArith Arith List Lia.
From Coquelicot Require Import Complex.
From Verif Require Import Cx Sums DFT FloatModel FloatSpec FloatFacts FlSimModel FlSimSpec FlSimFacts FlSimLink PropsFlSim FftModel FftSpec FftFacts FftFacts2 FftFacts3 FftLink.
Import ListNotations.
Open Scope R_scope.

(** Any mixed-radix FFT, any precision: the error in the Euclidean norm is at most what its butterflies and its table contribute. *)
Theorem C111_fft_error : forall a u eta B w b eb db ly lx f, arithmetic u eta B (rnd a) -> 0 <= u <= 1 / 8 -> 0 <= eta -> good_table (2 * u) w ->
  (forall r, 0 <= eb r) -> (forall r, 0 <= db r) -> Forall (fun r => (0 < r)%nat /\ good_butterfly (eb r) (db r) b r) (ly ++ lx) ->
  let ny := size ly in let nx := size lx in eta * INR (ny * nx) <= u ->
  norm ny nx (fun i j => fl_ifft2 a w b ly lx f i j - ifft2 ny nx f i j)%C <=
  ((1 + axis_rel u eb ly) * (1 + axis_rel u eb lx) - 1) * norm ny nx (ifft2 ny nx f) +
  ((1 + axis_rel u eb ly) * axis_abs u eta eb db lx + sqrt (INR nx) * axis_abs u eta eb db ly).
Proof. intros a u eta B w b eb db ly lx f H Hu He W Hb Hdb. exact (ifft2_near a u eta B H Hu He w W b eb db Hb Hdb ly lx f). Qed.
Print Assumptions C111_fft_error.
(** Without rounding it is the inverse transform, whatever the radices. *)
Theorem C111_no_rounding : forall w b ly lx f i j, (forall n k, (k < n)%nat -> w n k = root n k) -> (forall r f k, (k < r)%nat -> b r f k = dft r f k) ->
  Forall (fun r => 0 < r)%nat (ly ++ lx) -> (i < size ly)%nat -> (j < size lx)%nat -> fl_ifft2 exact w b ly lx f i j = ifft2 (size ly) (size lx) f i j.
Proof. exact exact_fft. Qed.
Print Assumptions C111_no_rounding.
(** Butterflies that sum directly are good enough. *)
Theorem C111_direct_butterfly : forall a u eta B w r, arithmetic u eta B (rnd a) -> 0 <= u <= 1 / 8 -> 0 <= eta -> good_table (2 * u) w -> (0 < r)%nat ->
  good_butterfly (direct_rel u r) (direct_abs u eta r) (direct a w) r.
Proof. intros a u eta B w r H Hu He W. exact (direct_good a u eta B w H Hu He W r). Qed.
Print Assumptions C111_direct_butterfly.
(** NumPy before 2.0 computes in double precision and casts to single: for all lengths up to 4096 and all factorisations the result is
    as accurate as C103 asks for. *)
Theorem C111_numpy_accurate : forall w ly lx, good_table (2 * / 2 ^ 53) w -> Forall (fun r => 2 <= r)%nat (ly ++ lx) -> (size ly <= 4096)%nat -> (size lx <= 4096)%nat ->
  accurate single (/ 2 ^ 20) (/ 2 ^ 120) (size ly) (size lx) (numpy_ifft2 single double w (direct double w) ly lx).
Proof. exact numpy_single. Qed.
Print Assumptions C111_numpy_accurate.
(** So the powers of the simulation agree, with no assumption on the transform left but its table of roots of unity. *)
Theorem C111_powers_agree : forall w plan p p' Ny Nx py px ps sf input state t t', good_table (2 * / 2 ^ 53) w -> planner plan ->
  let ny := (py + Ny + py)%nat in let nx := (px + Nx + px)%nat in
  (0 < Ny)%nat -> (0 < Nx)%nat -> (ny <= 4096)%nat -> (nx <= 4096)%nat -> / 2 ^ 30 <= ps <= 1 -> / 2 ^ 40 <= sf <= 1 ->
  each_once ny nx t -> each_once ny nx t' -> (depth t <= 64)%nat -> (depth t' <= 64)%nat ->
  let F := fun ny nx => numpy_ifft2 single double w (direct double w) (plan ny) (plan nx) in
  let out := fl_output single py px Ny Nx input state in
  let P := field_power Ny Nx (ps ^ 2) (fun i j => fl_cmul single (input i j) (state i j)) in
  near (/ 2 ^ 15) (/ 2 ^ 39) (sqrt P) (sqrt (fl_output_power single p ps out t)) /\
  near (/ 2 ^ 15) (/ 2 ^ 39) (sqrt P) (sqrt (fl_image_power single p' ny nx ps sf (fl_to_image single F ny nx ps sf out) t')).
Proof. exact numpy_powers. Qed.
Print Assumptions C111_powers_agree.

(** A table of correctly rounded roots of unity meets the hypothesis. *)
Example C111_table : good_table (2 * / 2 ^ 53) (rounded_table binary64).
Proof. exact rounded_table_good. Qed.
(** A DLP9500 with 100 pixels of padding: 1280 = 4*4*4*4*5, 2120 = 4*2*5*53. *)
Example C111_case : accurate single (/ 2 ^ 20) (/ 2 ^ 120) 1280 2120 (numpy_ifft2 single double (rounded_table binary64) (direct double (rounded_table binary64)) [4; 4; 4; 4; 5]%nat [4; 2; 5; 53]%nat).
Proof.
  exact (C111_numpy_accurate (rounded_table binary64) [4; 4; 4; 4; 5]%nat [4; 2; 5; 53]%nat C111_table ltac:(repeat constructor; lia) ltac:(cbn; lia) ltac:(cbn; lia)).
Qed.
(** Factorisations exist. *)
Example C111_plan : planner (fun n => if Nat.ltb n 2 then [] else [n]).
Proof. intros n Hn. destruct (Nat.ltb_spec n 2) as [L|L]; cbn [size fold_right]; (split; [lia|repeat constructor; lia]). Qed.
(** A transform of length 6 = 2 * 3 along one axis, without rounding. *)
Example C111_six : forall f i j, (i < 1)%nat -> (j < 6)%nat -> fl_ifft2 exact root (direct exact root) [] [2; 3]%nat f i j = ifft2 1 6 f i j.
Proof. intros f i j Hi Hj. apply (C111_no_rounding root (direct exact root) [] [2; 3]%nat); [reflexivity|intros; apply exact_direct; assumption|repeat constructor; lia|exact Hi|exact Hj]. Qed.
