(** The powers of a simulation whose transform is a fast Fourier transform (C111). *)
From Coq Require Import Reals Lra ZArith Arith List Lia.
From Coquelicot Require Import Complex.
From Verif Require Import Cx Sums DFT FloatModel FloatSpec FloatFacts FlSimModel FlSimSpec FlSimFacts FlSimLink NormFacts FftModel FftSpec FftFacts FftFacts2 FftFacts3.
Open Scope R_scope.

Lemma numpy_powers : forall w plan p p' Ny Nx py px ps sf input state t t', good_table (2 * / 2 ^ 53) w -> planner plan ->
  let ny := (py + Ny + py)%nat in let nx := (px + Nx + px)%nat in
  (0 < Ny)%nat -> (0 < Nx)%nat -> (ny <= 4096)%nat -> (nx <= 4096)%nat -> / 2 ^ 30 <= ps <= 1 -> / 2 ^ 40 <= sf <= 1 ->
  each_once ny nx t -> each_once ny nx t' -> (depth t <= 64)%nat -> (depth t' <= 64)%nat ->
  let F := fun ny nx => numpy_ifft2 single double w (direct double w) (plan ny) (plan nx) in
  let out := fl_output single py px Ny Nx input state in
  let P := field_power Ny Nx (ps ^ 2) (fun i j => fl_cmul single (input i j) (state i j)) in
  near (/ 2 ^ 15) (/ 2 ^ 39) (sqrt P) (sqrt (fl_output_power single p ps out t)) /\
  near (/ 2 ^ 15) (/ 2 ^ 39) (sqrt P) (sqrt (fl_image_power single p' ny nx ps sf (fl_to_image single F ny nx ps sf out) t')).
Proof.
  intros w plan p p' Ny Nx py px ps sf input state t t' W Pl ny nx Hy Hx Sy Sx Hps Hsf Ht Ht' D D' F out P.
  destruct (Pl ny ltac:(unfold ny; lia)) as [Ey Fy]. destruct (Pl nx ltac:(unfold nx; lia)) as [Ex Fx].
  assert (A : accurate single (/ 2 ^ 18) (/ 2 ^ 120) ny nx (F ny nx)).
  { apply (accurate_weaken single (/ 2 ^ 20)); [lra|]. unfold F. rewrite <- Ey at 1. rewrite <- Ex at 1. apply numpy_single; try assumption; [apply Forall_app; split; assumption| |]; [rewrite Ey|rewrite Ex]; assumption. }
  assert (SN : (Z.of_nat (ny * nx) <= 2 ^ 24)%Z). { rewrite Nat2Z.inj_mul. change (2 ^ 24)%Z with (4096 * 4096)%Z. apply Z.mul_le_mono_nonneg; lia. }
  destruct (single_powers p p' F (/ 2 ^ 120) Ny Nx py px ps sf input state t t' Hy Hx SN Hps Hsf Ht Ht' D D' ltac:(lra) A) as [Q1 Q2].
  split; [eapply near_weaken; [| |exact Q1]; lra|]. eapply near_weaken; [| |exact Q2]; lra.
Qed.
