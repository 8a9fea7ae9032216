(** C112: the built-in devices. *)
From Coq Require Import Reals Lra ZArith Arith List Bool Lia.
From Coquelicot Require Import Complex.
From Verif Require Import Cx Sums PyBase ProfileModel SlmModel LibModel DmdModel SimSpec DmdSpec PanelSpec PanelFacts.
Import ListNotations.
Open Scope R_scope.

(** ** C112 *)
Theorem C112_dmd_panels : forall dev p, In (dev, p) panels -> forall wl fl per th neg, let d := dev wl fl per th neg in
  state_shape (d_state d) = (down p, across p) /\
  (forall i j, cell_at (d_state d) i j = CBool false) /\
  grid_is (fourier_plane_grid (d_slm d)) (down p) (across p) (fun _ j => panel_x p j) (fun i _ => panel_y p i) /\
  pack_dmd_state (set_dmd_state_on d) = Ok (repeat 255%Z (across p * down p / 8)) /\
  pack_dmd_state (set_dmd_state_off d) = Ok (repeat 0%Z (across p * down p / 8)) /\
  (per <> 0 -> first_order_origin d = (Fin (wl * fl / (per * pitch p) * cos th), Fin (wl * fl / (per * pitch p) * sin th))).
Proof. exact built_in. Qed.
Print Assumptions C112_dmd_panels.
Theorem C112_lcos_panel : forall wl fl, (exists f, l_state (PLUTO_2 wl fl) = LComplex (down pluto) (across pluto) f /\ forall i j, f i j = RtoC 0) /\
  grid_is (fourier_plane_grid (l_slm (PLUTO_2 wl fl))) (down pluto) (across pluto) (fun _ j => panel_x pluto j) (fun i _ => panel_y pluto i).
Proof. exact built_in_lcos. Qed.
Print Assumptions C112_lcos_panel.
(** The DLP7000 of the unit test test_scaling_factor: first order at equal x and y. *)
Example C112_case : In (DLP7000, {| across := 1024; down := 768; pitch_nm := 13680 |}) panels /\ 10 <> 0 /\
  cos (PI / 4) = sin (PI / 4).
Proof. split; [right; left; reflexivity|]. split; [lra|]. rewrite cos_PI4, sin_PI4. reflexivity. Qed.
