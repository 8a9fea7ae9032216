(** Phase maps with missing samples (C156). *)
From Coq Require Import Reals Lra ZArith Arith List Bool Lia.
From Verif Require Import Cx Sums PyBase ProfileModel ZernSpec AnaSpec AnalysisModel AnaThms AnaNanModel AnaNanSpec AnaNanFacts.
Import ListNotations.
Open Scope R_scope.

(** Missing samples outside the aperture do no harm: they stay missing, the rest is as for any values put there. *)
Theorem C156_outside_removal : forall h ny nx radius f P d, of_map ny nx f P -> outside_only ny nx radius f ->
  match remove_trivial_phase h ny nx P radius d, m_remove_trivial_phase h ny nx f radius d with Ok r, Ok g => holed ny nx f g r | Err e, Err e' => e' = e | _, _ => False end.
Proof. exact trivial_outside. Qed.
Print Assumptions C156_outside_removal.
(** The coefficients and the reconstructed map do not notice them. *)
Theorem C156_outside_decomposition : forall h ny nx radius f P e n, of_map ny nx f P -> outside_only ny nx radius f ->
  match zernike_decomposition h ny nx P radius n e, m_zernike_decomposition h ny nx f radius n e with
  | Ok (cs, r), Ok (cs', r') => cs' = cs /\ forall i j, (i < ny)%nat -> (j < nx)%nat -> r' i j = option_map (fun g => g i j) r
  | Err x, Err x' => x' = x | _, _ => False end.
Proof. exact decomposition_outside. Qed.
Print Assumptions C156_outside_decomposition.
(** One missing sample inside the aperture: nothing is left, also outside, and no exception is raised. *)
Theorem C156_inside_removal : forall h ny nx radius f d i j, 0 < radius -> (i < ny)%nat -> (j < nx)%nat -> dist_sq ny nx i j < radius ^ 2 -> f i j = None ->
  exists g, m_remove_trivial_phase h ny nx f radius d = Ok g /\ forall a b, g a b = None.
Proof. exact trivial_missing. Qed.
Print Assumptions C156_inside_removal.
Theorem C156_inside_decomposition : forall h ny nx radius f e n i j, 0 < radius -> (i < ny)%nat -> (j < nx)%nat -> dist_sq ny nx i j < radius ^ 2 -> f i j = None ->
  (0 <= n)%Z -> (9 + 8 * (n - 1) <= 2 ^ 53)%Z ->
  exists r, m_zernike_decomposition h ny nx f radius n e = Ok (repeat None (Z.to_nat n), r) /\ ((1 <= n)%Z -> forall x y, r x y = None).
Proof. exact decomposition_missing. Qed.
Print Assumptions C156_inside_decomposition.
(** 3 x 3 samples with an aperture of radius 5/4: the four corners are outside and may be missing, the centre may not. *)
Example C156_case : let f := fun i j => if (Nat.odd i || Nat.odd j)%bool then Some (INR i + 2 * INR j) else None in
  of_map 3 3 f (fun i j => INR i + 2 * INR j) /\ outside_only 3 3 (5 / 4) f /\ f 0%nat 0%nat = None /\ dist_sq 3 3 1 1 < (5 / 4) ^ 2.
Proof.
  cbv zeta. split; [|split; [|split; [reflexivity|unfold dist_sq, px, py; cbn; lra]]].
  - intros i j _ _. destruct (Nat.odd i || Nat.odd j)%bool; [left; reflexivity|right; reflexivity].
  - intros i j Hi Hj. destruct i as [|[|[|i]]]; try lia; destruct j as [|[|[|j]]]; try lia; unfold dist_sq, px, py; cbn; intros; first [discriminate|exfalso; lra].
Qed.
