(** C15, C19-C21: analysis.py. *)
From Coq Require Import Reals Lra ZArith Arith List Bool Lia.
From Verif Require Import Cx Sums PyBase ProfileModel ZernSpec AnaSpec AnalysisModel AnsiFacts AnaFacts AnaThms.
Import ListNotations.
Open Scope R_scope.

(** ** C15 *)
Theorem C15_ansi_total : forall j, (0 <= j)%Z -> (9 + 8 * j <= 2 ^ 53)%Z ->
  exists n m, ansi_j_to_n_m j = Ok (n, m) /\ zvalid n m /\ (2 * j = n * (n + 2) + m)%Z.
Proof. exact ansi_total. Qed.
Print Assumptions C15_ansi_total.
Theorem C15_ansi_inverse : forall j n m, zvalid n m -> (2 * j = n * (n + 2) + m)%Z -> (9 + 8 * j <= 2 ^ 53)%Z -> ansi_j_to_n_m j = Ok (n, m).
Proof. exact ansi_exact. Qed.
Print Assumptions C15_ansi_inverse.
Theorem C15_every_pair_has_an_index : forall n m, zvalid n m -> exists j, (0 <= j)%Z /\ (2 * j = n * (n + 2) + m)%Z.
Proof. exact ansi_surjective. Qed.
Print Assumptions C15_every_pair_has_an_index.
Theorem C15_injective : forall j j' r, (0 <= j)%Z -> (0 <= j')%Z -> (9 + 8 * j <= 2 ^ 53)%Z -> (9 + 8 * j' <= 2 ^ 53)%Z ->
  ansi_j_to_n_m j = Ok r -> ansi_j_to_n_m j' = Ok r -> j = j'.
Proof. exact ansi_injective. Qed.
Print Assumptions C15_injective.
(** The range matters: further out rounding gives an order that is one too small and an m that is too large. *)
Theorem C15_wrong_beyond_range : ansi_j_to_n_m (2 ^ 53 - 2 ^ 26) = Ok (2 ^ 27 - 2, 2 ^ 27)%Z.
Proof. exact ansi_wrong. Qed.
Print Assumptions C15_wrong_beyond_range.
Theorem C15_negative_index : forall j, (- 2 ^ 59 <= j <= -2)%Z -> ansi_j_to_n_m j = Err ValueError.
Proof. exact ansi_negative. Qed.
Print Assumptions C15_negative_index.
(** Which integers are accepted, and which error the others give. *)
Theorem C15_domain : forall j, match ansi_j_to_n_m j with
  | Ok _ => (-1 <= j <= 2 ^ 61 - 2)%Z
  | Err ValueError => (- 2 ^ 60 - 1 <= j <= -2)%Z
  | Err TypeError => (2 ^ 61 - 1 <= j \/ j <= - 2 ^ 60 - 2)%Z
  | Err _ => False
  end.
Proof. exact ansi_domain. Qed.
Print Assumptions C15_domain.
Example C15_case : zvalid 5 (-3) /\ (2 * 16 = 5 * (5 + 2) + -3)%Z /\ (9 + 8 * 16 <= 2 ^ 53)%Z.
Proof. split; [split; [lia|reflexivity]|lia]. Qed.

(** ** C19 *)
Theorem C19_closed_form : forall h ny nx P radius, 0 < radius -> inside ny nx radius <> [] ->
  exists g, remove_trivial_phase h ny nx P radius false = Ok (Some g) /\ forall i j, (i < ny)%nat -> (j < nx)%nat ->
  g i j = P i j - if Rle_dec (dist_sq ny nx i j) (radius ^ 2) then
    average (inside ny nx radius) P + 4 / radius ^ 2 * average (inside ny nx radius) (fun i j => P i j * py ny i) * py ny i +
    4 / radius ^ 2 * average (inside ny nx radius) (fun i j => P i j * px nx j) * px nx j else 0.
Proof. exact rt_closed. Qed.
Print Assumptions C19_closed_form.
Theorem C19_defocus_closed_form : forall h ny nx P radius, 0 < radius -> inside ny nx radius <> [] ->
  exists f g, remove_trivial_phase h ny nx P radius false = Ok (Some f) /\ remove_trivial_phase h ny nx P radius true = Ok (Some g) /\
  forall i j, (i < ny)%nat -> (j < nx)%nat ->
  g i j = f i j - if Rle_dec (dist_sq ny nx i j) (radius ^ 2) then
    3 * average (inside ny nx radius) (fun i j => f i j * (2 * dist_sq ny nx i j / radius ^ 2 - 1)) * (2 * dist_sq ny nx i j / radius ^ 2 - 1) else 0.
Proof. exact rt_closed_defocus. Qed.
Print Assumptions C19_defocus_closed_form.
Theorem C19_zero_mean : forall h ny nx P radius g, 0 < radius -> inside ny nx radius <> [] ->
  remove_trivial_phase h ny nx P radius false = Ok (Some g) -> average (inside ny nx radius) g = 0.
Proof. exact rt_zero_mean. Qed.
Print Assumptions C19_zero_mean.
Theorem C19_unchanged_outside : forall h ny nx P radius d g i j, 0 < radius -> inside ny nx radius <> [] ->
  remove_trivial_phase h ny nx P radius d = Ok (Some g) -> (i < ny)%nat -> (j < nx)%nat -> radius ^ 2 < dist_sq ny nx i j -> g i j = P i j.
Proof. exact rt_outside. Qed.
Print Assumptions C19_unchanged_outside.
Theorem C19_linear : forall h ny nx P Q radius d a b f g k, 0 < radius -> inside ny nx radius <> [] ->
  remove_trivial_phase h ny nx P radius d = Ok (Some f) -> remove_trivial_phase h ny nx Q radius d = Ok (Some g) ->
  remove_trivial_phase h ny nx (fun i j => a * P i j + b * Q i j) radius d = Ok (Some k) -> agree ny nx k (fun i j => a * f i j + b * g i j).
Proof. exact rt_linear. Qed.
Print Assumptions C19_linear.
Theorem C19_piston_removed : forall h ny nx P radius d c g, 0 < radius -> inside ny nx radius <> [] ->
  (forall i j, In (i, j) (inside ny nx radius) -> P i j = c) -> remove_trivial_phase h ny nx P radius d = Ok (Some g) ->
  forall i j, In (i, j) (inside ny nx radius) -> g i j = 0.
Proof. exact rt_piston. Qed.
Print Assumptions C19_piston_removed.
Theorem C19_piston_ignored : forall h ny nx P radius d c f g, 0 < radius -> inside ny nx radius <> [] ->
  remove_trivial_phase h ny nx P radius d = Ok (Some f) -> remove_trivial_phase h ny nx (fun i j => P i j + c) radius d = Ok (Some g) ->
  forall i j, (i < ny)%nat -> (j < nx)%nat -> dist_sq ny nx i j <= radius ^ 2 -> g i j = f i j.
Proof. exact rt_ignores_piston. Qed.
Print Assumptions C19_piston_ignored.
Theorem C19_empty_aperture_gives_nan : forall h ny nx P radius d, 0 < radius -> inside ny nx radius = [] -> remove_trivial_phase h ny nx P radius d = Ok None.
Proof. exact rt_empty. Qed.
Print Assumptions C19_empty_aperture_gives_nan.
(** C59: with remove_defocus the mean is in general not zero. *)
Theorem C59_zero_mean_with_defocus_refuted : ~ (forall h ny nx P radius g, 0 < radius -> inside ny nx radius <> [] ->
  remove_trivial_phase h ny nx P radius true = Ok (Some g) -> average (inside ny nx radius) g = 0).
Proof. exact defocus_mean. Qed.
Print Assumptions C59_zero_mean_with_defocus_refuted.
Example C19_case : inside 1 3 2 = [(0, 0); (0, 1); (0, 2)]%nat /\ inside 2 2 (1 / 2) = [].
Proof. split; [exact inside_132|]. unfold inside. cbn [list_prod seq map app filter fst snd]. repeat (destruct (Rlt_dec _ _) as [H|H]; [exfalso; revert H; pix|clear H]). reflexivity. Qed.

(** ** C20 *)
Theorem C20_projection_refuted : ~ (forall h ny nx P radius f g, 0 < radius -> inside ny nx radius <> [] ->
  remove_trivial_phase h ny nx P radius false = Ok (Some f) -> remove_trivial_phase h ny nx f radius false = Ok (Some g) -> agree ny nx g f).
Proof. exact not_idempotent. Qed.
Print Assumptions C20_projection_refuted.
Theorem C20_tilt_removed_refuted : ~ (forall h ny nx radius g i j, 0 < radius -> inside ny nx radius <> [] ->
  remove_trivial_phase h ny nx (fun _ j => px nx j) radius false = Ok (Some g) -> In (i, j) (inside ny nx radius) -> g i j = 0).
Proof. exact tilt_not_removed. Qed.
Print Assumptions C20_tilt_removed_refuted.
(** What happens to a tilt: it is multiplied by a factor that vanishes only if the second moment is radius^2/4. *)
Theorem C20_tilt_residual : forall h ny nx P radius a b c g, 0 < radius -> inside ny nx radius <> [] ->
  (forall i j, (i < ny)%nat -> (j < nx)%nat -> P i j = a * px nx j + b * py ny i + c) ->
  remove_trivial_phase h ny nx P radius false = Ok (Some g) -> forall i j, (i < ny)%nat -> (j < nx)%nat -> dist_sq ny nx i j <= radius ^ 2 ->
  g i j = (1 - 4 / radius ^ 2 * average (inside ny nx radius) (fun _ j => px nx j ^ 2)) * (a * px nx j) +
          (1 - 4 / radius ^ 2 * average (inside ny nx radius) (fun i _ => py ny i ^ 2)) * (b * py ny i).
Proof. exact rt_tilt. Qed.
Print Assumptions C20_tilt_residual.
Theorem C20_second_pass : forall h ny nx P radius f g, 0 < radius -> inside ny nx radius <> [] ->
  remove_trivial_phase h ny nx P radius false = Ok (Some f) -> remove_trivial_phase h ny nx f radius false = Ok (Some g) ->
  forall i j, (i < ny)%nat -> (j < nx)%nat -> g i j = f i j - if Rle_dec (dist_sq ny nx i j) (radius ^ 2) then
    4 / radius ^ 2 * (1 - 4 / radius ^ 2 * average (inside ny nx radius) (fun i _ => py ny i ^ 2)) * average (inside ny nx radius) (fun i j => P i j * py ny i) * py ny i +
    4 / radius ^ 2 * (1 - 4 / radius ^ 2 * average (inside ny nx radius) (fun _ j => px nx j ^ 2)) * average (inside ny nx radius) (fun i j => P i j * px nx j) * px nx j else 0.
Proof. exact rt_twice. Qed.
Print Assumptions C20_second_pass.
(** On a small grid the "removal" can even enlarge the tilt. *)
Theorem C20_tilt_can_grow : exists h ny nx radius g i j, 0 < radius /\ In (i, j) (inside ny nx radius) /\
  remove_trivial_phase h ny nx (fun _ j => px nx j) radius false = Ok (Some g) /\ Rabs (g i j) > Rabs (px nx j).
Proof. exact tilt_grows. Qed.
Print Assumptions C20_tilt_can_grow.

(** ** C21 *)
Theorem C21_decomposition : forall h ny nx P radius (T : nat) e, 0 < radius -> inside ny nx radius <> [] -> (9 + 8 * (Z.of_nat T - 1) <= 2 ^ 53)%Z ->
  exists zs cs g, zernike_decomposition h ny nx P radius (Z.of_nat T) e = Ok (map Some cs, Some g) /\ length cs = T /\
  (forall k, (k < T)%nat -> exists n m, zvalid n m /\ (2 * Z.of_nat k = n * (n + 2) + m)%Z /\ samples_mode ny nx radius n m e (zs k)) /\
  (forall k, (k < T)%nat -> nth k cs 0 = average (inside ny nx radius) (fun i j => P i j * zs k i j)) /\
  agree ny nx g (fun i j => rsum T (fun k => nth k cs 0 * zs k i j)).
Proof. exact decompose_spec. Qed.
Print Assumptions C21_decomposition.
(** The modes are determined by the specification. *)
Theorem C21_modes_unique : forall ny nx radius n m e z z', samples_mode ny nx radius n m e z -> samples_mode ny nx radius n m e z' -> agree ny nx z z'.
Proof. exact samples_unique. Qed.
Print Assumptions C21_modes_unique.
Theorem C21_linear : forall h ny nx P Q radius T e a b cs1 g1 cs2 g2 cs3 g3, 0 < radius -> inside ny nx radius <> [] -> (9 + 8 * (Z.of_nat T - 1) <= 2 ^ 53)%Z ->
  zernike_decomposition h ny nx P radius (Z.of_nat T) e = Ok (map Some cs1, Some g1) -> zernike_decomposition h ny nx Q radius (Z.of_nat T) e = Ok (map Some cs2, Some g2) ->
  zernike_decomposition h ny nx (fun i j => a * P i j + b * Q i j) radius (Z.of_nat T) e = Ok (map Some cs3, Some g3) ->
  (forall k, (k < T)%nat -> nth k cs3 0 = a * nth k cs1 0 + b * nth k cs2 0) /\ agree ny nx g3 (fun i j => a * g1 i j + b * g2 i j).
Proof. exact decompose_linear. Qed.
Print Assumptions C21_linear.
Theorem C21_prefix : forall h ny nx P radius T T' e cs g, 0 < radius -> inside ny nx radius <> [] -> (9 + 8 * (Z.of_nat (T + T') - 1) <= 2 ^ 53)%Z ->
  zernike_decomposition h ny nx P radius (Z.of_nat (T + T')) e = Ok (cs, g) -> exists g', zernike_decomposition h ny nx P radius (Z.of_nat T) e = Ok (firstn T cs, g').
Proof. exact decompose_prefix. Qed.
Print Assumptions C21_prefix.
Theorem C21_zero_outside : forall h ny nx P radius T cs g i j, 0 < radius -> inside ny nx radius <> [] -> (9 + 8 * (Z.of_nat T - 1) <= 2 ^ 53)%Z ->
  zernike_decomposition h ny nx P radius (Z.of_nat T) false = Ok (cs, Some g) -> (i < ny)%nat -> (j < nx)%nat -> radius ^ 2 < dist_sq ny nx i j -> g i j = 0.
Proof. exact decompose_outside. Qed.
Print Assumptions C21_zero_outside.
Theorem C21_empty_aperture_gives_nan : forall h ny nx P radius T e, 0 < radius -> inside ny nx radius = [] -> (9 + 8 * (Z.of_nat T - 1) <= 2 ^ 53)%Z -> (0 < T)%nat ->
  zernike_decomposition h ny nx P radius (Z.of_nat T) e = Ok (repeat None T, None).
Proof. exact decompose_empty. Qed.
Print Assumptions C21_empty_aperture_gives_nan.
Example C21_case : (0 < 2)%R /\ inside 1 3 2 <> [] /\ (9 + 8 * (Z.of_nat 36 - 1) <= 2 ^ 53)%Z.
Proof. split; [lra|]. split; [rewrite inside_132; discriminate|]. vm_compute. discriminate. Qed.
