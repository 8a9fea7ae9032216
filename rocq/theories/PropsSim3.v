(** C73-C75: complementary mirror patterns, LCOS phase offsets, translations. *)
From Coq Require Import Reals Lra ZArith Arith List Bool Lia.
From Coquelicot Require Import Complex.
From Verif Require Import Cx Sums DFT PyBase ProfileModel SlmModel LibModel DmdModel SimModel SimSpec GridFacts GridFacts2 SimFacts SimFacts2 SimFacts4 SimExamples PropsSim SimFacts5.
Import ListNotations.
Open Scope R_scope.

(** ** C73 *)
Theorem C73_complementary_patterns : forall h d1 d2 d3 m a F b n1 n2 n3 I1 I2 I3,
  let s := d_slm d3 in
  d_slm d1 = s -> d_slm d2 = s ->
  d_state d1 = DBool (s_Ny s) (s_Nx s) b -> d_state d2 = DBool (s_Ny s) (s_Nx s) (fun i j => negb (b i j)) -> d_state d3 = d_state (set_dmd_state_on d3) ->
  full_input h s a F ->
  propagate_to_image h (DevDmd d1) m a = (n1, Ok tt) -> propagate_to_image h (DevDmd d2) m a = (n2, Ok tt) -> propagate_to_image h (DevDmd d3) m a = (n3, Ok tt) ->
  field_is (f_image n1) (NY s m) (NX s m) I1 -> field_is (f_image n2) (NY s m) (NX s m) I2 -> field_is (f_image n3) (NY s m) (NX s m) I3 ->
  forall u v, (u < NY s m)%nat -> (v < NX s m)%nat -> (I3 u v = I1 u v + I2 u v)%C /\ (I3 u v = RtoC 0 -> Cmod (I1 u v) = Cmod (I2 u v)).
Proof. exact babinet. Qed.
Print Assumptions C73_complementary_patterns.
Example C73_case : exists n1 n2 n3 I1 I2 I3, let on := set_dmd_state_on ex_dmd in
  let opposite := with_state ex_dmd (DBool 2 3 (fun i j => negb (Nat.even (i + j)))) in
  d_state ex_dmd = DBool 2 3 (fun i j => Nat.even (i + j)) /\ full_input ex_heap (d_slm on) ex_input ex_field /\
  propagate_to_image ex_heap (DevDmd ex_dmd) ex_sim ex_input = (n1, Ok tt) /\ propagate_to_image ex_heap (DevDmd opposite) ex_sim ex_input = (n2, Ok tt) /\
  propagate_to_image ex_heap (DevDmd on) ex_sim ex_input = (n3, Ok tt) /\
  field_is (f_image n1) 6 5 I1 /\ field_is (f_image n2) 6 5 I2 /\ field_is (f_image n3) 6 5 I3.
Proof.
  assert (R : forall b, exists n I, propagate_to_image ex_heap (DevDmd (with_state ex_dmd (DBool 2 3 b))) ex_sim ex_input = (n, Ok tt) /\ field_is (f_image n) 6 5 I).
  { intros b. assert (HS := state_bool (with_state ex_dmd (DBool 2 3 b)) b eq_refl).
    destruct (ex_runs (DevDmd (with_state ex_dmd (DBool 2 3 b))) _ HS eq_refl) as (H1 & (n & P) & _).
    destruct (propagate_inv ex_heap (DevDmd (with_state ex_dmd (DBool 2 3 b))) ex_sim ex_input _ _ n H1 HS P) as (_ & _ & _ & _ & _ & _ & _ & Hi).
    exists n. eexists. split; [exact P|exact Hi]. }
  destruct (R (fun i j => Nat.even (i + j))) as (n1 & I1 & P1 & H1). destruct (R (fun i j => negb (Nat.even (i + j)))) as (n2 & I2 & P2 & H2).
  destruct (R (fun _ _ => true)) as (n3 & I3 & P3 & H3). exists n1, n2, n3, I1, I2, I3. repeat split; assumption || reflexivity.
Qed.

(** ** C74 *)
Theorem C74_lcos_phase_offset : forall h l l' m a F ph ph' c (k : nat -> nat -> Z) n n' I I',
  let s := l_slm l in l_slm l' = s ->
  l_state l = LReal (s_Ny s) (s_Nx s) ph -> l_state l' = LReal (s_Ny s) (s_Nx s) ph' ->
  (forall i j, (i < s_Ny s)%nat -> (j < s_Nx s)%nat -> ph' i j = ph i j + c + 2 * PI * IZR (k i j)) ->
  full_input h s a F -> propagate_to_image h (DevLcos l) m a = (n, Ok tt) -> propagate_to_image h (DevLcos l') m a = (n', Ok tt) ->
  field_is (f_image n) (NY s m) (NX s m) I -> field_is (f_image n') (NY s m) (NX s m) I' ->
  forall u v, (u < NY s m)%nat -> (v < NX s m)%nat -> Cmod (I' u v) = Cmod (I u v) /\ (c = 0 -> I' u v = I u v).
Proof. exact lcos_offset_intensity. Qed.
Print Assumptions C74_lcos_phase_offset.
(** A new panel, whose state is the complex zero array, acts as a panel with phase zero. *)
Theorem C74_new_panel_is_phase_zero : forall h s m a F n n' I I' st,
  full_input h s a F -> propagate_to_image h (DevLcos (lcos_new s)) m a = (n, Ok tt) ->
  l_state st = LReal (s_Ny s) (s_Nx s) (fun _ _ => 0) -> l_slm st = s -> propagate_to_image h (DevLcos st) m a = (n', Ok tt) ->
  field_is (f_image n) (NY s m) (NX s m) I -> field_is (f_image n') (NY s m) (NX s m) I' ->
  forall u v, (u < NY s m)%nat -> (v < NX s m)%nat -> I' u v = I u v.
Proof. exact lcos_fresh. Qed.
Print Assumptions C74_new_panel_is_phase_zero.
Example C74_case : exists l' n n' I I', l_slm l' = l_slm ex_lcos /\
  l_state l' = LReal 2 3 (fun i j => INR i - INR j + 1 + 2 * PI * IZR (Z.of_nat (i + j))) /\
  propagate_to_image ex_heap (DevLcos ex_lcos) ex_sim ex_input = (n, Ok tt) /\ propagate_to_image ex_heap (DevLcos l') ex_sim ex_input = (n', Ok tt) /\
  field_is (f_image n) 6 5 I /\ field_is (f_image n') 6 5 I'.
Proof.
  assert (R : forall ph, let l := {| l_slm := d_slm ex_dmd; l_state := LReal 2 3 ph |} in
    exists n I, propagate_to_image ex_heap (DevLcos l) ex_sim ex_input = (n, Ok tt) /\ field_is (f_image n) 6 5 I).
  { intros ph l. assert (HS := state_phase l ph eq_refl). destruct (ex_runs (DevLcos l) _ HS eq_refl) as (H1 & (n & P) & _).
    destruct (propagate_inv ex_heap (DevLcos l) ex_sim ex_input _ _ n H1 HS P) as (_ & _ & _ & _ & _ & _ & _ & Hi). exists n. eexists. split; [exact P|exact Hi]. }
  destruct (R (fun i j => INR i - INR j)) as (n & I & P & H). destruct (R (fun i j => INR i - INR j + 1 + 2 * PI * IZR (Z.of_nat (i + j)))) as (n' & I' & P' & H').
  exists {| l_slm := d_slm ex_dmd; l_state := LReal 2 3 (fun i j => INR i - INR j + 1 + 2 * PI * IZR (Z.of_nat (i + j))) |}, n, n', I, I'.
  repeat split; assumption || reflexivity.
Qed.

(** ** C75 *)
Theorem C75_translation_keeps_intensity : forall h h' dev dev' m m' a a' F F' S S' n n' I I' X Y dy dx,
  let s := dev_slm dev in dev_slm dev' = s -> pad_x m' = pad_x m -> pad_y m' = pad_y m ->
  full_input h s a F -> full_state dev S -> full_input h' s a' F' -> full_state dev' S' ->
  moved s dy dx (fun i j => (F i j * S i j)%C) (fun i j => (F' i j * S' i j)%C) ->
  propagate_to_image h dev m a = (n, Ok tt) -> propagate_to_image h' dev' m' a' = (n', Ok tt) ->
  (0 < s_Nx s)%nat -> (0 < s_Ny s)%nat -> pixel_size s <> 0 ->
  grid_is (image_plane_padded_grid s m) (NY s m) (NX s m) X Y ->
  field_is (f_image n) (NY s m) (NX s m) I -> field_is (f_image n') (NY s m) (NX s m) I' ->
  forall u v, (u < NY s m)%nat -> (v < NX s m)%nat ->
  I' u v = (cis (2 * PI * (IZR dx * pixel_size s * X u v - IZR dy * pixel_size s * Y u v) / (wavelength s * focal_length s)) * I u v)%C /\ Cmod (I' u v) = Cmod (I u v).
Proof. exact translation. Qed.
Print Assumptions C75_translation_keeps_intensity.
(** One mirror on, then another one, of the same 3 x 2 DMD in a uniform beam. *)
Example C75_case : exists n n' I I' X Y, let s := d_slm ex_dmd in
  let uniform := AConstC (T2 2 3 (fun _ _ => RtoC 1)) in
  let at_ := fun a b => with_state ex_dmd (DBool 2 3 (fun i j => Nat.eqb i a && Nat.eqb j b)) in
  let S := fun a b i j => RtoC (if (Nat.eqb i a && Nat.eqb j b)%bool then 1 else 0) in
  full_state (DevDmd (at_ 1%nat 0%nat)) (S 1%nat 0%nat) /\ full_state (DevDmd (at_ 0%nat 2%nat)) (S 0%nat 2%nat) /\
  moved s (-1) 2 (fun i j => RtoC 1 * S 1%nat 0%nat i j)%C (fun i j => RtoC 1 * S 0%nat 2%nat i j)%C /\
  propagate_to_image ex_heap (DevDmd (at_ 1%nat 0%nat)) ex_sim uniform = (n, Ok tt) /\ propagate_to_image ex_heap (DevDmd (at_ 0%nat 2%nat)) ex_sim uniform = (n', Ok tt) /\
  grid_is (image_plane_padded_grid s ex_sim) 6 5 X Y /\ field_is (f_image n) 6 5 I /\ field_is (f_image n') 6 5 I'.
Proof.
  set (uniform := AConstC (T2 2 3 (fun _ _ => RtoC 1))).
  set (at_ := fun a b => with_state ex_dmd (DBool 2 3 (fun i j => (Nat.eqb i a && Nat.eqb j b)%bool))).
  assert (R : forall a b, exists n I, propagate_to_image ex_heap (DevDmd (at_ a b)) ex_sim uniform = (n, Ok tt) /\ field_is (f_image n) 6 5 I).
  { intros a b. assert (HS := state_bool (at_ a b) _ eq_refl). assert (H1 : full_input ex_heap (d_slm (at_ a b)) uniform (fun _ _ => RtoC 1)) by reflexivity.
    destruct (propagate_succeeds ex_heap (DevDmd (at_ a b)) ex_sim uniform _ _ H1 HS) as [n P]; [cbn; lia|cbn; lia|unfold scaling_factor; cbn; lra|].
    destruct (propagate_inv ex_heap (DevDmd (at_ a b)) ex_sim uniform _ _ n H1 HS P) as (_ & _ & _ & _ & _ & _ & _ & Hi). exists n. eexists. split; [exact P|exact Hi]. }
  destruct (R 1%nat 0%nat) as (n & I & P & H). destruct (R 0%nat 2%nat) as (n' & I' & P' & H').
  assert (G := image_grid_of_is (NX (d_slm ex_dmd) ex_sim) (NY (d_slm ex_dmd) ex_sim) (pixel_size (d_slm ex_dmd)) (scaling_factor (d_slm ex_dmd))). 
  exists n, n', I, I'. do 2 eexists. split; [exact (state_bool (at_ 1%nat 0%nat) _ eq_refl)|]. split; [exact (state_bool (at_ 0%nat 2%nat) _ eq_refl)|].
  split; [|split; [exact P|split; [exact P'|split; [apply G; cbn; lra|split; assumption]]]].
  intros i j Hi Hj. unfold inside. cbn in Hi, Hj |- *.
  destruct i as [|[|i]]; [| |lia]; (destruct j as [|[|[|j]]]; [| | |lia]); cbn; repeat split; intros; try ring; try (exfalso; lia);
    try (destruct i' as [|[|i']]; try lia); try (destruct j' as [|[|[|j']]]; try lia); cbn; try ring.
Qed.
