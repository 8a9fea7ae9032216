(** Consequences of the closed form of remove_trivial_phase; zernike_decomposition. *)
From Coq Require Import Reals Lra Psatz ZArith Arith List Bool Lia.
From Coquelicot Require Import Complex.
From Verif Require Import Cx Sums PyBase ProfileModel SlmModel ProfSpec ProfFacts ProfFacts2 ModeThms TensorThms ZernSpec ZernFacts ZernThms AnaSpec AnalysisModel AnsiFacts AnaFacts.
Import ListNotations.
Open Scope R_scope.

Lemma inside_bounds ny nx radius i j : In (i, j) (inside ny nx radius) -> (i < ny)%nat /\ (j < nx)%nat.
Proof. intros H. apply in_inside in H. tauto. Qed.
Lemma avg_py ny nx radius : average (inside ny nx radius) (fun i _ => py ny i) = 0.
Proof. apply odd_y. intros. rewrite py_rev by assumption. reflexivity. Qed.
Lemma avg_px ny nx radius : average (inside ny nx radius) (fun _ j => px nx j) = 0.
Proof. apply odd_x. intros. rewrite px_rev by assumption. reflexivity. Qed.
Lemma avg_pxpy ny nx radius : average (inside ny nx radius) (fun i j => px nx j * py ny i) = 0.
Proof. apply odd_x. intros. rewrite px_rev by assumption. ring. Qed.
Lemma avg_pypx ny nx radius : average (inside ny nx radius) (fun i j => py ny i * px nx j) = 0.
Proof. apply odd_x. intros. rewrite px_rev by assumption. ring. Qed.
Lemma avg_flat ny nx radius P : inside ny nx radius <> [] -> average (inside ny nx radius) (flat ny nx radius P) = 0.
Proof.
  intros NE. set (l := inside ny nx radius). set (A := average l P). set (B := 4 / radius ^ 2 * average l (fun i j => P i j * py ny i)). set (D := 4 / radius ^ 2 * average l (fun i j => P i j * px nx j)).
  transitivity (average l (fun i j => P i j - (A + (B * py ny i + D * px nx j)))).
  - apply average_ext. intros i j H. rewrite flat_inside by exact H. unfold A, B, D, l. ring.
  - rewrite average_minus, average_plus, (average_const l A NE), (average_lin l B D (fun i _ => py ny i) (fun _ j => px nx j)). unfold l at 2 3. rewrite avg_py, avg_px. unfold A. ring.
Qed.
Lemma avg_flat_px ny nx radius P : average (inside ny nx radius) (fun i j => flat ny nx radius P i j * px nx j) =
  (1 - 4 / radius ^ 2 * average (inside ny nx radius) (fun _ j => px nx j ^ 2)) * average (inside ny nx radius) (fun i j => P i j * px nx j).
Proof.
  set (l := inside ny nx radius). set (A := average l P). set (B := 4 / radius ^ 2 * average l (fun i j => P i j * py ny i)). set (D := 4 / radius ^ 2 * average l (fun i j => P i j * px nx j)).
  transitivity (average l (fun i j => P i j * px nx j - (A * px nx j + (B * (py ny i * px nx j) + D * px nx j ^ 2)))).
  - apply average_ext. intros i j H. rewrite flat_inside by exact H. unfold A, B, D, l. ring.
  - rewrite average_minus, average_plus, average_scal, (average_lin l B D (fun i j => py ny i * px nx j) (fun _ j => px nx j ^ 2)). unfold l at 2 3. rewrite avg_px, avg_pypx. unfold D. ring.
Qed.
Lemma avg_flat_py ny nx radius P : average (inside ny nx radius) (fun i j => flat ny nx radius P i j * py ny i) =
  (1 - 4 / radius ^ 2 * average (inside ny nx radius) (fun i _ => py ny i ^ 2)) * average (inside ny nx radius) (fun i j => P i j * py ny i).
Proof.
  set (l := inside ny nx radius). set (A := average l P). set (B := 4 / radius ^ 2 * average l (fun i j => P i j * py ny i)). set (D := 4 / radius ^ 2 * average l (fun i j => P i j * px nx j)).
  transitivity (average l (fun i j => P i j * py ny i - (A * py ny i + (B * py ny i ^ 2 + D * (px nx j * py ny i))))).
  - apply average_ext. intros i j H. rewrite flat_inside by exact H. unfold A, B, D, l. ring.
  - rewrite average_minus, average_plus, average_scal, (average_lin l B D (fun i j => py ny i ^ 2) (fun i j => px nx j * py ny i)). unfold l at 2 4. rewrite avg_py, avg_pxpy. unfold B. ring.
Qed.
(** The function as a map on arrays. *)
Definition removes (h : heap) (ny nx : nat) (radius : R) (d : bool) (P g : nat -> nat -> R) : Prop := exists g', remove_trivial_phase h ny nx P radius d = Ok (Some g') /\ agree ny nx g' g.

Lemma rt_closed h ny nx P radius : 0 < radius -> inside ny nx radius <> [] ->
  exists g, remove_trivial_phase h ny nx P radius false = Ok (Some g) /\ forall i j, (i < ny)%nat -> (j < nx)%nat ->
  g i j = P i j - if Rle_dec (dist_sq ny nx i j) (radius ^ 2) then
    average (inside ny nx radius) P + 4 / radius ^ 2 * average (inside ny nx radius) (fun i j => P i j * py ny i) * py ny i + 4 / radius ^ 2 * average (inside ny nx radius) (fun i j => P i j * px nx j) * px nx j else 0.
Proof.
  intros HR NE. destruct (remove_closed h ny nx P radius false HR NE) as (g & E & G). exists g. split; [exact E|]. intros i j Hi Hj. rewrite (G i j Hi Hj). unfold flat, disc. ring.
Qed.
Lemma rt_closed_defocus h ny nx P radius : 0 < radius -> inside ny nx radius <> [] ->
  exists f g, remove_trivial_phase h ny nx P radius false = Ok (Some f) /\ remove_trivial_phase h ny nx P radius true = Ok (Some g) /\ forall i j, (i < ny)%nat -> (j < nx)%nat ->
  g i j = f i j - if Rle_dec (dist_sq ny nx i j) (radius ^ 2) then
    3 * average (inside ny nx radius) (fun i j => f i j * (2 * dist_sq ny nx i j / radius ^ 2 - 1)) * (2 * dist_sq ny nx i j / radius ^ 2 - 1) else 0.
Proof.
  intros HR NE. destruct (remove_closed h ny nx P radius false HR NE) as (f & E & F). destruct (remove_closed h ny nx P radius true HR NE) as (g & E' & G). exists f, g. split; [exact E|]. split; [exact E'|]. intros i j Hi Hj. rewrite (G i j Hi Hj), (F i j Hi Hj). unfold disc.
  rewrite (average_ext (inside ny nx radius) (fun i j => f i j * (2 * dist_sq ny nx i j / radius ^ 2 - 1)) (fun i j => flat ny nx radius P i j * defocus ny nx radius i j)).
  - unfold defocus. ring.
  - intros i' j' H. destruct (inside_bounds _ _ _ _ _ H). rewrite F by assumption. unfold defocus. ring.
Qed.
Lemma rt_zero_mean h ny nx P radius g : 0 < radius -> inside ny nx radius <> [] -> remove_trivial_phase h ny nx P radius false = Ok (Some g) -> average (inside ny nx radius) g = 0.
Proof.
  intros HR NE E. destruct (remove_closed h ny nx P radius false HR NE) as (g' & E' & G). rewrite E in E'. injection E' as <-. rewrite <- (avg_flat ny nx radius P NE). apply average_ext. intros i j H. destruct (inside_bounds _ _ _ _ _ H). rewrite G by assumption. ring.
Qed.
Lemma rt_outside h ny nx P radius d g i j : 0 < radius -> inside ny nx radius <> [] -> remove_trivial_phase h ny nx P radius d = Ok (Some g) -> (i < ny)%nat -> (j < nx)%nat -> radius ^ 2 < dist_sq ny nx i j -> g i j = P i j.
Proof.
  intros HR NE E Hi Hj D. destruct (remove_closed h ny nx P radius d HR NE) as (g' & E' & G). rewrite E in E'. injection E' as <-. rewrite G by assumption. unfold flat, disc. destruct (Rle_dec _ _); [lra|]. destruct d; ring.
Qed.
Lemma flat_lin ny nx radius P Q a b i j : flat ny nx radius (fun i j => a * P i j + b * Q i j) i j = a * flat ny nx radius P i j + b * flat ny nx radius Q i j.
Proof.
  unfold flat. rewrite average_lin.
  rewrite (average_ext _ (fun i j => (a * P i j + b * Q i j) * py ny i) (fun i j => a * (P i j * py ny i) + b * (Q i j * py ny i))) by (intros; ring).
  rewrite (average_ext _ (fun i j => (a * P i j + b * Q i j) * px nx j) (fun i j => a * (P i j * px nx j) + b * (Q i j * px nx j))) by (intros; ring).
  rewrite !average_lin. unfold disc. destruct (Rle_dec _ _); ring.
Qed.
Lemma rt_linear h ny nx P Q radius d a b f g k : 0 < radius -> inside ny nx radius <> [] ->
  remove_trivial_phase h ny nx P radius d = Ok (Some f) -> remove_trivial_phase h ny nx Q radius d = Ok (Some g) ->
  remove_trivial_phase h ny nx (fun i j => a * P i j + b * Q i j) radius d = Ok (Some k) -> agree ny nx k (fun i j => a * f i j + b * g i j).
Proof.
  intros HR NE E1 E2 E3. destruct (remove_closed h ny nx P radius d HR NE) as (f' & E1' & F). rewrite E1 in E1'. injection E1' as <-. destruct (remove_closed h ny nx Q radius d HR NE) as (g' & E2' & G). rewrite E2 in E2'. injection E2' as <-.
  destruct (remove_closed h ny nx (fun i j => a * P i j + b * Q i j) radius d HR NE) as (k' & E3' & K). rewrite E3 in E3'. injection E3' as <-. intros i j Hi Hj. rewrite K, F, G by assumption. rewrite flat_lin. destruct d; [|ring].
  rewrite (average_ext _ (fun i j => flat ny nx radius (fun i j => a * P i j + b * Q i j) i j * defocus ny nx radius i j) (fun i j => a * (flat ny nx radius P i j * defocus ny nx radius i j) + b * (flat ny nx radius Q i j * defocus ny nx radius i j))) by (intros; rewrite flat_lin; ring).
  rewrite average_lin. unfold disc. destruct (Rle_dec _ _); ring.
Qed.
(** A profile that is constant over the aperture. *)
Lemma flat_const ny nx radius P c : inside ny nx radius <> [] -> (forall i j, In (i, j) (inside ny nx radius) -> P i j = c) -> forall i j, flat ny nx radius P i j = P i j - disc ny nx radius i j c.
Proof.
  intros NE H i j. unfold flat. rewrite (average_ext _ P (fun _ _ => c)) by (intros; apply H; assumption). rewrite average_const by exact NE.
  rewrite (average_ext _ (fun i j => P i j * py ny i) (fun i _ => c * py ny i)) by (intros; rewrite H by assumption; reflexivity). rewrite (average_ext _ (fun i j => P i j * px nx j) (fun _ j => c * px nx j)) by (intros; rewrite H by assumption; reflexivity).
  rewrite (average_scal _ c (fun i _ => py ny i)), (average_scal _ c (fun _ j => px nx j)), avg_py, avg_px. unfold disc. destruct (Rle_dec _ _); ring.
Qed.
Lemma rt_piston h ny nx P radius d c g : 0 < radius -> inside ny nx radius <> [] -> (forall i j, In (i, j) (inside ny nx radius) -> P i j = c) ->
  remove_trivial_phase h ny nx P radius d = Ok (Some g) -> forall i j, In (i, j) (inside ny nx radius) -> g i j = 0.
Proof.
  intros HR NE HP E i j H. destruct (remove_closed h ny nx P radius d HR NE) as (g' & E' & G). rewrite E in E'. injection E' as <-. destruct (inside_bounds _ _ _ _ _ H). rewrite G by assumption.
  assert (Z : forall i j, In (i, j) (inside ny nx radius) -> flat ny nx radius P i j = 0). { intros i' j' H'. rewrite (flat_const ny nx radius P c NE HP), disc_inside, HP by exact H'. ring. }
  rewrite Z by exact H. destruct d; [|ring]. rewrite (average_ext _ _ (fun i j => 0)) by (intros; rewrite Z by assumption; ring). rewrite average_const by exact NE. unfold disc. destruct (Rle_dec _ _); ring.
Qed.
Lemma rt_ignores_piston h ny nx P radius d c f g : 0 < radius -> inside ny nx radius <> [] -> remove_trivial_phase h ny nx P radius d = Ok (Some f) -> remove_trivial_phase h ny nx (fun i j => P i j + c) radius d = Ok (Some g) ->
  forall i j, (i < ny)%nat -> (j < nx)%nat -> dist_sq ny nx i j <= radius ^ 2 -> g i j = f i j.
Proof.
  intros HR NE E1 E2 i j Hi Hj D. destruct (remove_closed h ny nx P radius d HR NE) as (f' & E1' & F). rewrite E1 in E1'. injection E1' as <-. destruct (remove_closed h ny nx (fun i j => P i j + c) radius d HR NE) as (g' & E2' & G). rewrite E2 in E2'. injection E2' as <-.
  assert (Z : forall i j, dist_sq ny nx i j <= radius ^ 2 -> flat ny nx radius (fun i j => P i j + c) i j = flat ny nx radius P i j).
  { intros i' j' H'. pose proof (flat_lin ny nx radius P (fun _ _ => 1) 1 c i' j') as L. cbn beta in L.
    assert (X : forall Q Q' : nat -> nat -> R, (forall i j, Q i j = Q' i j) -> flat ny nx radius Q i' j' = flat ny nx radius Q' i' j').
    { intros Q Q' HQ. unfold flat. rewrite HQ. rewrite (average_ext _ Q Q') by (intros; apply HQ). rewrite (average_ext _ (fun i j => Q i j * py ny i) (fun i j => Q' i j * py ny i)) by (intros; rewrite HQ; reflexivity). rewrite (average_ext _ (fun i j => Q i j * px nx j) (fun i j => Q' i j * px nx j)) by (intros; rewrite HQ; reflexivity). reflexivity. }
    rewrite (X _ (fun i j => 1 * P i j + c * 1)) by (intros; ring). rewrite L, (flat_const ny nx radius (fun _ _ => 1) 1 NE) by reflexivity. unfold disc. destruct (Rle_dec _ _); [ring|lra]. }
  rewrite F, G, Z by assumption. destruct d; [|ring]. rewrite (average_ext _ (fun i j => flat ny nx radius (fun i j => P i j + c) i j * defocus ny nx radius i j) (fun i j => flat ny nx radius P i j * defocus ny nx radius i j)); [ring|].
  intros i' j' H. rewrite Z; [reflexivity|]. apply in_inside in H. lra.
Qed.
Lemma rt_empty h ny nx P radius d : 0 < radius -> inside ny nx radius = [] -> remove_trivial_phase h ny nx P radius d = Ok None.
Proof.
  intros HR NE. assert (V00 : zvalid 0 0) by (split; [lia|reflexivity]). assert (V1m : zvalid 1 (-1)) by (split; [lia|reflexivity]). assert (V11 : zvalid 1 1) by (split; [lia|reflexivity]). assert (V20 : zvalid 2 0) by (split; [lia|reflexivity]).
  destruct (zernike_sampled h ny nx radius 0 0 false V00 HR) as (z0 & E0 & _). destruct (zernike_sampled h ny nx radius 1 (-1) false V1m HR) as (z1 & E1 & _).
  destruct (zernike_sampled h ny nx radius 1 1 false V11 HR) as (z2 & E2 & _). destruct (zernike_sampled h ny nx radius 2 0 false V20 HR) as (z3 & E3 & _).
  unfold remove_trivial_phase. cbn [app remove_terms]. rewrite E0. cbn [rbind coefficient]. rewrite mean_sel_none by exact NE. cbn [sub_mode]. rewrite E1. cbn [rbind coefficient sub_mode]. rewrite E2. cbn [rbind]. destruct d; cbn [remove_terms]; [rewrite E3|]; reflexivity.
Qed.
(** ** Tilts *)
Lemma rt_tilt h ny nx P radius a b c g : 0 < radius -> inside ny nx radius <> [] -> (forall i j, (i < ny)%nat -> (j < nx)%nat -> P i j = a * px nx j + b * py ny i + c) ->
  remove_trivial_phase h ny nx P radius false = Ok (Some g) -> forall i j, (i < ny)%nat -> (j < nx)%nat -> dist_sq ny nx i j <= radius ^ 2 ->
  g i j = (1 - 4 / radius ^ 2 * average (inside ny nx radius) (fun _ j => px nx j ^ 2)) * (a * px nx j) + (1 - 4 / radius ^ 2 * average (inside ny nx radius) (fun i _ => py ny i ^ 2)) * (b * py ny i).
Proof.
  intros HR NE HP E i j Hi Hj D. destruct (rt_closed h ny nx P radius HR NE) as (g' & E' & G). rewrite E in E'. injection E' as <-. rewrite G by assumption. destruct (Rle_dec _ _); [|lra].
  set (l := inside ny nx radius) in *. assert (Lb : forall i j, In (i, j) l -> (i < ny)%nat /\ (j < nx)%nat) by (intros; eapply inside_bounds; eassumption).
  assert (A : average l P = c). { rewrite (average_ext l P (fun i j => 1 * (a * px nx j + b * py ny i) + c * 1)) by (intros i' j' H; destruct (Lb i' j' H); rewrite HP by assumption; ring). rewrite (average_lin l 1 c _ (fun _ _ => 1)), (average_lin l a b (fun _ j => px nx j) (fun i _ => py ny i)), (average_const l 1 NE). unfold l. rewrite avg_px, avg_py. ring. }
  assert (B : average l (fun i j => P i j * py ny i) = b * average l (fun i _ => py ny i ^ 2)).
  { rewrite (average_ext l _ (fun i j => 1 * (a * (px nx j * py ny i) + b * py ny i ^ 2) + c * py ny i)) by (intros i' j' H; destruct (Lb i' j' H); rewrite HP by assumption; ring). rewrite (average_lin l 1 c _ (fun i _ => py ny i)), (average_lin l a b (fun i j => px nx j * py ny i) (fun i _ => py ny i ^ 2)). unfold l at 1 3. rewrite avg_pxpy, avg_py. ring. }
  assert (B' : average l (fun i j => P i j * px nx j) = a * average l (fun _ j => px nx j ^ 2)).
  { rewrite (average_ext l _ (fun i j => 1 * (a * px nx j ^ 2 + b * (py ny i * px nx j)) + c * px nx j)) by (intros i' j' H; destruct (Lb i' j' H); rewrite HP by assumption; ring). rewrite (average_lin l 1 c _ (fun _ j => px nx j)), (average_lin l a b (fun i j => px nx j ^ 2) (fun i j => py ny i * px nx j)). unfold l at 2 3. rewrite avg_pypx, avg_px. ring. }
  rewrite A, B, B', (HP i j Hi Hj). ring.
Qed.
(** Second application. *)
Lemma rt_twice h ny nx P radius f g : 0 < radius -> inside ny nx radius <> [] -> remove_trivial_phase h ny nx P radius false = Ok (Some f) -> remove_trivial_phase h ny nx f radius false = Ok (Some g) ->
  forall i j, (i < ny)%nat -> (j < nx)%nat -> g i j = f i j - if Rle_dec (dist_sq ny nx i j) (radius ^ 2) then
    4 / radius ^ 2 * (1 - 4 / radius ^ 2 * average (inside ny nx radius) (fun i _ => py ny i ^ 2)) * average (inside ny nx radius) (fun i j => P i j * py ny i) * py ny i +
    4 / radius ^ 2 * (1 - 4 / radius ^ 2 * average (inside ny nx radius) (fun _ j => px nx j ^ 2)) * average (inside ny nx radius) (fun i j => P i j * px nx j) * px nx j else 0.
Proof.
  intros HR NE E1 E2 i j Hi Hj. destruct (remove_closed h ny nx P radius false HR NE) as (f' & E1' & F). rewrite E1 in E1'. injection E1' as <-. pose proof (rt_zero_mean h ny nx P radius f HR NE E1) as Z.
  destruct (rt_closed h ny nx f radius HR NE) as (g' & E2' & G). rewrite E2 in E2'. injection E2' as <-. rewrite G by assumption. rewrite Z.
  rewrite (average_ext _ (fun i j => f i j * py ny i) (fun i j => flat ny nx radius P i j * py ny i)) by (intros i' j' H; destruct (inside_bounds _ _ _ _ _ H); rewrite F by assumption; ring).
  rewrite (average_ext _ (fun i j => f i j * px nx j) (fun i j => flat ny nx radius P i j * px nx j)) by (intros i' j' H; destruct (inside_bounds _ _ _ _ _ H); rewrite F by assumption; ring).
  rewrite avg_flat_px, avg_flat_py. destruct (Rle_dec _ _); ring.
Qed.
(** ** Witnesses *)
Ltac pix := unfold dist_sq, px, py; cbn [INR fst snd]; try lra; try nra.
Lemma inside_132 : inside 1 3 2 = [(0, 0); (0, 1); (0, 2)]%nat.
Proof. unfold inside. cbn [list_prod seq map app filter fst snd]. repeat (destruct (Rlt_dec _ _) as [H|H]; [clear H|exfalso; apply H; pix]). reflexivity. Qed.
Lemma inside_12 : inside 1 2 (5 / 8) = [(0, 0); (0, 1)]%nat.
Proof. unfold inside. cbn [list_prod seq map app filter fst snd]. repeat (destruct (Rlt_dec _ _) as [H|H]; [clear H|exfalso; apply H; pix]). reflexivity. Qed.
Lemma tilt_residual h : exists f, remove_trivial_phase h 1 3 (fun _ j => px 3 j) 2 false = Ok (Some f) /\ forall i j, (i < 1)%nat -> (j < 3)%nat -> f i j = px 3 j / 3.
Proof.
  destruct (rt_closed h 1 3 (fun _ j => px 3 j) 2) as (f & E & F); [lra|rewrite inside_132; discriminate|]. exists f. split; [exact E|]. intros i j Hi Hj.
  rewrite (rt_tilt h 1 3 (fun _ j => px 3 j) 2 1 0 0 f) with (i := i) (j := j); [|lra|rewrite inside_132; discriminate|intros; ring|exact E|exact Hi|exact Hj|].
  - rewrite inside_132. unfold average, total. cbn [fold_right fst snd length]. unfold px, py. cbn [INR]. destruct j as [|[|[|j]]]; cbn [INR]; try lia; field.
  - destruct i; [|lia]. destruct j as [|[|[|j]]]; [| | |lia]; pix.
Qed.
Lemma tilt_residual_2 h f : (forall i j, (i < 1)%nat -> (j < 3)%nat -> f i j = px 3 j / 3) -> exists g, remove_trivial_phase h 1 3 f 2 false = Ok (Some g) /\ g 0%nat 2%nat = 1 / 9.
Proof.
  intros F. destruct (rt_closed h 1 3 f 2) as (g & E & G); [lra|rewrite inside_132; discriminate|]. exists g. split; [exact E|].
  rewrite (rt_tilt h 1 3 f 2 (1 / 3) 0 0 g) with (i := 0%nat) (j := 2%nat); [|lra|rewrite inside_132; discriminate|intros; rewrite F by assumption; field|exact E|lia|lia|].
  - rewrite inside_132. unfold average, total. cbn [fold_right fst snd length]. unfold px, py. cbn [INR]. field.
  - pix.
Qed.
Lemma not_idempotent : ~ (forall h ny nx P radius f g, 0 < radius -> inside ny nx radius <> [] -> remove_trivial_phase h ny nx P radius false = Ok (Some f) -> remove_trivial_phase h ny nx f radius false = Ok (Some g) -> agree ny nx g f).
Proof.
  intros H. destruct (tilt_residual heap0) as (f & E & F). destruct (tilt_residual_2 heap0 f F) as (g & E' & G). assert (NE : inside 1 3 2 <> []) by (rewrite inside_132; discriminate). assert (R2 : 0 < 2) by lra.
  specialize (H heap0 1%nat 3%nat _ 2 f g R2 NE E E' 0%nat 2%nat). rewrite G, F in H by lia. assert (X : 1 / 9 = px 3 2 / 3) by (apply H; lia). unfold px in X. cbn [INR] in X. lra.
Qed.
Lemma tilt_not_removed : ~ (forall h ny nx radius g i j, 0 < radius -> inside ny nx radius <> [] -> remove_trivial_phase h ny nx (fun _ j => px nx j) radius false = Ok (Some g) -> In (i, j) (inside ny nx radius) -> g i j = 0).
Proof.
  intros H. destruct (tilt_residual heap0) as (f & E & F). assert (NE : inside 1 3 2 <> []) by (rewrite inside_132; discriminate). assert (R2 : 0 < 2) by lra.
  specialize (H heap0 1%nat 3%nat 2 f 0%nat 2%nat R2 NE E). rewrite F in H by lia. rewrite inside_132 in H. assert (X : px 3 2 / 3 = 0) by (apply H; cbn; auto). unfold px in X. cbn [INR] in X. lra.
Qed.
Lemma tilt_grows : exists h ny nx radius g i j, 0 < radius /\ In (i, j) (inside ny nx radius) /\ remove_trivial_phase h ny nx (fun _ j => px nx j) radius false = Ok (Some g) /\ Rabs (g i j) > Rabs (px nx j).
Proof.
  destruct (rt_closed heap0 1 2 (fun _ j => px 2 j) (5 / 8)) as (f & E & F); [lra|rewrite inside_12; discriminate|]. exists heap0, 1%nat, 2%nat, (5 / 8), f, 0%nat, 1%nat. split; [lra|]. split; [rewrite inside_12; cbn; auto|]. split; [exact E|].
  rewrite (rt_tilt heap0 1 2 (fun _ j => px 2 j) (5 / 8) 1 0 0 f) with (i := 0%nat) (j := 1%nat); [|lra|rewrite inside_12; discriminate|intros; ring|exact E|lia|lia|].
  - rewrite inside_12. unfold average, total. cbn [fold_right fst snd length]. unfold px, py. cbn [INR]. rewrite (Rabs_pos_eq (1 - (1 + 1 - 1) / 2)) by lra. rewrite <- Rabs_Ropp. rewrite Rabs_pos_eq; lra.
  - pix.
Qed.
Lemma defocus_mean : ~ (forall h ny nx P radius g, 0 < radius -> inside ny nx radius <> [] -> remove_trivial_phase h ny nx P radius true = Ok (Some g) -> average (inside ny nx radius) g = 0).
Proof.
  intros H. assert (NE : inside 1 3 2 <> []) by (rewrite inside_132; discriminate). assert (R2 : 0 < 2) by lra. set (P := fun (_ j : nat) => px 3 j ^ 2).
  destruct (rt_closed_defocus heap0 1 3 P 2 R2 NE) as (f & g & E & E' & G). destruct (rt_closed heap0 1 3 P 2 R2 NE) as (f' & E1 & F). rewrite E in E1. injection E1 as <-. specialize (H heap0 1%nat 3%nat P 2 g R2 NE E').
  assert (F' : forall j, (j < 3)%nat -> f 0%nat j = px 3 j ^ 2 - 2 / 3).
  { intros j Hj. rewrite F by lia. destruct (Rle_dec _ _) as [L|L].
    - rewrite inside_132. unfold average, total, P. cbn [fold_right fst snd length]. unfold px, py. cbn [INR]. field.
    - exfalso. apply L. destruct j as [|[|[|j]]]; [| | |lia]; pix. }
  rewrite inside_132 in H, G. unfold average, total in H, G. cbn [fold_right fst snd length] in H, G. rewrite !G in H by lia. rewrite !F' in H by lia.
  repeat (destruct (Rle_dec _ _) as [L|L] in H; [clear L|exfalso; apply L; pix]). unfold dist_sq, px, py in H. cbn [INR] in H. lra.
Qed.
(** ** zernike_decomposition *)
Section Decomp.
Variables (h : heap) (ny nx : nat) (radius : R) (e : bool) (P : nat -> nat -> R).
Definition mode_of (k : nat) : nat -> nat -> R := match (let! (n, m) := ansi_j_to_n_m (Z.of_nat k) in zernike_on_grid h ny nx radius n m e) with Ok z => z | Err _ => fun _ _ => 0 end.
Lemma mode_of_ok k : 0 < radius -> (9 + 8 * Z.of_nat k <= 2 ^ 53)%Z -> exists n m, zvalid n m /\ (2 * Z.of_nat k = n * (n + 2) + m)%Z /\ samples_mode ny nx radius n m e (mode_of k) /\ ansi_j_to_n_m (Z.of_nat k) = Ok (n, m) /\ zernike_on_grid h ny nx radius n m e = Ok (mode_of k).
Proof.
  intros HR B. destruct (ansi_total (Z.of_nat k)) as (n & m & E & V & J); [lia|exact B|]. exists n, m. destruct (zernike_sampled h ny nx radius n m e V HR) as (z & Ez & S).
  assert (M : mode_of k = z). { unfold mode_of. rewrite E. cbn [rbind]. rewrite Ez. reflexivity. } rewrite M. repeat split; try assumption; apply V.
Qed.
Definition coef_of (k : nat) : R := average (inside ny nx radius) (fun i j => P i j * mode_of k i j).
Lemma loop_ok : 0 < radius -> inside ny nx radius <> [] -> forall n a cs acc, (9 + 8 * (Z.of_nat a + Z.of_nat n - 1) <= 2 ^ 53)%Z ->
  exists g, decompose_loop h ny nx radius e P (seq a n) (cs, Some acc) = Ok (cs ++ map (fun k => Some (coef_of k)) (seq a n), Some g) /\ forall i j, g i j = acc i j + rsum n (fun k => coef_of (a + k)%nat * mode_of (a + k)%nat i j).
Proof.
  intros HR NE. induction n as [|n IH]; intros a cs acc B.
  - exists acc. cbn. rewrite app_nil_r. split; [reflexivity|]. intros; ring.
  - destruct (mode_of_ok a HR) as (u & v & V & J & SM & EA & EZ); [lia|]. cbn [seq decompose_loop]. unfold decompose_step. rewrite EA. cbn [rbind]. rewrite EZ. cbn [rbind fst snd coefficient]. rewrite mean_sel_some by exact NE. cbn [add_mode]. fold (coef_of a).
    destruct (IH (S a) (cs ++ [Some (coef_of a)]) (fun i j => acc i j + coef_of a * mode_of a i j)) as (g & E & G); [lia|]. exists g. split.
    + etransitivity; [exact E|]. rewrite <- app_assoc. reflexivity.
    + intros i j. rewrite G. rewrite NablaFacts.rsum_head. rewrite Nat.add_0_r. rewrite (rsum_ext n _ (fun k => coef_of (a + S k)%nat * mode_of (a + S k)%nat i j)) by (intros; rewrite Nat.add_succ_comm; reflexivity). ring.
Qed.
Lemma loop_empty : 0 < radius -> inside ny nx radius = [] -> forall n a cs acc, (9 + 8 * (Z.of_nat a + Z.of_nat n - 1) <= 2 ^ 53)%Z ->
  decompose_loop h ny nx radius e P (seq a n) (cs, acc) = Ok (cs ++ repeat None n, if Nat.eqb n 0 then acc else None).
Proof.
  intros HR NE. induction n as [|n IH]; intros a cs acc B.
  - cbn. rewrite app_nil_r. reflexivity.
  - destruct (mode_of_ok a HR) as (u & v & V & J & SM & EA & EZ); [lia|]. cbn [seq decompose_loop]. unfold decompose_step. rewrite EA. cbn [rbind]. rewrite EZ. cbn [rbind fst snd coefficient]. rewrite mean_sel_none by exact NE.
    replace (add_mode acc None (mode_of a)) with (@None (nat -> nat -> R)) by (destruct acc; reflexivity). rewrite IH by lia. rewrite <- app_assoc. cbn [repeat app Nat.eqb]. destruct n; reflexivity.
Qed.
End Decomp.
Lemma decompose_spec h ny nx P radius (T : nat) e : 0 < radius -> inside ny nx radius <> [] -> (9 + 8 * (Z.of_nat T - 1) <= 2 ^ 53)%Z ->
  exists zs cs g, zernike_decomposition h ny nx P radius (Z.of_nat T) e = Ok (map Some cs, Some g) /\ length cs = T /\
  (forall k, (k < T)%nat -> exists n m, zvalid n m /\ (2 * Z.of_nat k = n * (n + 2) + m)%Z /\ samples_mode ny nx radius n m e (zs k)) /\
  (forall k, (k < T)%nat -> nth k cs 0 = average (inside ny nx radius) (fun i j => P i j * zs k i j)) /\
  agree ny nx g (fun i j => rsum T (fun k => nth k cs 0 * zs k i j)).
Proof.
  intros HR NE B. unfold zernike_decomposition. rewrite Nat2Z.id. destruct (loop_ok h ny nx radius e P HR NE T 0 [] (fun _ _ => 0)) as (g & E & G); [lia|].
  exists (mode_of h ny nx radius e), (map (coef_of h ny nx radius e P) (seq 0 T)), g. split; [rewrite E, map_map; reflexivity|]. split; [rewrite map_length, seq_length; reflexivity|].
  assert (N : forall k, (k < T)%nat -> nth k (map (coef_of h ny nx radius e P) (seq 0 T)) 0 = coef_of h ny nx radius e P k).
  { intros k Hk. rewrite (nth_indep _ 0 (coef_of h ny nx radius e P 0)) by (rewrite map_length, seq_length; exact Hk). rewrite map_nth, seq_nth by exact Hk. reflexivity. }
  split; [|split].
  - intros k Hk. destruct (mode_of_ok h ny nx radius e k HR) as (n & m & V & J & S & _); [lia|]. exists n, m. auto.
  - intros k Hk. rewrite N by exact Hk. reflexivity.
  - intros i j Hi Hj. rewrite G, Rplus_0_l. apply rsum_ext. intros k Hk. rewrite N by exact Hk. reflexivity.
Qed.
Lemma decompose_linear h ny nx P Q radius T e a b cs1 g1 cs2 g2 cs3 g3 : 0 < radius -> inside ny nx radius <> [] -> (9 + 8 * (Z.of_nat T - 1) <= 2 ^ 53)%Z ->
  zernike_decomposition h ny nx P radius (Z.of_nat T) e = Ok (map Some cs1, Some g1) -> zernike_decomposition h ny nx Q radius (Z.of_nat T) e = Ok (map Some cs2, Some g2) ->
  zernike_decomposition h ny nx (fun i j => a * P i j + b * Q i j) radius (Z.of_nat T) e = Ok (map Some cs3, Some g3) ->
  (forall k, (k < T)%nat -> nth k cs3 0 = a * nth k cs1 0 + b * nth k cs2 0) /\ agree ny nx g3 (fun i j => a * g1 i j + b * g2 i j).
Proof.
  intros HR NE B E1 E2 E3. unfold zernike_decomposition in *. rewrite Nat2Z.id in *.
  assert (I : forall l l' : list R, map Some l = map Some l' -> l = l'). { induction l as [|x l IH]; intros [|y l']; cbn; try discriminate; [reflexivity|]. intros H. injection H as -> H. f_equal. apply IH, H. }
  assert (X : forall R0 cs g, decompose_loop h ny nx radius e R0 (seq 0 T) ([], Some (fun _ _ => 0)) = Ok (map Some cs, Some g) ->
    cs = map (coef_of h ny nx radius e R0) (seq 0 T) /\ forall i j, g i j = rsum T (fun k => coef_of h ny nx radius e R0 k * mode_of h ny nx radius e k i j)).
  { intros R0 cs g E. destruct (loop_ok h ny nx radius e R0 HR NE T 0 [] (fun _ _ => 0)) as (g' & E' & G); [lia|]. rewrite E in E'. cbn [app] in E'. assert (Y1 : map Some cs = map (fun k => Some (coef_of h ny nx radius e R0 k)) (seq 0 T)) by congruence. assert (Y2 : g = g') by congruence. split.
    - apply I. rewrite Y1, map_map. reflexivity.
    - intros i j. rewrite Y2, G. rewrite Rplus_0_l. reflexivity. }
  destruct (X _ _ _ E1) as [-> G1]. destruct (X _ _ _ E2) as [-> G2]. destruct (X _ _ _ E3) as [-> G3].
  assert (L : forall k, coef_of h ny nx radius e (fun i j => a * P i j + b * Q i j) k = a * coef_of h ny nx radius e P k + b * coef_of h ny nx radius e Q k).
  { intros k. unfold coef_of. rewrite <- average_lin. apply average_ext. intros; ring. }
  split.
  - intros k Hk. assert (N : forall f, nth k (map f (seq 0 T)) 0 = f k). { intros f. rewrite (nth_indep _ 0 (f 0%nat)) by (rewrite map_length, seq_length; exact Hk). rewrite map_nth, seq_nth by exact Hk. reflexivity. } rewrite !N. apply L.
  - intros i j Hi Hj. rewrite G1, G2, G3. rewrite <- !rsum_scal_l, <- rsum_plus. apply rsum_ext. intros k Hk. rewrite L. ring.
Qed.
Lemma decompose_prefix h ny nx P radius T T' e cs g : 0 < radius -> inside ny nx radius <> [] -> (9 + 8 * (Z.of_nat (T + T') - 1) <= 2 ^ 53)%Z ->
  zernike_decomposition h ny nx P radius (Z.of_nat (T + T')) e = Ok (cs, g) -> exists g', zernike_decomposition h ny nx P radius (Z.of_nat T) e = Ok (firstn T cs, g').
Proof.
  intros HR NE B E. unfold zernike_decomposition in *. rewrite Nat2Z.id in *. destruct (loop_ok h ny nx radius e P HR NE (T + T') 0 [] (fun _ _ => 0)) as (g1 & E1 & _); [lia|]. destruct (loop_ok h ny nx radius e P HR NE T 0 [] (fun _ _ => 0)) as (g2 & E2 & _); [lia|].
  exists (Some g2). rewrite E2. rewrite E in E1. cbn [app] in *. assert (X : cs = map (fun k => Some (coef_of h ny nx radius e P k)) (seq 0 (T + T'))) by congruence. rewrite X. rewrite firstn_map, seq_app, firstn_app, seq_length, Nat.sub_diag. cbn [firstn]. rewrite app_nil_r, firstn_all2 by (rewrite seq_length; lia). reflexivity.
Qed.
Lemma decompose_outside h ny nx P radius T cs g i j : 0 < radius -> inside ny nx radius <> [] -> (9 + 8 * (Z.of_nat T - 1) <= 2 ^ 53)%Z -> zernike_decomposition h ny nx P radius (Z.of_nat T) false = Ok (cs, Some g) ->
  (i < ny)%nat -> (j < nx)%nat -> radius ^ 2 < dist_sq ny nx i j -> g i j = 0.
Proof.
  intros HR NE B E Hi Hj D. destruct (decompose_spec h ny nx P radius T false HR NE B) as (zs & cs' & g' & E' & _ & S & _ & G). rewrite E in E'. assert (Y : g = g') by congruence. rewrite Y, G by assumption. rewrite (rsum_ext T _ (fun _ => 0)), rsum_0; [reflexivity|]. intros k Hk.
  destruct (S k Hk) as (n & m & V & J & Z). destruct (polar_pixel ny nx i j) as (r & phi & Hr & X & Y' & Dr). rewrite (Z i j r phi Hi Hj Hr X Y'). rewrite (disc_polar ny nx radius i j) by assumption. unfold disc. destruct (Rle_dec _ _); [lra|ring].
Qed.
Lemma decompose_empty h ny nx P radius T e : 0 < radius -> inside ny nx radius = [] -> (9 + 8 * (Z.of_nat T - 1) <= 2 ^ 53)%Z -> (0 < T)%nat -> zernike_decomposition h ny nx P radius (Z.of_nat T) e = Ok (repeat None T, None).
Proof.
  intros HR NE B HT. unfold zernike_decomposition. rewrite Nat2Z.id. rewrite loop_empty by (assumption || lia). destruct T; [lia|]. reflexivity.
Qed.
