(** Random thresholds with a finite number of values (C157). *)
From Coq Require Import Reals Lra ZArith Arith List Bool Lia.
From Flocq Require Import Core.
From Coquelicot Require Import Complex.
From Verif Require Import Cx Sums DFT PyBase ProfileModel SlmModel LibModel DmdModel SimModel SimSpec GridFacts SimFacts SimFacts2 SimExamples DmdSpec DmdFacts DmdFacts2 RandomFacts DmdThms DmdExamples StatSpec StatThms QuantSpec QuantFacts.
Import ListNotations.
Open Scope R_scope.

(** A mirror with duty cycle g is on for g K, rounded up, of the K values of its threshold. *)
Theorem C157_count : forall K g, 0 <= g <= 1 -> (0 < K)%nat ->
  INR (length (filter (fun k => if Rlt_dec (INR k / INR K) g then true else false) (seq 0 K))) = next_step (Z.of_nat K) g * INR K.
Proof. exact step_count. Qed.
Print Assumptions C157_count.
(** This is the duty cycle to within one step, never less; exact for multiples of 1/K; a whole step for any duty cycle below it that is not zero. *)
Theorem C157_step : forall K g, (0 < K)%Z -> g <= next_step K g < g + / IZR K /\ (forall k, next_step K (IZR k / IZR K) = IZR k / IZR K) /\
  (0 < g <= / IZR K -> next_step K g = / IZR K).
Proof. exact (fun K g HK => conj (step_bounds K g HK) (conj (fun k => step_exact K k HK) (step_small K g HK))). Qed.
Print Assumptions C157_step.
(** Mean image and noise; distance of the mean from that for real thresholds. *)
Theorem C157_gratings : forall h d amp pin pout A Pi Po kw m input F,
  let s := d_slm d in
  reads h s amp A -> reads h s pin Pi -> reads h s pout Po -> d_p d <> 0 -> 0 < dflt (k_r kw) 10 -> (forall i j, in_array d i j -> 0 <= A i j <= 1) ->
  full_input h s input F -> (0 < s_Nx s)%nat -> (0 < s_Ny s)%nat -> pixel_size s <> 0 ->
  exists g, (forall i j, in_array d i j -> 0 <= g i j < 1 /\ exists q, folded (carrier d i j - signed (d_neg d) (Po i j - Pi i j)) q /\ g i j = duty (dflt (k_r kw) 10) q (A i j)) /\
  forall K N I n_g Ig n0 I0, (0 < K)%Z ->
  (forall u, propagate_to_image h (DevDmd (fst (set_dmd_grating_state h d amp pin pout MRandom kw (quantised K u)))) m input = (N u, Ok tt) /\ field_is (f_image (N u)) (NY s m) (NX s m) (I u)) ->
  propagate_to_image h (DevDmd (with_state d (DFloat (s_Ny s) (s_Nx s) (fun i j => Fin (next_step K (g i j)))))) m input = (n_g, Ok tt) -> field_is (f_image n_g) (NY s m) (NX s m) Ig ->
  propagate_to_image h (DevDmd (with_state d (DFloat (s_Ny s) (s_Nx s) (fun i j => Fin (g i j))))) m input = (n0, Ok tt) -> field_is (f_image n0) (NY s m) (NX s m) I0 ->
  forall p q, (p < NY s m)%nat -> (q < NX s m)%nat ->
  is_mean (mirrors (s_Ny s) (s_Nx s)) (fun u => fst (I u p q)) (fun _ => fst (Ig p q)) /\
  is_mean (mirrors (s_Ny s) (s_Nx s)) (fun u => snd (I u p q)) (fun _ => snd (Ig p q)) /\
  is_mean (mirrors (s_Ny s) (s_Nx s)) (fun u => Cmod (I u p q) ^ 2)
    (fun _ => Cmod (Ig p q) ^ 2 + (pixel_size s ^ 2 / (wavelength s * focal_length s)) ^ 2 *
       rsum2 (s_Ny s) (s_Nx s) (fun i j => next_step K (g i j) * (1 - next_step K (g i j)) * Cmod (F i j) ^ 2)) /\
  Cmod (Ig p q - I0 p q)%C <= pixel_size s ^ 2 / Rabs (wavelength s * focal_length s) * / IZR K * rsum2 (s_Ny s) (s_Nx s) (fun i j => Cmod (F i j)).
Proof. exact quant_grating. Qed.
Print Assumptions C157_gratings.
Theorem C157_holograms : forall h d input target w F T W kw m,
  let s := d_slm d in
  full_input h s input F -> full_target h s target T -> window_reads h s w W -> d_p d <> 0 ->
  (0 < s_Ny s)%nat -> (0 < s_Nx s)%nat -> scaling_factor s <> 0 -> pixel_size s <> 0 -> 0 < dflt (k_r kw) 10 ->
  (forall i j, in_array d i j -> F i j = RtoC 0 -> windowed d T W i j = RtoC 0) ->
  (exists i j, in_array d i j /\ windowed d T W i j <> RtoC 0) ->
  exists g M, 0 < M /\
  (forall i j, in_array d i j -> 0 <= g i j < 1 /\ exists q, folded (carrier d i j - signed (d_neg d) (phase_of (windowed d T W i j) - carg (F i j))) q /\
     g i j = duty (dflt (k_r kw) 10) q (Cmod (windowed d T W i j) / Cmod (F i j) / M)) /\
  forall K N I n_g Ig n0 I0, (0 < K)%Z ->
  (forall u, propagate_to_image h (DevDmd (fst (calculate_dmd_state h d input target MRandom w kw (quantised K u)))) m input = (N u, Ok tt) /\ field_is (f_image (N u)) (NY s m) (NX s m) (I u)) ->
  propagate_to_image h (DevDmd (with_state d (DFloat (s_Ny s) (s_Nx s) (fun i j => Fin (next_step K (g i j)))))) m input = (n_g, Ok tt) -> field_is (f_image n_g) (NY s m) (NX s m) Ig ->
  propagate_to_image h (DevDmd (with_state d (DFloat (s_Ny s) (s_Nx s) (fun i j => Fin (g i j))))) m input = (n0, Ok tt) -> field_is (f_image n0) (NY s m) (NX s m) I0 ->
  forall p q, (p < NY s m)%nat -> (q < NX s m)%nat ->
  is_mean (mirrors (s_Ny s) (s_Nx s)) (fun u => fst (I u p q)) (fun _ => fst (Ig p q)) /\
  is_mean (mirrors (s_Ny s) (s_Nx s)) (fun u => snd (I u p q)) (fun _ => snd (Ig p q)) /\
  is_mean (mirrors (s_Ny s) (s_Nx s)) (fun u => Cmod (I u p q) ^ 2)
    (fun _ => Cmod (Ig p q) ^ 2 + (pixel_size s ^ 2 / (wavelength s * focal_length s)) ^ 2 *
       rsum2 (s_Ny s) (s_Nx s) (fun i j => next_step K (g i j) * (1 - next_step K (g i j)) * Cmod (F i j) ^ 2)) /\
  Cmod (Ig p q - I0 p q)%C <= pixel_size s ^ 2 / Rabs (wavelength s * focal_length s) * / IZR K * rsum2 (s_Ny s) (s_Nx s) (fun i j => Cmod (F i j)).
Proof. exact quant_hologram. Qed.
Print Assumptions C157_holograms.
(** Every draw can be simulated: a 4 x 2 DMD, random grating of amplitude 3/4, thresholds with 8 values. *)
Example C157_case : reads ex_heap (d_slm ex4) half (fun _ _ => 3 / 4) /\ reads ex_heap (d_slm ex4) zero_phase (fun _ _ => 0) /\ 0 < dflt (k_r no_kwargs) 10 /\
  quantised 8 (fun _ _ => 7 / 10) 0 0 = 5 / 8 /\ next_step 8 (7 / 10) = 6 / 8 /\
  exists N I, forall u, propagate_to_image ex_heap (DevDmd (fst (set_dmd_grating_state ex_heap ex4 half zero_phase zero_phase MRandom no_kwargs (quantised 8 u)))) ex_sim in4 = (N u, Ok tt) /\
    field_is (f_image (N u)) (NY (d_slm ex4) ex_sim) (NX (d_slm ex4) ex_sim) (I u).
Proof.
  assert (R1 := reads_const ex_heap (d_slm ex4) (3 / 4)). assert (R2 := reads_const ex_heap (d_slm ex4) 0).
  split; [exact R1|]. split; [exact R2|]. split; [cbn; lra|]. split; [unfold quantised; rewrite (Zfloor_imp 5); [reflexivity|cbn; lra]|].
  split; [unfold next_step; rewrite (Zceil_imp 6); [reflexivity|cbn; lra]|].
  set (D := fun u => fst (set_dmd_grating_state ex_heap ex4 half zero_phase zero_phase MRandom no_kwargs (quantised 8 u))).
  exists (fun u => fst (propagate_to_image ex_heap (DevDmd (D u)) ex_sim in4)).
  exists (fun u => match f_image (fst (propagate_to_image ex_heap (DevDmd (D u)) ex_sim in4)) with Some (T2 _ _ f) => f | _ => fun _ _ => RtoC 0 end).
  intros u. fold (D u). destruct (random_spec ex_heap ex4 half zero_phase zero_phase _ _ _ no_kwargs (quantised 8 u) R1 R2 R2) as (f & E & _); [cbn; lra|cbn; lra|].
  assert (ED : D u = with_state ex4 (DBool 2 4 f)) by (unfold D; rewrite E; reflexivity). rewrite ED.
  assert (HS := state_bool (with_state ex4 (DBool 2 4 f)) f eq_refl). assert (HF : full_input ex_heap (d_slm (with_state ex4 (DBool 2 4 f))) in4 F4) by reflexivity.
  destruct (propagate_succeeds ex_heap (DevDmd (with_state ex4 (DBool 2 4 f))) ex_sim in4 F4 _ HF HS) as [n P]; [cbn; lia|cbn; lia|unfold scaling_factor; cbn; lra|].
  destruct (propagate_inv ex_heap (DevDmd (with_state ex4 (DBool 2 4 f))) ex_sim in4 F4 _ n HF HS P) as (_ & _ & _ & _ & _ & _ & _ & Hi).
  rewrite P. cbn [fst]. split; [reflexivity|]. unfold field_is in *. destruct (f_image n) as [[z|ny nx g]|]; try contradiction.
  cbn [teq] in Hi |- *. destruct Hi as (-> & -> & _). repeat split.
Qed.
