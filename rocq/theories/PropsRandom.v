(** C76: statistics of the randomly thresholded states. *)
From Coq Require Import Reals Lra ZArith Arith List Bool Lia.
From Coquelicot Require Import Complex.
From Verif Require Import Cx Sums DFT PyBase ProfileModel SlmModel LibModel DmdModel SimModel SimSpec GridFacts SimFacts SimFacts2 SimExamples DmdSpec DmdFacts DmdFacts2 RandomFacts DmdThms DmdExamples StatSpec StatThms.
Import ListNotations.
Open Scope R_scope.

(** ** C76 *)
Theorem C76_random_grating_mean : forall h d amp pin pout A Pi Po kw m input F,
  let s := d_slm d in
  reads h s amp A -> reads h s pin Pi -> reads h s pout Po -> d_p d <> 0 -> 0 < dflt (k_r kw) 10 -> (forall i j, in_array d i j -> 0 <= A i j <= 1) ->
  full_input h s input F -> (0 < s_Nx s)%nat -> (0 < s_Ny s)%nat -> pixel_size s <> 0 ->
  exists g, (forall i j, in_array d i j -> 0 <= g i j < 1 /\ exists q, folded (carrier d i j - signed (d_neg d) (Po i j - Pi i j)) q /\ g i j = duty (dflt (k_r kw) 10) q (A i j)) /\
  forall N I n_g Ig,
  (forall u, propagate_to_image h (DevDmd (fst (set_dmd_grating_state h d amp pin pout MRandom kw u))) m input = (N u, Ok tt) /\ field_is (f_image (N u)) (NY s m) (NX s m) (I u)) ->
  propagate_to_image h (DevDmd (with_state d (DFloat (s_Ny s) (s_Nx s) (fun i j => Fin (g i j))))) m input = (n_g, Ok tt) -> field_is (f_image n_g) (NY s m) (NX s m) Ig ->
  forall p q, (p < NY s m)%nat -> (q < NX s m)%nat ->
  is_mean (mirrors (s_Ny s) (s_Nx s)) (fun u => fst (I u p q)) (fun _ => fst (Ig p q)) /\
  is_mean (mirrors (s_Ny s) (s_Nx s)) (fun u => snd (I u p q)) (fun _ => snd (Ig p q)) /\
  is_mean (mirrors (s_Ny s) (s_Nx s)) (fun u => Cmod (I u p q) ^ 2)
    (fun _ => Cmod (Ig p q) ^ 2 + (pixel_size s ^ 2 / (wavelength s * focal_length s)) ^ 2 * rsum2 (s_Ny s) (s_Nx s) (fun i j => g i j * (1 - g i j) * Cmod (F i j) ^ 2)).
Proof. exact random_grating_mean. Qed.
Print Assumptions C76_random_grating_mean.
Theorem C76_random_hologram_mean : forall h d input target w F T W kw m,
  let s := d_slm d in
  full_input h s input F -> full_target h s target T -> window_reads h s w W -> d_p d <> 0 ->
  (0 < s_Ny s)%nat -> (0 < s_Nx s)%nat -> scaling_factor s <> 0 -> pixel_size s <> 0 -> 0 < dflt (k_r kw) 10 ->
  (forall i j, in_array d i j -> F i j = RtoC 0 -> windowed d T W i j = RtoC 0) ->
  (exists i j, in_array d i j /\ windowed d T W i j <> RtoC 0) ->
  exists g M, 0 < M /\
  (forall i j, in_array d i j -> 0 <= g i j < 1 /\ exists q, folded (carrier d i j - signed (d_neg d) (phase_of (windowed d T W i j) - carg (F i j))) q /\
     g i j = duty (dflt (k_r kw) 10) q (Cmod (windowed d T W i j) / Cmod (F i j) / M)) /\
  (forall u, snd (calculate_dmd_state h d input target MRandom w kw u) = Ok (Fin (eta_scale s / M))) /\
  forall N I n_g Ig,
  (forall u, propagate_to_image h (DevDmd (fst (calculate_dmd_state h d input target MRandom w kw u))) m input = (N u, Ok tt) /\ field_is (f_image (N u)) (NY s m) (NX s m) (I u)) ->
  propagate_to_image h (DevDmd (with_state d (DFloat (s_Ny s) (s_Nx s) (fun i j => Fin (g i j))))) m input = (n_g, Ok tt) -> field_is (f_image n_g) (NY s m) (NX s m) Ig ->
  forall p q, (p < NY s m)%nat -> (q < NX s m)%nat ->
  is_mean (mirrors (s_Ny s) (s_Nx s)) (fun u => fst (I u p q)) (fun _ => fst (Ig p q)) /\
  is_mean (mirrors (s_Ny s) (s_Nx s)) (fun u => snd (I u p q)) (fun _ => snd (Ig p q)) /\
  is_mean (mirrors (s_Ny s) (s_Nx s)) (fun u => Cmod (I u p q) ^ 2)
    (fun _ => Cmod (Ig p q) ^ 2 + (pixel_size s ^ 2 / (wavelength s * focal_length s)) ^ 2 * rsum2 (s_Ny s) (s_Nx s) (fun i j => g i j * (1 - g i j) * Cmod (F i j) ^ 2)).
Proof. exact random_hologram_mean. Qed.
Print Assumptions C76_random_hologram_mean.
(** Every draw can be simulated, and the field is a function of the draw: a 4 x 2 DMD, random grating of amplitude 3/4. *)
Example C76_case : reads ex_heap (d_slm ex4) half (fun _ _ => 3 / 4) /\ reads ex_heap (d_slm ex4) zero_phase (fun _ _ => 0) /\ 0 < dflt (k_r no_kwargs) 10 /\
  exists N I, forall u, propagate_to_image ex_heap (DevDmd (fst (set_dmd_grating_state ex_heap ex4 half zero_phase zero_phase MRandom no_kwargs u))) ex_sim in4 = (N u, Ok tt) /\
    field_is (f_image (N u)) (NY (d_slm ex4) ex_sim) (NX (d_slm ex4) ex_sim) (I u).
Proof.
  assert (R1 := reads_const ex_heap (d_slm ex4) (3 / 4)). assert (R2 := reads_const ex_heap (d_slm ex4) 0).
  split; [exact R1|]. split; [exact R2|]. split; [cbn; lra|].
  set (D := fun u => fst (set_dmd_grating_state ex_heap ex4 half zero_phase zero_phase MRandom no_kwargs u)).
  exists (fun u => fst (propagate_to_image ex_heap (DevDmd (D u)) ex_sim in4)).
  exists (fun u => match f_image (fst (propagate_to_image ex_heap (DevDmd (D u)) ex_sim in4)) with Some (T2 _ _ f) => f | _ => fun _ _ => RtoC 0 end).
  intros u. fold (D u). destruct (random_spec ex_heap ex4 half zero_phase zero_phase _ _ _ no_kwargs u R1 R2 R2) as (f & E & _); [cbn; lra|cbn; lra|].
  assert (ED : D u = with_state ex4 (DBool 2 4 f)) by (unfold D; rewrite E; reflexivity). rewrite ED.
  assert (HS := state_bool (with_state ex4 (DBool 2 4 f)) f eq_refl). assert (HF : full_input ex_heap (d_slm (with_state ex4 (DBool 2 4 f))) in4 F4) by reflexivity.
  destruct (propagate_succeeds ex_heap (DevDmd (with_state ex4 (DBool 2 4 f))) ex_sim in4 F4 _ HF HS) as [n P]; [cbn; lia|cbn; lia|unfold scaling_factor; cbn; lra|].
  destruct (propagate_inv ex_heap (DevDmd (with_state ex4 (DBool 2 4 f))) ex_sim in4 F4 _ n HF HS P) as (_ & _ & _ & _ & _ & _ & _ & Hi).
  rewrite P. cbn [fst]. split; [reflexivity|]. unfold field_is in *. destruct (f_image n) as [[z|ny nx g]|]; try contradiction.
  cbn [teq] in Hi |- *. destruct Hi as (-> & -> & _). repeat split.
Qed.
