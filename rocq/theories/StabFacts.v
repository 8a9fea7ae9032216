(** Errors of the pattern and of the beam, and what they do to image and mirrors (C87). *)
From Coq Require Import Reals Lra ZArith Arith List Bool Lia.
From Coquelicot Require Import Complex.
From Verif Require Import Cx Sums DFT PyBase ProfileModel SlmModel LibModel DmdModel SimModel SimSpec GridFacts GridFacts2 SimFacts SimFacts2 SimFacts4 SimFacts5 DmdSpec DmdFacts2.
Open Scope R_scope.

Lemma RtoC_m1 : RtoC (-1) = (- RtoC 1)%C.
Proof. unfold RtoC, Copp. cbn [fst snd]. f_equal; ring. Qed.
Section Two.
Variables (h h' : heap) (dev dev' : device) (m : sim) (a a' : parg) (F F' S S' : nat -> nat -> C) (n n' : sim) (I I' : nat -> nat -> C).
Let s := dev_slm dev.
Hypothesis same : dev_slm dev' = s.
Hypothesis HF : full_input h s a F. Hypothesis HF' : full_input h' s a' F'. Hypothesis HS : full_state dev S. Hypothesis HS' : full_state dev' S'.
Hypothesis P1 : propagate_to_image h dev m a = (n, Ok tt). Hypothesis P2 : propagate_to_image h' dev' m a' = (n', Ok tt).
Hypothesis HI : field_is (f_image n) (NY s m) (NX s m) I. Hypothesis HI' : field_is (f_image n') (NY s m) (NX s m) I'.
Hypothesis Hx : (0 < s_Nx s)%nat. Hypothesis Hy : (0 < s_Ny s)%nat. Hypothesis Hp : pixel_size s <> 0.
Let D i j : C := (F i j * S i j - F' i j * S' i j)%C.

(** A device that is switched on everywhere, in the beam D, shows the difference. *)
Let on := DevDmd {| d_slm := s; d_p := 1; d_theta := 0; d_neg := false; d_state := DBool (s_Ny s) (s_Nx s) (fun _ _ => true) |}. Let b := AConstC (T2 (s_Ny s) (s_Nx s) D).
Lemma difference_image :
  full_input h s b D /\ full_state on (fun _ _ => RtoC 1) /\ exists n3, propagate_to_image h on m b = (n3, Ok tt) /\ field_is (f_image n3) (NY s m) (NX s m) (fun u v => (I u v - I' u v)%C).
Proof.
  assert (Hb : full_input h s b D) by reflexivity. assert (Ho : full_state on (fun _ _ => RtoC 1)) by reflexivity.
  destruct (propagate_inv _ _ _ _ _ _ _ HF HS P1) as (Q1 & Q2 & Q3 & _). fold s in Q3.
  destruct (propagate_succeeds h on m b D _ Hb Ho Q1 Q2 Q3) as (n3 & P3). split; [exact Hb|]. split; [exact Ho|]. exists n3. split; [exact P3|].
  destruct (propagate_inv h on m b D _ n3 Hb Ho P3) as (_ & _ & _ & _ & _ & _ & _ & A3). refine (field_is_ext _ _ _ _ _ _ A3). intros u v Hu Hv.
  match type of A3 with field_is _ _ _ ?g => assert (K : g u v = (RtoC 1 * I u v + RtoC (-1) * I' u v)%C) by (apply (states_combine h h' h dev dev' on m a a' b F F' D S S' (fun _ _ => RtoC 1) (RtoC 1) (RtoC (-1)) n n' n3 I I' g eq_refl same HF HF' Hb HS HS' Ho); try assumption; intros i j _ _; unfold D; rewrite RtoC_m1; ring) end.
  cbv beta in K. rewrite K, RtoC_m1. ring.
Qed.
Lemma error_power : power_of (scaling_factor s ^ 2 / (INR (NX s m) * INR (NY s m) * pixel_size s ^ 2)) (NY s m) (NX s m) (fun u v => (I u v - I' u v)%C) = power_of (pixel_size s ^ 2) (s_Ny s) (s_Nx s) D.
Proof.
  destruct difference_image as (Hb & Ho & n3 & P3 & A3). destruct (powers_after h on m b D _ n3 Hb Ho P3 Hx Hy Hp) as (_ & _ & E). destruct (propagate_inv h on m b D _ n3 Hb Ho P3) as (Q1 & Q2 & _ & Q4 & Q5 & _). change (dev_slm on) with s in E, Q4, Q5.
  assert (NXE : IZR (sim_Nx s n3) = INR (NX s m)). { unfold sim_Nx, NX. rewrite Q4. rewrite INR_IZR_INZ, Z2Nat.id by lia. reflexivity. }
  assert (NYE : IZR (sim_Ny s n3) = INR (NY s m)). { unfold sim_Ny, NY. rewrite Q5. rewrite INR_IZR_INZ, Z2Nat.id by lia. reflexivity. }
  rewrite (image_power_eq _ _ _ _ _ A3) in E; [|unfold sim_Nx; rewrite Q4; fold s; lia|unfold sim_Ny; rewrite Q5; fold s; lia|exact Hp]. injection E as E. rewrite mult_IZR, NXE, NYE in E.
  assert (0 < INR (NX s m)) by (rewrite <- NXE; apply IZR_lt; unfold sim_Nx; rewrite Q4; lia). assert (0 < INR (NY s m)) by (rewrite <- NYE; apply IZR_lt; unfold sim_Ny; rewrite Q5; lia).
  unfold power_of at 1. rewrite rsum2_Cmod. replace (scaling_factor s ^ 2 / (INR (NX s m) * INR (NY s m) * pixel_size s ^ 2)) with (scaling_factor s ^ 2 / (INR (NX s m) * INR (NY s m)) / pixel_size s ^ 2) by (field; lra).
  etransitivity; [exact E|]. unfold power_of. f_equal. apply rsum2_ext. intros i j _ _. rewrite Cmult_1_r. reflexivity.
Qed.
Lemma error_pointwise u v : (u < NY s m)%nat -> (v < NX s m)%nat -> Cmod (I u v - I' u v)%C <= Rabs (pixel_size s ^ 2 / (wavelength s * focal_length s)) * rsum2 (s_Ny s) (s_Nx s) (fun i j => Cmod (D i j)).
Proof.
  intros Hu Hv. destruct difference_image as (Hb & Ho & n3 & P3 & A3). destruct (propagate_inv h on m b D _ n3 Hb Ho P3) as (Q1 & Q2 & _).
  destruct (padded_grid_sizes s m Q2 Q1 Hp) as (_ & X & Y & G). replace (s_Ny s + 2 * Z.to_nat (pad_y m))%nat with (NY s m) in G by (unfold NY; lia). replace (s_Nx s + 2 * Z.to_nat (pad_x m))%nat with (NX s m) in G by (unfold NX; lia).
  destruct (axis_value h on m b D _ n3 _ X Y Hb Ho P3 Hx Hy Hp G A3 u v Hu Hv) as [B _]. eapply Rle_trans; [exact B|]. cbn [dev_slm d_slm]. right. f_equal. apply rsum2_ext. intros i j _ _. rewrite Cmult_1_r. reflexivity.
Qed.
End Two.

(** ** Two binary patterns *)
Lemma wrong_mirrors h d d' m a b b' F n n' I I' : d_slm d' = d_slm d -> d_state d = DBool (s_Ny (d_slm d)) (s_Nx (d_slm d)) b ->
  d_state d' = DBool (s_Ny (d_slm d)) (s_Nx (d_slm d)) b' -> full_input h (d_slm d) a F ->
  propagate_to_image h (DevDmd d) m a = (n, Ok tt) -> propagate_to_image h (DevDmd d') m a = (n', Ok tt) ->
  field_is (f_image n) (NY (d_slm d) m) (NX (d_slm d) m) I -> field_is (f_image n') (NY (d_slm d) m) (NX (d_slm d) m) I' ->
  (0 < s_Nx (d_slm d))%nat -> (0 < s_Ny (d_slm d))%nat -> pixel_size (d_slm d) <> 0 ->
  power_of (scaling_factor (d_slm d) ^ 2 / (INR (NX (d_slm d) m) * INR (NY (d_slm d) m) * pixel_size (d_slm d) ^ 2)) (NY (d_slm d) m) (NX (d_slm d) m) (fun u v => (I u v - I' u v)%C)
  = pixel_size (d_slm d) ^ 2 * rsum2 (s_Ny (d_slm d)) (s_Nx (d_slm d)) (fun i j => if Bool.eqb (b i j) (b' i j) then 0 else Cmod (F i j) ^ 2).
Proof.
  intros Es Sb Sb' HF P1 P2 HI HI' Hx Hy Hp. assert (H1 := state_bool d b Sb). assert (H2 : full_state (DevDmd d') (fun i j => RtoC (if b' i j then 1 else 0))) by (apply state_bool; rewrite Es; exact Sb').
  etransitivity; [exact (error_power h h (DevDmd d) (DevDmd d') m a a F F _ _ n n' I I' Es HF HF H1 H2 P1 P2 HI HI' Hx Hy Hp)|]. unfold power_of. f_equal. apply rsum2_ext. intros i j _ _.
  destruct (b i j), (b' i j); cbn [Bool.eqb].
  - replace (F i j * RtoC 1 - F i j * RtoC 1)%C with (RtoC 0) by ring. rewrite Cmod_0. ring.
  - replace (F i j * RtoC 1 - F i j * RtoC 0)%C with (F i j) by ring. reflexivity.
  - replace (F i j * RtoC 0 - F i j * RtoC 1)%C with (- F i j)%C by ring. rewrite Cmod_opp. reflexivity.
  - replace (F i j * RtoC 0 - F i j * RtoC 0)%C with (RtoC 0) by ring. rewrite Cmod_0. ring.
Qed.

(** ** Two targets *)
Lemma sin_le_id x : 0 <= x -> Rabs (sin x) <= x.
Proof.
  intros Hx. destruct (Rle_lt_dec x 1) as [H1|H1].
  - destruct (Req_dec x 0) as [->|Hn]; [rewrite sin_0, Rabs_R0; lra|]. assert (0 < x) by lra. assert (P := PI_RGT_0). assert (P2 := PI2_1).
    rewrite Rabs_pos_eq by (apply sin_ge_0; lra). left. apply sin_lt_x. lra.
  - assert (B := SIN_bound x). apply Rabs_le. lra.
Qed.
Lemma sin_abs x : Rabs (sin x) <= Rabs x.
Proof.
  destruct (Rle_lt_dec 0 x) as [H|H]; [rewrite (Rabs_pos_eq x) by exact H; apply sin_le_id; exact H|].
  rewrite <- (Rabs_Ropp (sin x)), <- sin_neg, <- (Rabs_Ropp x). rewrite (Rabs_pos_eq (- x)) by lra. apply sin_le_id; lra.
Qed.
Lemma cos_lipschitz x y : Rabs (cos x - cos y) <= Rabs (x - y).
Proof.
  rewrite form2. replace (-2 * sin ((x - y) / 2) * sin ((x + y) / 2)) with (- (2 * sin ((x - y) / 2)) * sin ((x + y) / 2)) by ring.
  rewrite Rabs_mult, Rabs_Ropp, Rabs_mult, (Rabs_pos_eq 2) by lra. assert (A := sin_abs ((x - y) / 2)). assert (B := SIN_bound ((x + y) / 2)).
  assert (B' : Rabs (sin ((x + y) / 2)) <= 1) by (apply Rabs_le; lra). unfold Rdiv in A at 2. rewrite Rabs_mult, (Rabs_pos_eq (/ 2)) in A by lra.
  assert (0 <= Rabs (sin ((x - y) / 2))) by apply Rabs_pos. assert (0 <= Rabs (sin ((x + y) / 2))) by apply Rabs_pos. nra.
Qed.
Lemma signed_diff b x y : Rabs (signed b x - signed b y) = Rabs (x - y).
Proof. unfold signed. destruct b; [rewrite <- Rabs_Ropp; f_equal; ring|reflexivity]. Qed.
Lemma fringe_lipschitz a a' c p p' : Rabs (a * (cos (c - p) / 2 + 1 / 2) - a' * (cos (c - p') / 2 + 1 / 2)) <= Rabs (a - a') + Rabs a * Rabs (p - p') / 2.
Proof.
  replace (a * (cos (c - p) / 2 + 1 / 2) - a' * (cos (c - p') / 2 + 1 / 2)) with ((a - a') * (cos (c - p') / 2 + 1 / 2) + a * ((cos (c - p) - cos (c - p')) / 2)) by field.
  eapply Rle_trans; [apply Rabs_triang|]. rewrite !Rabs_mult. assert (B := COS_bound (c - p')). rewrite (Rabs_pos_eq (cos (c - p') / 2 + 1 / 2)) by lra.
  assert (L := cos_lipschitz (c - p) (c - p')). replace (c - p - (c - p')) with (p' - p) in L by ring. rewrite (Rabs_minus_sym p' p) in L.
  unfold Rdiv at 3. rewrite Rabs_mult, (Rabs_pos_eq (/ 2)) by lra. assert (0 <= Rabs (a - a')) by apply Rabs_pos. assert (0 <= Rabs a) by apply Rabs_pos. nra.
Qed.
Section Targets.
Variables (h h' : heap) (d : dmd) (amp pin pout amp' pin' pout' : parg) (A Pi Po A' Pi' Po' : nat -> nat -> R) (kw kw' : kwargs) (u u' : nat -> nat -> R).
Hypothesis HA : reads h (d_slm d) amp A. Hypothesis HP : reads h (d_slm d) pin Pi. Hypothesis HO : reads h (d_slm d) pout Po.
Hypothesis HA' : reads h' (d_slm d) amp' A'. Hypothesis HP' : reads h' (d_slm d) pin' Pi'. Hypothesis HO' : reads h' (d_slm d) pout' Po'.
Hypothesis Hp : d_p d <> 0.
(** How far apart the two targets are at a mirror. *)
Let gap i j := Rabs (A i j - A' i j) + Rabs (A i j) * (Rabs (Pi i j - Pi' i j) + Rabs (Po i j - Po' i j)) / 2.
Lemma gap_ok i j : Rabs (A i j * (cos (carrier d i j - signed (d_neg d) (Po i j - Pi i j)) / 2 + 1 / 2) - A' i j * (cos (carrier d i j - signed (d_neg d) (Po' i j - Pi' i j)) / 2 + 1 / 2)) <= gap i j.
Proof.
  eapply Rle_trans; [apply fringe_lipschitz|]. rewrite signed_diff. unfold gap. apply Rplus_le_compat_l. unfold Rdiv. apply Rmult_le_compat_r; [lra|]. apply Rmult_le_compat_l; [apply Rabs_pos|].
  replace (Po i j - Pi i j - (Po' i j - Pi' i j)) with (- (Pi i j - Pi' i j) + (Po i j - Po' i j)) by ring. eapply Rle_trans; [apply Rabs_triang|]. rewrite Rabs_Ropp. lra.
Qed.
Lemma ideal_lipschitz : exists g g', set_dmd_grating_state h d amp pin pout MIdeal kw u = (with_state d (DFloat (s_Ny (d_slm d)) (s_Nx (d_slm d)) g), Ok tt) /\
  set_dmd_grating_state h' d amp' pin' pout' MIdeal kw' u' = (with_state d (DFloat (s_Ny (d_slm d)) (s_Nx (d_slm d)) g'), Ok tt) /\
  forall i j, in_array d i j -> exists r r', g i j = Fin r /\ g' i j = Fin r' /\ Rabs (r - r') <= gap i j.
Proof.
  destruct (set_ideal h d amp pin pout A Pi Po HA HP HO Hp kw u) as (d1 & g & E1 & -> & V1).
  destruct (set_ideal h' d amp' pin' pout' A' Pi' Po' HA' HP' HO' Hp kw' u') as (d2 & g' & E2 & -> & V2).
  exists g, g'. split; [exact E1|]. split; [exact E2|]. intros i j [Hi Hj]. do 2 eexists. split; [exact (V1 i j Hi Hj)|]. split; [exact (V2 i j Hi Hj)|]. apply gap_ok.
Qed.
Lemma simple_margin : exists f f' g, set_dmd_grating_state h d amp pin pout MSimple kw u = (with_state d (DBool (s_Ny (d_slm d)) (s_Nx (d_slm d)) f), Ok tt) /\
  set_dmd_grating_state h' d amp' pin' pout' MSimple kw' u' = (with_state d (DBool (s_Ny (d_slm d)) (s_Nx (d_slm d)) f'), Ok tt) /\
  set_dmd_grating_state h d amp pin pout MIdeal kw u = (with_state d (DFloat (s_Ny (d_slm d)) (s_Nx (d_slm d)) g), Ok tt) /\
  forall i j, in_array d i j -> exists r, g i j = Fin r /\ (gap i j < Rabs (r - 1 / 2) -> f i j = f' i j).
Proof.
  destruct (set_ideal h d amp pin pout A Pi Po HA HP HO Hp kw u) as (d1 & g & E1 & -> & V1).
  destruct (set_simple h d amp pin pout A Pi Po HA HP HO Hp kw u) as (d2 & f & E2 & -> & V2).
  destruct (set_simple h' d amp' pin' pout' A' Pi' Po' HA' HP' HO' Hp kw' u') as (d3 & f' & E3 & -> & V3).
  exists f, f', g. split; [exact E2|]. split; [exact E3|]. split; [exact E1|]. intros i j [Hi Hj]. eexists. split; [exact (V1 i j Hi Hj)|]. intros M.
  assert (G := gap_ok i j). specialize (V2 i j Hi Hj). specialize (V3 i j Hi Hj).
  set (r := A i j * _) in *. set (r' := A' i j * _) in *. assert (K : 1 / 2 < r <-> 1 / 2 < r').
  { revert M G. generalize (gap i j). intros w M G. unfold Rabs in M, G. destruct (Rcase_abs (r - 1 / 2)), (Rcase_abs (r - r')); lra. }
  destruct (f i j), (f' i j); try reflexivity; exfalso; destruct V2, V3, K; intuition congruence.
Qed.
End Targets.
