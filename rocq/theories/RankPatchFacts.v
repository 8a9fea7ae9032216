(** Gratings and patches for arrays of any rank (C152, C153). *)
From Coq Require Import Reals Lra Lia ZArith Arith List Bool.
From Verif Require Import Cx PyBase SlmModel LibModel DmdModel GridFacts DmdSpec DmdFacts2 RankModel RankSpec RankFacts RankFacts2 RankFacts4 RankPatchModel RankPatchSpec.
Import ListNotations.
Open Scope R_scope.

(** ** Two axes *)
Lemma grating_two h d amp pin pout m kw u v : m <> MIfta -> (forall i j, v [j; i] = u i j) ->
  match nd_grating_of d (nd_of amp) (nd_of pin) (nd_of pout) m (k_r kw) v, grating_of h d (ATensorR amp) (ATensorR pin) (ATensorR pout) m kw u with
  | Ok n, Ok s => same_state n s | Err e, Err e' => e = e' | _, _ => False end.
Proof.
  intros Hm Hv. unfold nd_grating_of, grating_of. cbn [profile_to_tensor_r rbind].
  destruct (grid_is_shape _ _ _ _ _ (fourier_plane_grid_is (d_slm d))) as (gx & gy & ->).
  assert (G := same_dmd_grating m (d_neg d) (nmap Fin (nd_of amp)) (nd_of pin) (nd_of pout) (T2 (s_Ny (d_slm d)) (s_Nx (d_slm d)) gx) (T2 (s_Ny (d_slm d)) (s_Nx (d_slm d)) gy)
    (d_p d) (d_theta d) kw (raw_tensor (k_input kw)) (raw_tensor (k_window kw)) u v (tmap Fin amp) pin pout Hm Hv ltac:(discriminate) (same_map Fin _ _ (same_of amp)) (same_of pin) (same_of pout)).
  destruct (nd_calculate_dmd_grating _ _ _ _ _ _ _ _ _ _ _) as [[t|t]|e], (calculate_dmd_grating _ _ _ _ _ _ _ _ _ _ _ _ _) as [[[?|ny nx f]|[?|ny nx f]]|e']; try contradiction; cbn [rbind to_dstate same_state]; [| |exact G].
  all: destruct G as [G1 G2]; (split; [exact G1|]); intros i j Hi Hj; rewrite <- (tget_T2 ny nx f i j Hi Hj); exact (G2 i j (conj Hi Hj)).
Qed.
Theorem set_two h d st amp pin pout m kw u v : m <> MIfta -> (forall i j, v [j; i] = u i j) -> same_state st (d_state d) ->
  same_state (fst (nd_set_grating d st (nd_of amp) (nd_of pin) (nd_of pout) m (k_r kw) v)) (d_state (fst (set_dmd_grating_state h d (ATensorR amp) (ATensorR pin) (ATensorR pout) m kw u))) /\
  snd (nd_set_grating d st (nd_of amp) (nd_of pin) (nd_of pout) m (k_r kw) v) = snd (set_dmd_grating_state h d (ATensorR amp) (ATensorR pin) (ATensorR pout) m kw u).
Proof.
  intros Hm Hv Hs. assert (G := grating_two h d amp pin pout m kw u v Hm Hv). unfold nd_set_grating, set_dmd_grating_state.
  destruct (nd_grating_of _ _ _ _ _ _ _), (grating_of _ _ _ _ _ _ _ _); try contradiction; cbn [fst snd]; [split; [exact G|reflexivity]|split; [exact Hs|congruence]].
Qed.
(** ** Masks *)
Lemma number_lt i j l : In (i, j) l -> (number i j l < length l)%nat /\ nth (number i j l) l (O, O) = (i, j).
Proof.
  induction l as [|[a b] l IH]; intros H; [destruct H|]. cbn [number fst snd length nth].
  destruct (Nat.eqb_spec a i) as [->|N]; cbn [andb].
  - destruct (Nat.eqb_spec b j) as [->|N']; [split; [lia|reflexivity]|]. destruct H as [H|H]; [congruence|]. destruct (IH H). split; [lia|assumption].
  - destruct H as [H|H]; [congruence|]. destruct (IH H). split; [lia|assumption].
Qed.
Lemma in_positions ny nx mask i j : In (i, j) (positions ny nx mask) <-> (i < ny)%nat /\ (j < nx)%nat /\ mask i j = true.
Proof. unfold positions. rewrite filter_In, in_prod_iff, !in_seq. cbn [fst snd]. intuition lia. Qed.
Lemma masked_two a b ny nx : masked_axes [b; a] ny nx = if (Nat.eqb a ny && Nat.eqb b nx)%bool then Some [] else None.
Proof. reflexivity. Qed.
Lemma put_two {A} (a n : nd A) ny nx mask : nsh a = [nx; ny] -> nsh n = [nx; ny] ->
  exists a', (let! v := nd_pick n ny nx mask in nd_put a v ny nx mask) = Ok a' /\ nsh a' = [nx; ny] /\
    forall i j, (i < ny)%nat -> (j < nx)%nat -> nel a' [j; i] = if mask i j then nel n [j; i] else nel a [j; i].
Proof.
  intros Ea En. unfold nd_pick. rewrite En, masked_two, !Nat.eqb_refl. cbn [andb rbind app]. unfold nd_put. rewrite Ea, masked_two, !Nat.eqb_refl. cbn [andb nsh app length Nat.leb fits_into].
  rewrite Nat.eqb_refl. cbn [orb andb]. eexists. split; [reflexivity|]. split; [reflexivity|]. intros i j Hi Hj. cbn [nel last removelast app].
  destruct (mask i j) eqn:M; [|reflexivity]. destruct (number_lt i j _ (proj2 (in_positions ny nx mask i j) (conj Hi (conj Hj M)))) as [L1 L2].
  unfold nget. cbn [nsh nclip hd tl nel last removelast app].
  destruct (Nat.eqb_spec (length (positions ny nx mask)) 1) as [E|_].
  - replace (number i j (positions ny nx mask)) with O in L2 by lia. rewrite L2. reflexivity.
  - rewrite L2. reflexivity.
Qed.
Lemma put_shapes {A} (a n : nd A) sa sn ny nx mask : nsh a = sa -> nsh n = sn -> (masked_axes sa ny nx = None \/ masked_axes sn ny nx = None) ->
  (let! v := nd_pick n ny nx mask in nd_put a v ny nx mask) = Err ETensorFlow.
Proof.
  intros Ea En H. unfold nd_pick. rewrite En. destruct (masked_axes sn ny nx) eqn:E; cbn [rbind]; [|reflexivity]. unfold nd_put. rewrite Ea. destruct H as [-> | H]; [reflexivity|discriminate].
Qed.
Theorem patch_two h d st ci cj amp pin pout diam m kw u v : m <> MIfta -> (forall i j, v [j; i] = u i j) -> same_state st (d_state d) ->
  same_state (fst (nd_circular_patch d st ci cj (nd_of amp) (nd_of pin) (nd_of pout) diam m (k_r kw) v))
    (d_state (fst (circular_patch h d ci cj (ATensorR amp) (ATensorR pin) (ATensorR pout) diam m kw u))) /\
  snd (nd_circular_patch d st ci cj (nd_of amp) (nd_of pin) (nd_of pout) diam m (k_r kw) v) = snd (circular_patch h d ci cj (ATensorR amp) (ATensorR pin) (ATensorR pout) diam m kw u).
Proof.
  intros Hm Hv Hs. assert (G := grating_two h d amp pin pout m kw u v Hm Hv). unfold nd_circular_patch, circular_patch.
  destruct (nd_grating_of _ _ _ _ _ _ _) as [n|], (grating_of _ _ _ _ _ _ _ _) as [s|]; try contradiction; cbn [fst snd]; [|split; [exact Hs|congruence]].
  destruct (fourier_plane_pixel_grid (d_slm d)) as [ii jj]. set (mask := fun i j => circular_mask ci cj diam (tget ii i j) (tget jj i j)). cbv zeta.
  set (Ny := s_Ny (d_slm d)). set (Nx := s_Nx (d_slm d)).
  assert (K : forall A (a b : nd A) ny nx ny' nx', nsh a = [nx; ny] -> nsh b = [nx'; ny'] ->
    ((Nat.eqb ny Ny && Nat.eqb nx Nx) && (Nat.eqb ny' Ny && Nat.eqb nx' Nx))%bool = false -> (let! v := nd_pick b Ny Nx mask in nd_put a v Ny Nx mask) = Err ETensorFlow).
  { intros A a b ny nx ny' nx' Ea Eb F. apply (put_shapes a b _ _ Ny Nx mask Ea Eb). rewrite !masked_two. apply andb_false_iff in F. destruct F as [F|F]; rewrite F; auto. }
  destruct st as [a|a], (d_state d) as [ny nx f|ny nx f] eqn:Ed; cbn [same_state] in Hs; try contradiction; destruct n as [b|b], s as [ny' nx' g|ny' nx' g]; cbn [same_state] in G; try contradiction;
    destruct Hs as [Ea Va], G as [Eb Vb]; cbn [masked_assign];
    (destruct (((Nat.eqb ny Ny && Nat.eqb nx Nx) && (Nat.eqb ny' Ny && Nat.eqb nx' Nx))%bool) eqn:F;
     [|erewrite K; [cbn [fst snd]; rewrite Ed; cbn [same_state]; split; [split; [exact Ea|exact Va]|reflexivity]|exact Ea|exact Eb|exact F]]);
    apply andb_true_iff in F; destruct F as [F F']; apply andb_true_iff in F; apply andb_true_iff in F'; destruct F as [F1 F2], F' as [F3 F4];
    apply Nat.eqb_eq in F1, F2, F3, F4; subst ny nx ny' nx'.
  - destruct (put_two a b Ny Nx mask Ea Eb) as (a' & -> & E1 & E2). cbn [fst snd d_state with_state same_state]. split; [|reflexivity]. split; [exact E1|].
    intros i j Hi Hj. rewrite E2, (Vb i j), (Va i j) by assumption. reflexivity.
  - destruct (put_two a (nmap xr_to_bool b) Ny Nx mask Ea Eb) as (a' & -> & E1 & E2). cbn [fst snd d_state with_state same_state]. split; [|reflexivity]. split; [exact E1|].
    intros i j Hi Hj. rewrite E2 by assumption. cbn [nmap nel]. rewrite (Vb i j), (Va i j) by assumption. reflexivity.
  - destruct (put_two a (nmap bool_to_xr b) Ny Nx mask Ea Eb) as (a' & -> & E1 & E2). cbn [fst snd d_state with_state same_state]. split; [|reflexivity]. split; [exact E1|].
    intros i j Hi Hj. rewrite E2 by assumption. cbn [nmap nel]. rewrite (Vb i j), (Va i j) by assumption. reflexivity.
  - destruct (put_two a b Ny Nx mask Ea Eb) as (a' & -> & E1 & E2). cbn [fst snd d_state with_state same_state]. split; [|reflexivity]. split; [exact E1|].
    intros i j Hi Hj. rewrite E2, (Vb i j), (Va i j) by assumption. reflexivity.
Qed.
