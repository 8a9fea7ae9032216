(** A patch on a stack on a square panel: numpy's rule for the sizes. *)
From Coq Require Import Reals Lra Lia ZArith Arith List Bool.
From Verif Require Import Cx PyBase ProfileModel SlmModel LibModel DmdModel GridFacts RankModel RankSpec RankPatchModel RankPatchSpec RankPatchFacts RankPatchFacts2.
Import ListNotations.
Open Scope R_scope.

Lemma repeat_two (n b : nat) : repeat n (b + 2) = repeat n b ++ [n; n].
Proof. rewrite repeat_app. reflexivity. Qed.
Lemma masked_repeat n b : masked_axes (repeat n (b + 2)) n n = Some (repeat n b).
Proof. rewrite repeat_two. unfold masked_axes. rewrite rev_app_distr. cbn [rev app]. rewrite !Nat.eqb_refl. cbn [andb]. rewrite rev_involutive. reflexivity. Qed.
Lemma fits_repeat n L b : L <> n -> L <> 1%nat -> fits_into (repeat n b ++ [L]) (repeat n (S b) ++ [L]) = false.
Proof.
  intros H1 H2. induction b as [|b IH].
  - cbn [repeat app fits_into]. apply Nat.eqb_neq in H1, H2. rewrite H1, H2. reflexivity.
  - change (repeat n (S b) ++ [L]) with (n :: (repeat n b ++ [L])). change (repeat n (S (S b)) ++ [L]) with (n :: (repeat n (S b) ++ [L])). cbn [fits_into]. rewrite Nat.eqb_refl, IH. reflexivity.
Qed.
Lemma put_misfit {A} (a v : nd A) n b mask : nsh a = repeat n (S b + 2) -> nsh v = repeat n (b + 2) -> length (positions n n mask) <> n -> length (positions n n mask) <> 1%nat ->
  (let! w := nd_pick v n n mask in nd_put a w n n mask) = Err ETensorFlow.
Proof.
  intros Ha Hv H1 H2. unfold nd_pick. rewrite Hv, masked_repeat. cbn [rbind]. unfold nd_put. rewrite Ha, masked_repeat. cbn [nsh]. rewrite fits_repeat by assumption. rewrite andb_false_r. reflexivity.
Qed.
Theorem patch_counts d n b st ci cj amp pin pout diam m r u : s_Ny (d_slm d) = n -> s_Nx (d_slm d) = n -> stack_arg d (repeat n b) amp -> stack_arg d (repeat n b) pin -> stack_arg d (repeat n b) pout ->
  deep_arg d (repeat n b) amp \/ deep_arg d (repeat n b) pin \/ deep_arg d (repeat n b) pout -> m = MIdeal \/ m = MSimple \/ m = MRandom ->
  state_shape st = repeat n (b + 3) -> length (mirrors_inside n ci cj diam) <> n -> length (mirrors_inside n ci cj diam) <> 1%nat ->
  exists e, nd_circular_patch d st ci cj amp pin pout diam m r u = (st, Err e).
Proof.
  intros Ny Nx A1 A2 A3 D M Ss L1 L2. destruct (stack_accepted d (repeat n b) st amp pin pout m r u A1 A2 A3 D M) as (st' & E & Sh). rewrite Ny, Nx in Sh.
  unfold nd_set_grating in E. unfold nd_circular_patch. destruct (nd_grating_of d amp pin pout m r u) as [g|e]; [|exists e; reflexivity]. injection E as E. subst st'.
  assert (Q := fun i j => grid_is_get _ _ _ _ _ i j (fourier_plane_pixel_grid_is (d_slm d))). rewrite Ny, Nx in Q. set (u0 := fourier_plane_pixel_grid (d_slm d)) in *. assert (E0 : u0 = (fst u0, snd u0)) by (destruct u0; reflexivity). rewrite E0. cbv zeta. rewrite Ny, Nx.
  set (mask := fun i j => circular_mask _ _ _ _ _).
  assert (P : positions n n mask = mirrors_inside n ci cj diam).
  { unfold positions, mirrors_inside. apply filter_ext_in. intros [i j] I. apply in_prod_iff in I. destruct I as [I1 I2]. apply in_seq in I1, I2. cbn [fst snd]. unfold mask. destruct (Q i j ltac:(lia) ltac:(lia)) as [-> ->]. unfold circular_mask. reflexivity. }
  assert (Sg : state_shape g = repeat n (b + 2)) by (rewrite Sh; replace (b + 2)%nat with (S (S b)) by lia; reflexivity). replace (b + 3)%nat with (S b + 2)%nat in Ss by lia. rewrite <- P in L1, L2. clearbody mask.
  destruct st as [a|a], g as [t|t]; cbn [state_shape] in Sg, Ss; exists ETensorFlow; (erewrite put_misfit; [reflexivity|exact Ss|exact Sg|exact L1|exact L2]).
Qed.
Lemma three_mirrors : length (mirrors_inside 2 (1 / 2) (1 / 2) 2) = 4%nat /\ mirrors_inside 2 0 0 (5 / 2) = [(0, 0); (0, 1); (1, 0)]%nat.
Proof. unfold mirrors_inside. cbn [seq list_prod map app filter fst snd INR]. repeat (destruct (Rlt_dec _ _); try (exfalso; lra)); split; reflexivity. Qed.
