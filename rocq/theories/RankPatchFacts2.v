(** Gratings of stacks image by image; patches refuse stacks (C152, C153). *)
From Coq Require Import Reals Lra Lia ZArith Arith List Bool.
From Verif Require Import Cx PyBase SlmModel LibModel DmdModel GridFacts DmdSpec DmdFacts2 RankModel RankSpec RankFacts RankFacts2 RankFacts4 RankPatchModel RankPatchSpec RankPatchFacts.
Import ListNotations.
Open Scope R_scope.

(** ** Images of a stack *)
Lemma bdim_absorb a b n : bdim a b = Some n -> bdim n b = Some n.
Proof.
  unfold bdim. destruct (Nat.eqb_spec a b) as [->|N]; [intros E; injection E as <-; rewrite Nat.eqb_refl; reflexivity|].
  destruct (Nat.eqb_spec a 1) as [->|N1]; [intros E; injection E as <-; rewrite Nat.eqb_refl; reflexivity|].
  destruct (Nat.eqb_spec b 1) as [->|N2]; [|discriminate]. intros E. injection E as <-.
  destruct (Nat.eqb_spec a 1); [contradiction|reflexivity].
Qed.
Lemma last_shape q Nx Ny s : nbshape q [Nx; Ny] = Some s -> exists nx ny B, s = nx :: ny :: B /\ bdim nx Nx = Some nx /\ bdim ny Ny = Some ny.
Proof.
  destruct q as [|a q]; cbn [nbshape].
  - intros E. injection E as <-. exists Nx, Ny, []. rewrite !bdim_refl. auto.
  - destruct (bdim a Nx) as [nx|] eqn:Ex; [|discriminate]. destruct q as [|b q]; cbn [nbshape].
    + intros E. injection E as <-. exists nx, Ny, []. rewrite bdim_refl. split; [reflexivity|]. split; [exact (bdim_absorb _ _ _ Ex)|reflexivity].
    + destruct (bdim b Ny) as [ny|] eqn:Ey; [|discriminate]. replace (nbshape q []) with (Some q) by (destruct q; reflexivity). intros E. injection E as <-. exists nx, ny, q.
      split; [reflexivity|]. split; [exact (bdim_absorb _ _ _ Ex)|exact (bdim_absorb _ _ _ Ey)].
Qed.
Lemma bshape_self ny nx : bshape (S2 ny nx) (S2 ny nx) = Some (S2 ny nx).
Proof. cbn [bshape]. rewrite !bdim_refl. reflexivity. Qed.
Section Images.
Variables (amp pin pout : nd R) (Ny Nx : nat) (gx gy : nat -> nat -> R).
Lemma slice_grating {A} (px : xr -> R -> R -> R -> R -> list nat -> A) t :
  nd_grating px (nmap Fin amp) pin pout (nd_of (T2 Ny Nx gx)) (nd_of (T2 Ny Nx gy)) = Ok t ->
  exists ny nx B, nsh t = nx :: ny :: B /\ forall b (px' : xr -> R -> R -> R -> R -> nat -> nat -> A), (forall a p o x y i j, px a p o x y (j :: i :: b) = px' a p o x y i j) ->
    exists f, grating_tensor px' (tmap Fin (T2 ny nx (fun i j => nget amp (j :: i :: b)))) (T2 ny nx (fun i j => nget pin (j :: i :: b))) (T2 ny nx (fun i j => nget pout (j :: i :: b)))
      (T2 Ny Nx gx) (T2 Ny Nx gy) = Ok (T2 ny nx f) /\ forall i j, (i < ny)%nat -> (j < nx)%nat -> f i j = nel t (j :: i :: b).
Proof.
  unfold nd_grating. cbn [fold_left]. change (nsh (nd_of (T2 Ny Nx gx))) with [Nx; Ny]. change (nsh (nd_of (T2 Ny Nx gy))) with [Nx; Ny].
  destruct (nbshape_r (nbshape_r (nbshape_r (Ok (nsh (nmap Fin amp))) (nsh pin)) (nsh pout)) [Nx; Ny]) as [q|]; cbn [nbshape_r rbind]; [|discriminate].
  destruct (nbshape q [Nx; Ny]) as [s|] eqn:E; cbn [rbind]; [|discriminate]. intros H. injection H as <-.
  destruct (last_shape _ _ _ _ E) as (nx & ny & B & -> & Bx & By). exists ny, nx, B. split; [reflexivity|]. intros b px' P.
  unfold grating_tensor, bc_all. cbn [tmap tshape fold_left bshape_r rbind]. rewrite !bshape_self. cbn [rbind]. unfold bshape_r. cbn [rbind]. rewrite bshape_self. cbn [rbind bshape]. rewrite Bx, By. cbn [rbind bshape]. rewrite Bx, By. cbn [rbind mk].
  eexists. split; [reflexivity|]. intros i j Hi Hj. cbn beta. cbn [nel]. rewrite P. rewrite !(tget_T2 ny nx) by assumption. reflexivity.
Qed.
End Images.

Theorem images_ok h d st amp pin pout m r kw u st' : k_r kw = r -> m <> MIfta -> nd_set_grating d st amp pin pout m r u = (st', Ok tt) ->
  exists ny nx B, state_shape st' = nx :: ny :: B /\ forall b, valid B b -> exists s,
    set_dmd_grating_state h d (image_arg amp ny nx b) (image_arg pin ny nx b) (image_arg pout ny nx b) m kw (fun i j => u (j :: i :: b)) = (with_state d s, Ok tt) /\
    same_pattern s (image_state st' ny nx b).
Proof.
  intros Er Hm. unfold nd_set_grating, set_dmd_grating_state, nd_grating_of, grating_of, image_arg. cbn [profile_to_tensor_r rbind].
  destruct (grid_is_shape _ _ _ _ _ (fourier_plane_grid_is (d_slm d))) as (hx & hy & ->).
  unfold nd_calculate_dmd_grating, calculate_dmd_grating, grating_ideal, grating_simple, grating_random, guard_p. rewrite Er.
  destruct m; try (exfalso; apply Hm; reflexivity); try (intros H; discriminate).
  all: match goal with |- context [nd_grating ?px ?a ?b ?c ?x ?y] => destruct (nd_grating px a b c x y) as [t|] eqn:E end; cbn [rmap]; intros H; [|discriminate]; injection H as <-;
    destruct (slice_grating _ _ _ _ _ _ _ _ _ E) as (ny & nx & B & Es & F); exists ny, nx, B; split; [exact Es|]; intros b _.
  all: match goal with |- context [grating_tensor ?q _ _ _ _ _] => destruct (F b q) as (f & -> & Ef); [destruct (Req_EM_T (d_p d) 0); reflexivity|] end;
    cbn [rmap rbind to_dstate]; eexists; split; [reflexivity|]; cbn [same_pattern image_state]; repeat split; exact Ef.
Qed.
(** ** When a stack is accepted *)
Section Accept.
Variables (d : dmd) (B : list nat).
Let nx := s_Nx (d_slm d). Let ny := s_Ny (d_slm d).
Lemma nbshape_nil s : nbshape s [] = Some s. Proof. destruct s; reflexivity. Qed.
Lemma bdim_1l n : bdim 1 n = Some n. Proof. unfold bdim. destruct (Nat.eqb_spec 1 n) as [<-|]; reflexivity. Qed.
Lemma bdim_1r n : bdim n 1 = Some n. Proof. unfold bdim. destruct (Nat.eqb_spec n 1) as [->|]; reflexivity. Qed.
Definition okshape (s : list nat) : Prop := s = [] \/ s = [nx; ny] \/ s = 1%nat :: 1%nat :: B \/ s = nx :: ny :: B.
Definition deepshape (s : list nat) : Prop := s = 1%nat :: 1%nat :: B \/ s = nx :: ny :: B.
Lemma join_shapes s t : okshape s -> okshape t -> exists r, nbshape s t = Some r /\ okshape r /\ (deepshape s \/ deepshape t -> deepshape r).
Proof.
  assert (E1 := bdim_1l nx). assert (E2 := bdim_1l ny). assert (E3 := bdim_1r nx). assert (E4 := bdim_1r ny). assert (E5 := bdim_refl nx). assert (E6 := bdim_refl ny). assert (E7 := bdim_refl 1).
  assert (E8 := nbshape_same B). assert (E9 := nbshape_nil B).
  intros [->|[->|[->| ->]]] [->|[->|[->| ->]]]; cbn [nbshape]; rewrite ?E1, ?E2, ?E3, ?E4, ?E5, ?E6, ?E7, ?E8, ?E9; eexists; (split; [reflexivity|]); unfold okshape, deepshape; (split; [auto 6|]); auto;
    intros [[H|H]|[H|H]]; try discriminate; auto; injection H as H1; subst; auto.
Qed.
End Accept.
Theorem stack_accepted d B st amp pin pout m r u : stack_arg d B amp -> stack_arg d B pin -> stack_arg d B pout -> deep_arg d B amp \/ deep_arg d B pin \/ deep_arg d B pout ->
  m = MIdeal \/ m = MSimple \/ m = MRandom ->
  exists st', nd_set_grating d st amp pin pout m r u = (st', Ok tt) /\ state_shape st' = s_Nx (d_slm d) :: s_Ny (d_slm d) :: B.
Proof.
  intros Ha Hi Ho Hd Hm. unfold nd_set_grating, nd_grating_of. destruct (grid_is_shape _ _ _ _ _ (fourier_plane_grid_is (d_slm d))) as (hx & hy & ->).
  assert (G : forall A (px : xr -> R -> R -> R -> R -> list nat -> A), exists t,
    nd_grating px (nmap Fin amp) pin pout (nd_of (T2 (s_Ny (d_slm d)) (s_Nx (d_slm d)) hx)) (nd_of (T2 (s_Ny (d_slm d)) (s_Nx (d_slm d)) hy)) = Ok t /\ nsh t = s_Nx (d_slm d) :: s_Ny (d_slm d) :: B).
  { intros A px. unfold nd_grating. cbn [fold_left nbshape_r rbind]. change (nsh (nmap Fin amp)) with (nsh amp).
    destruct (join_shapes d B _ _ Ha Hi) as (q1 & -> & O1 & D1). cbn [nbshape_r rbind]. destruct (join_shapes d B _ _ O1 Ho) as (q2 & -> & O2 & D2). cbn [nbshape_r rbind].
    assert (D : deepshape d B q2). { apply D2. destruct Hd as [Hd|[Hd|Hd]]; [left; apply D1; left; exact Hd|left; apply D1; right; exact Hd|right; exact Hd]. }
    change (nsh (nd_of (T2 (s_Ny (d_slm d)) (s_Nx (d_slm d)) hx))) with [s_Nx (d_slm d); s_Ny (d_slm d)]. change (nsh (nd_of (T2 (s_Ny (d_slm d)) (s_Nx (d_slm d)) hy))) with [s_Nx (d_slm d); s_Ny (d_slm d)].
    assert (E : nbshape q2 [s_Nx (d_slm d); s_Ny (d_slm d)] = Some (s_Nx (d_slm d) :: s_Ny (d_slm d) :: B)).
    { destruct D as [-> | ->]; cbn [nbshape]; rewrite ?bdim_1l, ?bdim_refl, nbshape_nil; reflexivity. }
    rewrite E. cbn [nbshape_r rbind nbshape]. rewrite !bdim_refl, nbshape_nil. cbn [rbind]. eexists. split; reflexivity. }
  unfold nd_calculate_dmd_grating.
  destruct Hm as [->|[->| ->]]; match goal with |- context [nd_grating ?px _ _ _ _ _] => destruct (G _ px) as (t & -> & Et) end; cbn [rmap]; eexists; (split; [reflexivity|exact Et]).
Qed.
Theorem uneven_gratings d st amp pin pout m r u K L nx ny : m <> MUnknown -> m <> MIfta -> nsh amp = [nx; ny; K] -> nsh pin = [nx; ny; L] -> K <> L -> K <> 1%nat -> L <> 1%nat ->
  nd_set_grating d st amp pin pout m r u = (st, Err ETensorFlow).
Proof.
  intros Hm Hm' Ea Ei N1 N2 N3. unfold nd_set_grating, nd_grating_of. destruct (fourier_plane_grid (d_slm d)) as [x y].
  assert (G : forall A (px : xr -> R -> R -> R -> R -> list nat -> A) x y, nd_grating px (nmap Fin amp) pin pout x y = Err ETensorFlow).
  { intros A px x0 y0. unfold nd_grating. cbn [fold_left nbshape_r rbind]. change (nsh (nmap Fin amp)) with (nsh amp). rewrite Ea, Ei. cbn [nbshape]. rewrite !bdim_refl, (bdim_none K L N1 N2 N3). reflexivity. }
  unfold nd_calculate_dmd_grating. destruct m; try (exfalso; auto; fail); rewrite G; reflexivity.
Qed.
(** ** Patches refuse stacks *)
Lemma masked_some s ny nx t : masked_axes s ny nx = Some t -> s = t ++ [nx; ny].
Proof.
  unfold masked_axes. destruct (rev s) as [|a [|b q]] eqn:E; try discriminate. destruct (Nat.eqb_spec a ny) as [->|], (Nat.eqb_spec b nx) as [->|]; try discriminate. cbn [andb]. intros H. injection H as <-.
  rewrite <- (rev_involutive s), E. cbn [rev]. rewrite <- app_assoc. reflexivity.
Qed.
Lemma put_err {A} (a n : nd A) ny nx mask : (masked_axes (nsh a) ny nx = None \/ masked_axes (nsh n) ny nx = None \/ (length (nsh a) = 2 /\ 2 < length (nsh n))%nat) ->
  (let! v := nd_pick n ny nx mask in nd_put a v ny nx mask) = Err ETensorFlow.
Proof.
  intros H. unfold nd_pick. destruct (masked_axes (nsh n) ny nx) as [t|] eqn:En; cbn [rbind]; [|reflexivity]. unfold nd_put.
  destruct (masked_axes (nsh a) ny nx) as [q|] eqn:Ea; [|reflexivity]. destruct H as [H|[H|[H1 H2]]]; try discriminate.
  apply masked_some in En, Ea. rewrite En, app_length in H2. rewrite Ea, app_length in H1. cbn [length] in H1, H2. destruct q; [|cbn in H1; lia]. cbn [nsh]. rewrite app_length. cbn [length].
  replace (Nat.leb (length t + 1) 1) with false by (symmetry; apply Nat.leb_gt; lia). reflexivity.
Qed.
Theorem patch_refuses d st ci cj amp pin pout diam m r u : ~ first_axes (state_shape st) (s_Ny (d_slm d)) (s_Nx (d_slm d)) ->
  exists e, nd_circular_patch d st ci cj amp pin pout diam m r u = (st, Err e).
Proof.
  intros H. unfold nd_circular_patch. destruct (nd_grating_of d amp pin pout m r u) as [n|e]; [|exists e; reflexivity]. destruct (fourier_plane_pixel_grid (d_slm d)) as [ii jj]. cbv zeta.
  assert (N : masked_axes (state_shape st) (s_Ny (d_slm d)) (s_Nx (d_slm d)) = None).
  { destruct (masked_axes (state_shape st) (s_Ny (d_slm d)) (s_Nx (d_slm d))) eqn:E; [|reflexivity]. exfalso. apply H. eexists. exact (masked_some _ _ _ _ E). }
  destruct st as [a|a]; rewrite put_err by (left; exact N); exists ETensorFlow; reflexivity.
Qed.
Lemma nbshape_length s : forall t r, nbshape s t = Some r -> length r = Nat.max (length s) (length t).
Proof.
  induction s as [|a s IH]; intros [|b t] r; cbn [nbshape]; intros E; try (injection E as <-; cbn [length]; lia).
  destruct (bdim a b); [|discriminate]. destruct (nbshape s t) as [q|] eqn:Q; [|discriminate]. injection E as <-. cbn [length]. rewrite (IH _ _ Q). lia.
Qed.
Lemma grating_length d amp pin pout m r u n : nd_grating_of d amp pin pout m r u = Ok n -> (Nat.max (length (nsh amp)) (Nat.max (length (nsh pin)) (length (nsh pout))) <= length (state_shape n))%nat.
Proof.
  unfold nd_grating_of. destruct (fourier_plane_grid (d_slm d)) as [x y].
  assert (G : forall A (px : xr -> R -> R -> R -> R -> list nat -> A) x y t, nd_grating px (nmap Fin amp) pin pout x y = Ok t ->
    (Nat.max (length (nsh amp)) (Nat.max (length (nsh pin)) (length (nsh pout))) <= length (nsh t))%nat).
  { intros A px x0 y0 t. unfold nd_grating. cbn [fold_left nbshape_r rbind]. change (nsh (nmap Fin amp)) with (nsh amp).
    destruct (nbshape (nsh amp) (nsh pin)) as [q1|] eqn:E1; cbn [nbshape_r rbind]; [|discriminate]. destruct (nbshape q1 (nsh pout)) as [q2|] eqn:E2; cbn [nbshape_r rbind]; [|discriminate].
    destruct (nbshape q2 (nsh x0)) as [q3|] eqn:E3; cbn [nbshape_r rbind]; [|discriminate]. destruct (nbshape q3 (nsh y0)) as [q4|] eqn:E4; cbn [nbshape_r rbind]; [|discriminate].
    intros H. injection H as <-. cbn [nsh]. apply nbshape_length in E1, E2, E3, E4. lia. }
  unfold nd_calculate_dmd_grating. destruct m; try discriminate; match goal with |- context [nd_grating ?p ?a ?b ?c ?x ?y] => destruct (nd_grating p a b c x y) as [t|] eqn:E end; cbn [rmap]; try discriminate;
    intros H; injection H as <-; exact (G _ _ _ _ _ E).
Qed.
Theorem patch_refuses_stacks d st ci cj amp pin pout diam m r u : length (state_shape st) = 2%nat -> (2 < length (nsh amp) \/ 2 < length (nsh pin) \/ 2 < length (nsh pout))%nat ->
  exists e, nd_circular_patch d st ci cj amp pin pout diam m r u = (st, Err e).
Proof.
  intros H L. unfold nd_circular_patch. destruct (nd_grating_of d amp pin pout m r u) as [n|e] eqn:E; [|exists e; reflexivity]. apply grating_length in E.
  destruct (fourier_plane_pixel_grid (d_slm d)) as [ii jj]. cbv zeta. assert (Ln : (2 < length (state_shape n))%nat) by lia.
  destruct st as [a|a], n as [b|b]; (rewrite put_err; [exists ETensorFlow; reflexivity|right; right; split; [exact H|exact Ln]]).
Qed.
Lemma one_stack_axis nx ny K : ny <> nx -> ~ first_axes [nx; ny; K] ny nx.
Proof.
  intros H [t E]. assert (L := f_equal (@length nat) E). rewrite app_length in L. cbn [length] in L. destruct t as [|a [|b t]]; cbn [length] in L; try lia.
  cbn [app] in E. injection E. intros. congruence.
Qed.
(** ** A square panel showing as many patterns as it has rows *)
Definition sq_dmd : dmd := dmd_new 1 1 4 0 2 2 1 false.
Definition sq_state : ndstate := NBool (Nd [2; 2; 2]%nat (fun _ => true)).
Theorem square_patch u : exists t, nd_circular_patch sq_dmd sq_state 0 (1 / 2) (Nd [] (fun _ => 0)) (Nd [] (fun _ => 0)) (Nd [] (fun _ => 0)) (6 / 5) MSimple None u = (NBool t, Ok tt) /\ nsh t = [2; 2; 2]%nat /\
  (forall i j, (i < 2)%nat -> (j < 2)%nat -> nel t [j; i; 0%nat] = false) /\ (forall i j, (i < 2)%nat -> (j < 2)%nat -> nel t [j; i; 1%nat] = true).
Proof.
  unfold nd_circular_patch, nd_grating_of. destruct (grid_is_shape _ _ _ _ _ (fourier_plane_grid_is (d_slm sq_dmd))) as (hx & hy & ->).
  cbn [nd_calculate_dmd_grating sq_dmd dmd_new d_neg d_p d_theta d_slm s_Ny s_Nx].
  assert (P : 4 * 1 <> 0) by lra. destruct (Req_EM_T (4 * 1) 0) as [|_]; [contradiction|]. unfold nd_grating. cbn [fold_left nbshape_r rbind nbshape nsh nmap nd_of bdim Nat.eqb rmap].
  set (u0 := fourier_plane_pixel_grid _). assert (E0 : u0 = (fst u0, snd u0)) by (destruct u0; reflexivity). rewrite E0. clear E0. cbv zeta.
  set (mask := fun i j => circular_mask _ _ _ _ _).
  assert (M : mask 0%nat 0%nat = true /\ mask 0%nat 1%nat = true /\ mask 1%nat 0%nat = false /\ mask 1%nat 1%nat = false).
  { assert (Q := fun i j => grid_is_get _ _ _ _ _ i j (fourier_plane_pixel_grid_is (d_slm sq_dmd))). cbn [sq_dmd dmd_new d_slm s_Ny s_Nx] in Q. fold u0 in Q. unfold mask, circular_mask.
    repeat split; match goal with |- context [tget (fst u0) ?i ?j] => destruct (Q i j) as [-> ->]; try lia end; cbn [INR]; destruct (Rlt_dec _ _); try reflexivity; lra. }
  destruct M as (M1 & M2 & M3 & M4). clearbody mask. clear u0.
  set (n := Nd [2; 2]%nat _). assert (V : forall idx, nel n idx = false).
  { intros idx. cbn [n nel]. unfold px_simple, px_ideal, nget. cbn [nmap nel nsh xscale xgtb]. destruct (Rlt_dec _ _); [lra|reflexivity]. }
  assert (Sn : nsh n = [2; 2]%nat) by reflexivity. clearbody n. unfold sq_state. unfold nd_pick. rewrite Sn. cbn [masked_axes rev app Nat.eqb andb rbind].
  assert (Ps : positions 2 2 mask = [(0, 0); (0, 1)]%nat) by (unfold positions; cbn [seq list_prod map app filter fst snd]; rewrite M1, M2, M3, M4; reflexivity).
  rewrite Ps. unfold nd_put. cbn [nsh masked_axes rev app Nat.eqb andb length fits_into orb]. rewrite Ps. cbn [length fits_into Nat.eqb orb andb].
  eexists. split; [reflexivity|]. split; [reflexivity|]. cbn [nel last removelast app].
  split; intros i j Hi Hj.
  - assert (M5 : mask 0%nat i = true) by (destruct i as [|[|i]]; try assumption; lia). rewrite M5. unfold nget. cbn [nel]. apply V.
  - assert (M5 : mask 1%nat i = false) by (destruct i as [|[|i]]; try assumption; lia). rewrite M5. reflexivity.
Qed.
