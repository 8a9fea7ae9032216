(** Sequences of circular patches (C130). *)
From Coq Require Import Reals Lra Psatz ZArith Arith List Bool Lia Permutation.
From Coquelicot Require Import Complex.
From Verif Require Import Cx Sums PyBase ProfileModel SlmModel LibModel DmdModel SimModel SimSpec SimExamples DmdSpec DmdFacts DmdFacts2 DmdFacts3 DmdExamples PatchSpec.
Import ListNotations.
Open Scope R_scope.

Lemma covers_dec p i j : {covers p i j} + {~ covers p i j}.
Proof. apply Rlt_dec. Qed.
Lemma topmost_exists ps i j : exists o, topmost ps i j o.
Proof.
  induction ps as [|p ps [[q|] H]]; [exists None; intros q []| |].
  - destruct H as (b & a & -> & C & N). exists (Some q), (p :: b), a. auto.
  - destruct (covers_dec p i j) as [C|C].
    + exists (Some p), [], ps. auto.
    + exists None. intros q [<-|Hq]; [exact C|exact (H q Hq)].
Qed.
Lemma grating_same d d' h amp pin pout m kw u : d' = with_state d (d_state d') -> grating_of h d' amp pin pout m kw u = grating_of h d amp pin pout m kw u.
Proof. intros ->. reflexivity. Qed.
Lemma frame_same d d' p i j c : d' = with_state d (d_state d') -> full_frame d' p i j c -> full_frame d p i j c.
Proof.
  unfold full_frame, set_dmd_grating_state. intros E (d2 & H & C). rewrite (grating_same d d') in H by exact E.
  destruct (grating_of _ _ _ _ _ _ _ _) as [s|]; [|discriminate]. injection H as <-. eexists. split; [reflexivity|]. exact C.
Qed.
Lemma outcome_same d d' p : d' = with_state d (d_state d') -> state_shape (d_state d') = state_shape (d_state d) -> snd (do_call d' (lay p)) = snd (do_call d (lay p)).
Proof.
  intros E Sh. unfold lay. cbn [do_call]. unfold circular_patch. rewrite (grating_same d d') by exact E. rewrite E. clear E. generalize dependent (d_state d'). clear. intros s0 Sh. cbn [d_slm d_state with_state].
  destruct (grating_of _ _ _ _ _ _ _ _) as [s|]; [|reflexivity]. destruct (fourier_plane_pixel_grid (d_slm d)) as [ii jj]. unfold masked_assign.
  destruct s0 as [a b f|a b f], (d_state d) as [a' b' g|a' b' g]; cbn [state_shape] in Sh; injection Sh as -> ->; destruct s as [a2 b2 g2|a2 b2 g2];
    destruct (Nat.eqb a' _ && Nat.eqb b' _ && (Nat.eqb a2 _ && Nat.eqb b2 _))%bool; reflexivity.
Qed.
Definition succeeds (d : dmd) (p : patch) : bool := match snd (do_call d (lay p)) with Ok _ => true | Err _ => false end.
Lemma laid_filter d ps : laid ps (map (fun p => snd (do_call d (lay p))) ps) = filter (succeeds d) ps.
Proof. induction ps as [|p ps IH]; [reflexivity|]. cbn [map laid filter]. unfold succeeds at 1. destruct (snd (do_call d (lay p))); [f_equal|]; exact IH. Qed.
Lemma patches d ps d' l : do_calls d (map lay ps) = (d', l) ->
  d' = with_state d (d_state d') /\ state_shape (d_state d') = state_shape (d_state d) /\ is_bool_state (d_state d') = is_bool_state (d_state d) /\
  map snd l = map (fun p => snd (do_call d (lay p))) ps /\
  forall i j o, in_array d i j -> topmost (laid ps (map snd l)) i j o ->
    match o with None => cell_at (d_state d') i j = cell_at (d_state d) i j
    | Some p => exists c, full_frame d p i j c /\ cell_at (d_state d') i j = cell_as (is_bool_state (d_state d)) c end.
Proof.
  revert d d' l. induction ps as [|p ps IH]; intros d d' l H; cbn [map do_calls] in H.
  { injection H as <- <-. split; [destruct d; reflexivity|]. split; [reflexivity|]. split; [reflexivity|]. split; [reflexivity|]. intros i j [q|] _ T; [|reflexivity]. destruct T as (b & a & X & _). destruct b; discriminate. }
  destruct (do_call d (lay p)) as [d1 o] eqn:E1. destruct (do_calls d1 (map lay ps)) as [d2 l2] eqn:E2. injection H as <- <-. destruct (IH _ _ _ E2) as (A & B & C & D & F). clear IH.
  assert (K : d1 = with_state d (d_state d1) /\ state_shape (d_state d1) = state_shape (d_state d) /\ is_bool_state (d_state d1) = is_bool_state (d_state d) /\
    forall i j, in_array d i j -> (forall e, o = Err e -> cell_at (d_state d1) i j = cell_at (d_state d) i j) /\ (~ covers p i j -> cell_at (d_state d1) i j = cell_at (d_state d) i j) /\
      (o = Ok tt -> covers p i j -> exists c, full_frame d p i j c /\ cell_at (d_state d1) i j = cell_as (is_bool_state (d_state d)) c)).
  { unfold lay in E1. cbn [do_call] in E1. destruct o as [[]|e].
    - destruct (patch_spec _ _ _ _ _ _ _ _ _ _ _ _ E1) as (d3 & G & P1 & P2 & P3 & P4 & P5). split; [exact P1|]. split; [exact P3|]. split; [exact P2|]. intros i j [Hi Hj]. destruct (P5 i j Hi Hj) as [Q1 Q2].
      split; [discriminate|]. split; [intros N; apply Q2; unfold covers in N; lra|]. intros _ Cv. exists (cell_at (d_state d3) i j). split; [exists d3; auto|]. exact (Q1 Cv).
    - rewrite (patch_fails _ _ _ _ _ _ _ _ _ _ _ _ _ E1). split; [destruct d; reflexivity|]. split; [reflexivity|]. split; [reflexivity|]. intros i j _. split; [reflexivity|]. split; [reflexivity|]. discriminate. }
  destruct K as (K1 & K2 & K3 & K4).
  split; [rewrite A at 1; rewrite K1 at 1; reflexivity|]. split; [congruence|]. split; [congruence|]. split.
  { cbn [map snd]. rewrite E1. cbn [snd]. f_equal. rewrite D. apply map_ext. intros q. apply outcome_same; assumption. }
  intros i j t Hij T. assert (Hij1 : in_array d1 i j) by (rewrite K1; exact Hij). destruct (K4 i j Hij) as (Q1 & Q2 & Q3).
  assert (TAIL : forall t', topmost (laid ps (map snd l2)) i j t' -> match t' with None => cell_at (d_state d2) i j = cell_at (d_state d1) i j | Some q => exists c, full_frame d q i j c /\ cell_at (d_state d2) i j = cell_as (is_bool_state (d_state d)) c end).
  { intros t' T'. specialize (F i j t' Hij1 T'). destruct t' as [q|]; [|exact F]. destruct F as (c & F1 & F2). exists c. split; [exact (frame_same d d1 q i j c K1 F1)|]. rewrite <- K3. exact F2. }
  cbn [map snd laid] in T. destruct o as [[]|e].
  - destruct t as [q|].
    + destruct T as (b & a & X & Cq & N). destruct b as [|b0 b]; cbn [app] in X; injection X as <- X.
      * rewrite X in TAIL. assert (Z := TAIL None N). cbn beta iota in Z. rewrite Z. exact (Q3 eq_refl Cq).
      * exact (TAIL (Some q) (ex_intro _ b (ex_intro _ a (conj X (conj Cq N))))).
    + rewrite (TAIL None) by (intros q Hq; apply T; right; exact Hq). apply Q2. apply T. left. reflexivity.
  - specialize (TAIL t T). destruct t as [q|]; [exact TAIL|]. rewrite TAIL. exact (Q1 e eq_refl).
Qed.
(** Same frame, same cell. *)
Lemma frame_fun d p i j c c' : full_frame d p i j c -> full_frame d p i j c' -> c = c'.
Proof. intros (a & A & <-) (b & B & <-). rewrite A in B. injection B as ->. reflexivity. Qed.
Lemma same_if_topmost d ps qs d1 l1 d2 l2 : state_shape (d_state d) = (s_Ny (d_slm d), s_Nx (d_slm d)) -> do_calls d (map lay ps) = (d1, l1) -> do_calls d (map lay qs) = (d2, l2) ->
  (forall i j o, in_array d i j -> topmost (laid ps (map snd l1)) i j o -> topmost (laid qs (map snd l2)) i j o) -> same_state (d_state d1) (d_state d2).
Proof.
  intros Sh H1 H2 T. destruct (patches d ps d1 l1 H1) as (_ & A1 & B1 & _ & F1). destruct (patches d qs d2 l2 H2) as (_ & A2 & B2 & _ & F2).
  split; [congruence|]. split; [congruence|]. rewrite A1, Sh. cbn [fst snd]. intros i j Hi Hj. assert (Hij : in_array d i j) by (split; assumption).
  destruct (topmost_exists (laid ps (map snd l1)) i j) as [o Ho]. assert (Ho2 := T i j o Hij Ho). specialize (F1 i j o Hij Ho). specialize (F2 i j o Hij Ho2). destruct o as [p|]; [|congruence].
  destruct F1 as (c & C1 & ->). destruct F2 as (c' & C2 & ->). rewrite (frame_fun _ _ _ _ _ _ C1 C2). reflexivity.
Qed.
Lemma apart_sym p q : apart p q -> apart q p.
Proof. unfold apart. intros H. replace ((p_i q - p_i p) ^ 2 + (p_j q - p_j p) ^ 2) with ((p_i p - p_i q) ^ 2 + (p_j p - p_j q) ^ 2) by ring. lra. Qed.
Lemma apart_not_both p q i j : apart p q -> covers p i j -> ~ covers q i j.
Proof.
  unfold apart, covers, pixel_distance. intros H A B. assert (T := Rgeom.triangle (p_i p) (p_j p) (p_i q) (p_j q) (INR i) (INR j)). unfold Rgeom.dist_euc, Rsqr in T.
  replace ((p_i p - p_i q) * (p_i p - p_i q) + (p_j p - p_j q) * (p_j p - p_j q)) with ((p_i p - p_i q) ^ 2 + (p_j p - p_j q) ^ 2) in T by ring.
  replace ((p_i p - INR i) * (p_i p - INR i) + (p_j p - INR j) * (p_j p - INR j)) with ((INR i - p_i p) ^ 2 + (INR j - p_j p) ^ 2) in T by ring.
  replace ((INR i - p_i q) * (INR i - p_i q) + (INR j - p_j q) * (INR j - p_j q)) with ((INR i - p_i q) ^ 2 + (INR j - p_j q) ^ 2) in T by ring. lra.
Qed.
Lemma pairs_perm ps qs : Permutation ps qs -> ForallOrdPairs apart ps -> ForallOrdPairs apart qs.
Proof.
  induction 1 as [|x l l' P IH|x y l|l l' l'' P1 IH1 P2 IH2]; intros H; auto.
  - inversion H as [|? ? A B]; subst. constructor; [|auto]. rewrite Forall_forall in *. intros z Hz. apply A. exact (Permutation_in _ (Permutation_sym P) Hz).
  - inversion H as [|? ? A B]; subst. inversion B as [|? ? A' B']; subst. inversion A; subst. constructor; [constructor; [apply apart_sym; assumption|assumption]|]. constructor; assumption.
Qed.
Lemma pairs_filter f ps : ForallOrdPairs apart ps -> ForallOrdPairs apart (filter f ps).
Proof.
  induction 1 as [|x l A B IH]; [constructor|]. cbn [filter]. destruct (f x); [|exact IH]. constructor; [|exact IH]. rewrite Forall_forall in *. intros z Hz. apply filter_In in Hz. apply A, Hz.
Qed.
Lemma filter_perm {A} (f : A -> bool) ps qs : Permutation ps qs -> Permutation (filter f ps) (filter f qs).
Proof.
  induction 1 as [|x l l' P IH|x y l|l l' l'' P1 IH1 P2 IH2]; cbn [filter]; [constructor| | |exact (Permutation_trans IH1 IH2)].
  - destruct (f x); [constructor|]; exact IH.
  - destruct (f y), (f x); try apply Permutation_refl. constructor.
Qed.
Lemma apart_topmost ps i j p : ForallOrdPairs apart ps -> In p ps -> covers p i j -> topmost ps i j (Some p).
Proof.
  induction 1 as [|x l A B IH]; [intros []|]. intros [->|Hp] C.
  - exists [], l. split; [reflexivity|]. split; [exact C|]. intros q Hq. rewrite Forall_forall in A. exact (apart_not_both _ _ _ _ (A q Hq) C).
  - destruct (IH Hp C) as (b & a & -> & D & N). exists (x :: b), a. auto.
Qed.
Lemma any_order d ps qs d1 l1 d2 l2 : state_shape (d_state d) = (s_Ny (d_slm d), s_Nx (d_slm d)) -> ForallOrdPairs apart ps -> Permutation ps qs ->
  do_calls d (map lay ps) = (d1, l1) -> do_calls d (map lay qs) = (d2, l2) -> same_state (d_state d1) (d_state d2).
Proof.
  intros Sh AP P H1 H2. apply (same_if_topmost d ps qs d1 l1 d2 l2 Sh H1 H2). destruct (patches d ps d1 l1 H1) as (_ & _ & _ & -> & _). destruct (patches d qs d2 l2 H2) as (_ & _ & _ & -> & _).
  rewrite !laid_filter. assert (P' := filter_perm (succeeds d) ps qs P). assert (AQ := pairs_filter (succeeds d) qs (pairs_perm ps qs P AP)).
  intros i j [p|] Hij T.
  - destruct T as (b & a & X & C & N). apply apart_topmost; [exact AQ| |exact C]. apply (Permutation_in _ P'). rewrite X. apply in_elt.
  - intros q Hq. apply T. exact (Permutation_in _ (Permutation_sym P') Hq).
Qed.
Lemma topmost_cons x l i j t : topmost (x :: l) i j t <->
  match t with Some q => topmost l i j (Some q) \/ (q = x /\ covers x i j /\ topmost l i j None) | None => ~ covers x i j /\ topmost l i j None end.
Proof.
  destruct t as [q|]; cbn [topmost].
  - split.
    + intros (b & a & X & C & N). destruct b as [|b0 b]; cbn [app] in X; injection X as <- X; [right; subst; auto|left; exists b, a; auto].
    + intros [(b & a & -> & C & N)|(-> & C & N)]; [exists (x :: b), a; auto|exists [], l; auto].
  - split; [intros H; split; [apply H; left; reflexivity|intros q Hq; apply H; right; exact Hq]|]. intros [A B] q [<-|Hq]; auto.
Qed.
Lemma topmost_remove L p R i j : (covers p i j -> exists q, In q R /\ covers q i j) -> forall t, topmost (L ++ p :: R) i j t -> topmost (L ++ R) i j t.
Proof.
  intros O. induction L as [|x L IH]; intros t T; cbn [app] in T |- *.
  - apply topmost_cons in T. destruct t as [q|]; [|apply T]. destruct T as [T|(-> & C & N)]; [exact T|]. destruct (O C) as (q' & Q1 & Q2). destruct (N q' Q1 Q2).
  - apply topmost_cons. apply topmost_cons in T. destruct t as [q|].
    + destruct T as [T|(-> & C & N)]; [left; apply IH, T|right; split; [reflexivity|split; [exact C|apply IH, N]]].
    + destruct T as [A B]. split; [exact A|apply IH, B].
Qed.
Lemma hidden d ps p qs d1 l1 d2 l2 : state_shape (d_state d) = (s_Ny (d_slm d), s_Nx (d_slm d)) ->
  (forall i j, in_array d i j -> covers p i j -> exists q, In q qs /\ covers q i j /\ snd (do_call d (lay q)) = Ok tt) ->
  do_calls d (map lay (ps ++ p :: qs)) = (d1, l1) -> do_calls d (map lay (ps ++ qs)) = (d2, l2) -> same_state (d_state d1) (d_state d2).
Proof.
  intros Sh Hid H1 H2. apply (same_if_topmost d (ps ++ p :: qs) (ps ++ qs) d1 l1 d2 l2 Sh H1 H2). destruct (patches _ _ _ _ H1) as (_ & _ & _ & -> & _). destruct (patches _ _ _ _ H2) as (_ & _ & _ & -> & _).
  rewrite !laid_filter, !filter_app. cbn [filter]. destruct (succeeds d p); [|auto]. intros i j t Hij. apply topmost_remove.
  intros C. destruct (Hid i j Hij C) as (q & Q1 & Q2 & Q3). exists q. split; [|exact Q2]. apply filter_In. split; [exact Q1|]. unfold succeeds. rewrite Q3. reflexivity.
Qed.
Lemma twice d p d1 l1 d2 l2 : state_shape (d_state d) = (s_Ny (d_slm d), s_Nx (d_slm d)) ->
  do_calls d [lay p; lay p] = (d1, l1) -> do_calls d [lay p] = (d2, l2) -> same_state (d_state d1) (d_state d2).
Proof.
  intros Sh H1 H2. apply (same_if_topmost d [p; p] [p] d1 l1 d2 l2 Sh H1 H2). destruct (patches d [p; p] d1 l1 H1) as (_ & _ & _ & -> & _). destruct (patches d [p] d2 l2 H2) as (_ & _ & _ & -> & _).
  rewrite !laid_filter. cbn [filter]. destruct (succeeds d p); [|auto]. intros i j t _. apply (topmost_remove [] p [p] i j). intros C. exists p. split; [left; reflexivity|exact C].
Qed.
(** Two patches of different methods beside each other. *)
Definition patch_a : patch := {| p_heap := ex_heap; p_i := 0; p_j := 0; p_amp := half; p_pin := zero_phase; p_pout := zero_phase; p_diam := 2; p_method := MSimple; p_kw := no_kwargs; p_u := fun _ _ => 0 |}.
Definition patch_b : patch := {| p_heap := ex_heap; p_i := 0; p_j := 3; p_amp := half; p_pin := zero_phase; p_pout := zero_phase; p_diam := -3; p_method := MIdeal; p_kw := no_kwargs; p_u := fun _ _ => 0 |}.
Lemma patches_case : state_shape (d_state ex_dmd) = (s_Ny (d_slm ex_dmd), s_Nx (d_slm ex_dmd)) /\ ForallOrdPairs apart [patch_a; patch_b] /\
  snd (do_call ex_dmd (lay patch_a)) = Ok tt /\ snd (do_call ex_dmd (lay patch_b)) = Ok tt /\ covers patch_a 0 0 /\ covers patch_b 1 2 /\ in_array ex_dmd 0 0 /\ in_array ex_dmd 1 2.
Proof.
  assert (R1 := reads_const ex_heap (d_slm ex_dmd) (3 / 4)). assert (R2 := reads_const ex_heap (d_slm ex_dmd) 0). assert (Hp : d_p ex_dmd <> 0) by (cbn; lra).
  split; [reflexivity|]. split.
  { constructor; [|constructor; constructor]. constructor; [|constructor]. unfold apart, patch_a, patch_b. cbn [p_diam p_i p_j]. replace ((0 - 0) ^ 2 + (0 - 3) ^ 2) with (3 ^ 2) by ring. rewrite sqrt_pow2 by lra. rewrite Rabs_pos_eq, (Rabs_left (-3)) by lra. lra. }
  split. { destruct (set_simple ex_heap ex_dmd half zero_phase zero_phase _ _ _ R1 R2 R2 Hp no_kwargs (fun _ _ => 0)) as (d2 & g & E & -> & VG).
    destruct (patch_ok _ _ 0 0 _ _ _ 2 _ _ _ _ E eq_refl eq_refl) as [d' Q]. cbn [lay patch_a do_call p_heap p_i p_j p_amp p_pin p_pout p_diam p_method p_kw p_u]. rewrite Q. reflexivity. }
  split. { destruct (set_ideal ex_heap ex_dmd half zero_phase zero_phase _ _ _ R1 R2 R2 Hp no_kwargs (fun _ _ => 0)) as (d2 & g & E & -> & VG).
    destruct (patch_ok _ _ 0 3 _ _ _ (-3) _ _ _ _ E eq_refl eq_refl) as [d' Q]. cbn [lay patch_b do_call p_heap p_i p_j p_amp p_pin p_pout p_diam p_method p_kw p_u]. rewrite Q. reflexivity. }
  split. { unfold covers, pixel_distance, patch_a. cbn [p_diam p_i p_j INR]. replace ((0 - 0) ^ 2 + (0 - 0) ^ 2) with 0 by ring. rewrite sqrt_0, Rabs_pos_eq by lra. lra. }
  split. { unfold covers, pixel_distance, patch_b. cbn [p_diam p_i p_j INR]. rewrite Rabs_left by lra. replace (- -3 / 2) with (sqrt ((3 / 2) ^ 2)) by (rewrite sqrt_pow2; lra). apply sqrt_lt_1; lra. }
  split; split; cbn; lia.
Qed.
