(** Arrays of rank 0 and 2 behave as in the other model files. *)
From Coq Require Import Reals Lra ZArith Arith List Bool Lia.
From Coquelicot Require Import Complex.
From Verif Require Import Cx Sums DFT PyBase ProfileModel SlmModel LibModel DmdModel SimModel SimSpec GridFacts AmpFacts RankModel RankSpec.
Import ListNotations.
Open Scope R_scope.

Lemma same_of {A} (t : tensor A) : same (nd_of t) t.
Proof.
  destruct t as [v|ny nx f]; split; try reflexivity. cbn [tshape at_shape idx nd_of nel]. intros i j [Hi Hj]. rewrite tget_T2 by assumption. reflexivity.
Qed.
Lemma tget_map {A B} (g : A -> B) t i j : tget (tmap g t) i j = g (tget t i j). Proof. destruct t; reflexivity. Qed.
Lemma tshape_map {A B} (g : A -> B) t : tshape (tmap g t) = tshape t. Proof. destruct t; reflexivity. Qed.
Lemma same_map {A B} (g : A -> B) a t : same a t -> same (nmap g a) (tmap g t).
Proof.
  intros [E V]. split; [cbn [nmap nsh]; rewrite tshape_map; exact E|]. intros i j. rewrite tshape_map, tget_map. cbn [nmap nel]. intros Hij. rewrite V by exact Hij. reflexivity.
Qed.
Lemma nbshape_shp s t : nbshape (shp s) (shp t) = option_map shp (bshape s t).
Proof.
  destruct s as [|a b], t as [|c d]; try reflexivity. cbn [shp nbshape bshape]. destruct (bdim b d), (bdim a c); reflexivity.
Qed.
Lemma bdim_reads a b n k : bdim a b = Some n -> (k < n)%nat -> (k < a \/ a = 1)%nat /\ (k < b \/ b = 1)%nat.
Proof.
  unfold bdim. destruct (Nat.eqb_spec a b); [intros E; injection E; lia|]. destruct (Nat.eqb_spec a 1); [intros E; injection E; lia|]. destruct (Nat.eqb_spec b 1); [intros E; injection E; lia|discriminate].
Qed.
(** The index read in an operand. *)
Definition readable (s : shape) (i j : nat) : Prop := match s with S0 => True | S2 ny nx => (i < ny \/ ny = 1)%nat /\ (j < nx \/ nx = 1)%nat end.
Lemma bshape_reads s t r i j : bshape s t = Some r -> at_shape r i j -> readable s i j /\ readable t i j.
Proof.
  destruct s as [|a b], t as [|c d]; cbn [bshape]; intros E.
  - injection E as <-. split; exact I.
  - injection E as <-. cbn. intros [? ?]. split; [exact I|split; left; assumption].
  - injection E as <-. cbn. intros [? ?]. split; [split; left; assumption|exact I].
  - destruct (bdim a c) as [y|] eqn:Ey; [|discriminate]. destruct (bdim b d) as [x|] eqn:Ex; [|discriminate]. injection E as <-. cbn. intros [Hi Hj].
    destruct (bdim_reads _ _ _ _ Ey Hi). destruct (bdim_reads _ _ _ _ Ex Hj). auto.
Qed.
Lemma readable_trans s t r i j : bshape s t = Some r -> readable r i j -> readable s i j /\ readable t i j.
Proof.
  assert (Bd : forall a b n k, bdim a b = Some n -> (k < n \/ n = 1)%nat -> (k < a \/ a = 1)%nat /\ (k < b \/ b = 1)%nat).
  { intros a b n k. unfold bdim. destruct (Nat.eqb_spec a b); [intros E; injection E; lia|]. destruct (Nat.eqb_spec a 1); [intros E; injection E; lia|]. destruct (Nat.eqb_spec b 1); [intros E; injection E; lia|discriminate]. }
  destruct s as [|a b], t as [|c d]; cbn [bshape]; intros E.
  - injection E as <-. split; exact I.
  - injection E as <-. intros Q. split; [exact I|exact Q].
  - injection E as <-. intros Q. split; [exact Q|exact I].
  - destruct (bdim a c) as [y|] eqn:Ey; [|discriminate]. destruct (bdim b d) as [x|] eqn:Ex; [|discriminate]. injection E as <-. cbn. intros [Hi Hj].
    destruct (Bd _ _ _ _ Ey Hi). destruct (Bd _ _ _ _ Ex Hj). auto.
Qed.
Lemma at_readable s i j : at_shape s i j -> readable s i j.
Proof. destruct s; cbn; intuition. Qed.
(** Reading with broadcasting. The index comes from a result of shape r. *)
Lemma same_get {A} (a : nd A) t r i j : same a t -> readable (tshape t) i j -> (r = S0 -> tshape t = S0) -> nget a (idx r i j) = tget t i j.
Proof.
  intros [E V] Q Z. unfold nget. rewrite E. destruct t as [v|ny nx f].
  - cbn [tshape shp nclip]. exact (V i j I).
  - destruct r as [|ry rx]; [discriminate (Z eq_refl)|]. cbn [tshape shp nclip idx hd tl readable tget] in *.
    destruct Q as [Qi Qj].
    assert (V' := V (if Nat.eqb ny 1 then 0%nat else i) (if Nat.eqb nx 1 then 0%nat else j)).
    destruct (Nat.eqb_spec ny 1) as [->|N1], (Nat.eqb_spec nx 1) as [->|N2]; cbn [at_shape] in V'; rewrite V' by lia; reflexivity.
Qed.
Lemma bshape_S0 s t : bshape s t = Some S0 -> s = S0 /\ t = S0.
Proof.
  destruct s as [|a b], t as [|c d]; cbn [bshape]; intros E; try discriminate; auto. destruct (bdim a c), (bdim b d); discriminate.
Qed.
Lemma tshape_mk {A} s (f : nat -> nat -> A) : tshape (mk s f) = s. Proof. destruct s; reflexivity. Qed.
Lemma tget_mk {A} s (f : nat -> nat -> A) i j : at_shape s i j -> tget (mk s f) i j = f (match s with S0 => 0%nat | _ => i end) (match s with S0 => 0%nat | _ => j end).
Proof. destruct s as [|ny nx]; [reflexivity|]. intros [Hi Hj]. cbn [mk]. apply tget_T2; assumption. Qed.
Definition rsame {A} (a : res (nd A)) (t : res (tensor A)) : Prop :=
  match a, t with Ok a, Ok t => same a t | Err e, Err e' => e = e' | _, _ => False end.
Lemma tget_S0 {A} (t : tensor A) i j i' j' : tshape t = S0 -> tget t i j = tget t i' j'.
Proof. destruct t; [reflexivity|discriminate]. Qed.
Lemma same_map2 {A B D} (g : A -> B -> D) a b t s : same a t -> same b s -> rsame (nmap2 g a b) (tmap2 g t s).
Proof.
  intros Ha Hb. unfold nmap2, tmap2, bc2. rewrite (proj1 Ha), (proj1 Hb), nbshape_shp. destruct (bshape (tshape t) (tshape s)) as [r|] eqn:E; cbn [option_map rbind rsame]; [|reflexivity].
  split; [rewrite tshape_mk; reflexivity|]. rewrite tshape_mk. intros i j Hij. cbn [nel]. rewrite tget_mk by exact Hij.
  destruct (bshape_reads _ _ _ _ _ E Hij) as [R1 R2].
  rewrite (same_get a t r i j Ha R1), (same_get b s r i j Hb R2) by (intros ->; apply bshape_S0 in E; apply E).
  destruct r; [|reflexivity]. apply bshape_S0 in E as [E1 E2]. f_equal; apply tget_S0; assumption.
Qed.
(** ** Shifts and transforms *)
Lemma same_fp target : match target with T0 _ => nfft2 (nifftshift (nd_of target)) = Err ETensorFlow
  | T2 ny nx t => exists fp, nfft2 (nifftshift (nd_of target)) = Ok fp /\ same (nfftshift fp) (T2 ny nx (target_fp ny nx t)) end.
Proof.
  destruct target as [v|ny nx t]; [reflexivity|]. eexists. split; [reflexivity|]. split; [reflexivity|].
  cbn [tshape at_shape idx nfftshift nel nsh nifftshift nd_of shift_all]. intros i j [Hi Hj]. rewrite tget_T2 by assumption.
  unfold target_fp, fftshift2, ifftshift2. reflexivity.
Qed.
Lemma xmax2_xmax1 f ny nx : xmax2 f ny nx = xmax1 (fun i => xmax1 (f i) nx) ny.
Proof. induction ny as [|n IH]; [reflexivity|]. cbn [xmax2 xmax1]. rewrite IH. reflexivity. Qed.
Lemma same_max a t : same a t -> nmax (nsh a) (nel a) = reduce_max t.
Proof.
  intros [E V]. rewrite E. destruct t as [v|ny nx f]; cbn [tshape shp nmax reduce_max]; [exact (V 0%nat 0%nat I)|].
  rewrite xmax2_xmax1. apply xmax1_ext. intros i Hi. apply xmax1_ext. intros j Hj. rewrite <- (tget_T2 ny nx f i j Hi Hj). exact (V i j (conj Hi Hj)).
Qed.
Definition same4 (a : res (nd xr * nd R * nd R * xr)) (t : res (tensor xr * tensor R * tensor R * xr)) : Prop :=
  match a, t with
  | Ok (amp, pin, pout, one), Ok (amp', pin', pout', one') => same amp amp' /\ same pin pin' /\ same pout pout' /\ one = one'
  | Err e, Err e' => e = e' | _, _ => False end.
Lemma same_calc input target window : same4 (nd_calc_amp_phase (nd_of input) (nd_of target) (option_map nd_of window)) (calc_amp_phase input target window).
Proof.
  unfold nd_calc_amp_phase, calc_amp_phase. assert (F := same_fp target). destruct target as [v|ny nx t]; [rewrite F; reflexivity|].
  destruct F as (fp & -> & Sf). cbn [rbind].
  assert (W : rsame (match option_map nd_of window with None => Ok (nfftshift fp) | Some w => nmap2 Cmult (nfftshift fp) w end)
                    (match window with None => Ok (T2 ny nx (target_fp ny nx t)) | Some w => tmap2 Cmult (T2 ny nx (target_fp ny nx t)) w end)).
  { destruct window as [w|]; cbn [option_map]; [apply same_map2; [exact Sf|apply same_of]|exact Sf]. }
  revert W. generalize (match option_map nd_of window with None => Ok (nfftshift fp) | Some w => nmap2 Cmult (nfftshift fp) w end).
  generalize (match window with None => Ok (T2 ny nx (target_fp ny nx t)) | Some w => tmap2 Cmult (T2 ny nx (target_fp ny nx t)) w end).
  intros [q|e] [a|e'] W; cbn [rsame] in W; try contradiction; cbn [rbind]; [|cbn [same4]; congruence].
  assert (Q := same_map2 safe_ratio _ _ _ _ (same_map Cmod a q W) (same_map Cmod _ _ (same_of input))).
  destruct (nmap2 safe_ratio _ _) as [r|e1], (tmap2 safe_ratio _ _) as [r'|e2]; cbn [rsame] in Q; try contradiction; cbn [rbind same4]; [|congruence].
  rewrite (same_max r r' Q). split; [apply same_map, Q|]. split; [apply same_map, same_of|]. split; [apply same_map, W|reflexivity].
Qed.
Lemma fold_bad l e : fold_left bshape_r l (Err e) = Err e. Proof. induction l as [|s l IH]; [reflexivity|exact IH]. Qed.
Lemma fold_bad' l e : fold_left nbshape_r l (Err e) = Err e. Proof. induction l as [|s l IH]; [reflexivity|exact IH]. Qed.
Lemma fold_shp l s : fold_left nbshape_r (map shp l) (Ok (shp s)) = rmap shp (fold_left bshape_r l (Ok s)).
Proof.
  revert s. induction l as [|t l IH]; intros s; [reflexivity|]. cbn [map fold_left nbshape_r bshape_r rbind]. rewrite nbshape_shp. destruct (bshape s t) as [r|]; cbn [option_map]; [apply IH|].
  rewrite fold_bad, fold_bad'. reflexivity.
Qed.
Lemma fold_reads l s r i j : fold_left bshape_r l (Ok s) = Ok r -> readable r i j -> readable s i j /\ Forall (fun t => readable t i j) l.
Proof.
  revert s. induction l as [|t l IH]; intros s E Q.
  - injection E as ->. split; [exact Q|constructor].
  - cbn [fold_left bshape_r rbind] in E. destruct (bshape s t) as [q|] eqn:B; [|rewrite fold_bad in E; discriminate].
    destruct (IH q E Q) as [Qq Ql]. destruct (readable_trans _ _ _ _ _ B Qq). split; [assumption|constructor; assumption].
Qed.
Lemma fold_S0 l s : fold_left bshape_r l (Ok s) = Ok S0 -> s = S0 /\ Forall (fun t => t = S0) l.
Proof.
  revert s. induction l as [|t l IH]; intros s E.
  - injection E as ->. auto.
  - cbn [fold_left bshape_r rbind] in E. destruct (bshape s t) as [q|] eqn:B; [|rewrite fold_bad in E; discriminate].
    destruct (IH q E) as [-> F]. apply bshape_S0 in B as [-> ->]. auto.
Qed.
(** ** The whole call *)
Lemma same_dmd_grating m neg amp pin pout x y p theta kw inp win u v amp' pin' pout' : m <> MIfta -> (forall i j, v [j; i] = u i j) ->
  tshape x <> S0 ->
  same amp amp' -> same pin pin' -> same pout pout' ->
  match nd_calculate_dmd_grating m neg amp pin pout (nd_of x) (nd_of y) p theta (k_r kw) v, calculate_dmd_grating m neg amp' pin' pout' x y p theta kw inp win u with
  | Ok (NBool t), Ok (GBool (T2 ny nx f)) => same t (T2 ny nx f)
  | Ok (NFloat t), Ok (GFloat (T2 ny nx f)) => same t (T2 ny nx f)
  | Err e, Err e' => e = e'
  | _, _ => False
  end.
Proof.
  intros Hm Hv Hx Sa Si So.
  assert (G : forall A (px : xr -> R -> R -> R -> R -> list nat -> A) px', (forall a b c e f i j, px a b c e f [j; i] = px' a b c e f i j) ->
    match nd_grating px amp pin pout (nd_of x) (nd_of y), grating_tensor px' amp' pin' pout' x y with
    | Ok t, Ok (T2 ny nx f) => same t (T2 ny nx f) | Err e, Err e' => e = e' | _, _ => False end).
  { intros A px px' P.
    assert (N0 : forall t, grating_tensor px' amp' pin' pout' x y = Ok (T0 t) -> False).
    { intros t. unfold grating_tensor, bc_all. destruct (fold_left bshape_r _ _) as [r|] eqn:E; cbn [rbind]; [|discriminate]. destruct r; cbn [mk]; [|discriminate]. intros _.
      apply fold_S0 in E as [_ E]. inversion E as [|? ? _ E1]; subst. inversion E1 as [|? ? _ E2]; subst. inversion E2 as [|? ? E3 _]; subst. contradiction. }
    revert N0. unfold nd_grating, grating_tensor, bc_all. rewrite (proj1 Sa), (proj1 Si), (proj1 So), (proj1 (same_of x)), (proj1 (same_of y)).
    assert (F := fold_shp [tshape pin'; tshape pout'; tshape x; tshape y] (tshape amp')). cbn [map] in F. rewrite F. clear F.
    destruct (fold_left bshape_r _ _) as [r|e] eqn:E; cbn [rmap rbind rsame]; intros N0; [|reflexivity].
    destruct r as [|ry rx]; [destruct (N0 _ eq_refl)|]. cbn [mk].
    split; [reflexivity|]. cbn [tshape at_shape idx nel]. intros i j Hij. rewrite tget_T2 by apply Hij.
    destruct (fold_reads _ _ _ _ _ E (at_readable (S2 ry rx) i j Hij)) as [Ra F].
    inversion F as [|? ? Ri F1]; subst. inversion F1 as [|? ? Ro F2]; subst. inversion F2 as [|? ? Rx F3]; subst. inversion F3 as [|? ? Ry _]; subst.
    change [j; i] with (RankSpec.idx (S2 ry rx) i j).
    rewrite (same_get amp amp' _ i j Sa Ra), (same_get pin pin' _ i j Si Ri), (same_get pout pout' _ i j So Ro), (same_get _ x _ i j (same_of x) Rx), (same_get _ y _ i j (same_of y) Ry) by discriminate.
    apply P. }
  unfold nd_calculate_dmd_grating, calculate_dmd_grating, grating_ideal, grating_simple, grating_random, guard_p.
  destruct m; [| | | |reflexivity]; try (exfalso; apply Hm; reflexivity).
  all: match goal with |- context [grating_tensor ?q _ _ _ _ _] => match goal with |- context [nd_grating ?p _ _ _ _ _] => assert (Q := G _ p q) end end.
  all: destruct (Req_EM_T p 0) as [Ep|Np]; specialize (Q ltac:(intros; rewrite ?Hv; reflexivity)).
  all: revert Q; destruct (nd_grating _ _ _ _ _ _), (grating_tensor _ _ _ _ _ _) as [[?|? ? ?]|]; cbn [rmap]; intros Q; exact Q.
Qed.
Lemma rank2_agrees h d input target m window kw u v : m <> MIfta -> (forall i j, v [j; i] = u i j) ->
  agrees d (nd_calculate_dmd_state d (nd_of input) (nd_of target) m (option_map nd_of window) (k_r kw) v)
    (calculate_dmd_state h d (ATensorC input) (ATensorC target) m (option_map ATensorC window) kw u).
Proof.
  intros Hm Hv. unfold nd_calculate_dmd_state, calculate_dmd_state. cbn [profile_to_tensor_c rbind].
  replace (match option_map ATensorC window with Some w => _ | None => Ok None end) with (Ok window) by (destruct window; reflexivity). cbn [rbind].
  assert (Q := same_calc input target window).
  destruct (grid_is_shape _ _ _ _ _ (fourier_plane_grid_is (d_slm d))) as (gx & gy & ->).
  destruct (nd_calc_amp_phase _ _ _) as [[[[amp pin] pout] one]|e], (calc_amp_phase _ _ _) as [[[[amp' pin'] pout'] one']|e']; cbn [same4] in Q; try contradiction; cbn [rbind].
  2: { subst e'. split; reflexivity. }
  destruct Q as (Sa & Si & So & <-).
  set (iw := match m with MIfta => _ | _ => Ok (raw_tensor (k_input kw), raw_tensor (k_window kw)) end).
  assert (Ei : iw = Ok (raw_tensor (k_input kw), raw_tensor (k_window kw))) by (destruct m; try reflexivity; exfalso; apply Hm; reflexivity). rewrite Ei. clear Ei iw. cbn [rbind].
  assert (G := same_dmd_grating m (d_neg d) amp pin pout (T2 (s_Ny (d_slm d)) (s_Nx (d_slm d)) gx) (T2 (s_Ny (d_slm d)) (s_Nx (d_slm d)) gy) (d_p d) (d_theta d) kw (raw_tensor (k_input kw)) (raw_tensor (k_window kw)) u v amp' pin' pout' Hm Hv ltac:(discriminate) Sa Si So).
  destruct (nd_calculate_dmd_grating _ _ _ _ _ _ _ _ _ _ _) as [[t|t]|e], (calculate_dmd_grating _ _ _ _ _ _ _ _ _ _ _ _ _) as [[[?|ny nx f]|[?|ny nx f]]|e']; try contradiction; cbn [rbind to_dstate].
  3: { subst e'. split; reflexivity. }
  all: destruct G as [G1 G2]; cbn [tshape shp] in G1; assert (G3 : forall i j, (i < ny)%nat -> (j < nx)%nat -> nel t [j; i] = f i j) by (intros i j Hi Hj; rewrite <- (tget_T2 ny nx f i j Hi Hj); exact (G2 i j (conj Hi Hj)));
    destruct (Req_EM_T (scaling_factor (d_slm d)) 0); (split; [reflexivity|]; exists ny, nx, f; auto).
Qed.
