(** Windows, inputs and targets with a single row or column (C83, C84). *)
From Coq Require Import Reals Lra ZArith Arith List Bool Lia.
From Coquelicot Require Import Complex.
From Verif Require Import Cx Sums DFT PyBase ProfileModel SlmModel LibModel DmdModel SimModel SimSpec GridFacts SimFacts SimFacts2 DmdSpec DmdFacts DmdFacts2 AmpFacts AmpFacts2 AmpFacts3 IftaFacts ShapeSpec ShapeFacts RowFacts.
Import ListNotations.
Open Scope R_scope.

Lemma stretch_reads {A} ny nx (t : tensor A) : fit (tshape t) ny nx -> exists f, stretch ny nx t = Some f /\ same_in ny nx f (tget t).
Proof.
  destruct t as [a|a b g]; [exists (fun _ _ => a); split; [reflexivity|intros i j _ _; reflexivity]|]. cbn [tshape fit stretch]. intros [Ha Hb].
  assert (B : ((Nat.eqb a ny || Nat.eqb a 1) && (Nat.eqb b nx || Nat.eqb b 1))%bool = true).
  { apply andb_true_iff. split; apply orb_true_iff; rewrite !Nat.eqb_eq; assumption. }
  rewrite B. eexists. split; [reflexivity|]. intros i j Hi Hj. cbn [tget]. f_equal.
  - destruct (Nat.eqb_spec a ny), (Nat.eqb_spec a 1); lia.
  - destruct (Nat.eqb_spec b nx), (Nat.eqb_spec b 1); lia.
Qed.
Lemma stretch_same {A} ny nx (a b : tensor A) : reads_same ny nx a b -> exists f g, stretch ny nx a = Some f /\ stretch ny nx b = Some g /\ same_in ny nx f g.
Proof.
  intros (H1 & H2 & H3). destruct (stretch_reads ny nx a H1) as (f & E & Sf). destruct (stretch_reads ny nx b H2) as (g & E' & Sg). exists f, g. split; [exact E|]. split; [exact E'|].
  intros i j Hi Hj. rewrite Sf, Sg, H3 by assumption. reflexivity.
Qed.
Lemma shift_same {A} ny nx (f g : nat -> nat -> A) : same_in ny nx f g -> same_in ny nx (ifftshift2 ny nx f) (ifftshift2 ny nx g).
Proof. intros H i j Hi Hj. unfold ifftshift2. apply H; apply ishift_idx_lt; lia. Qed.

(** ** IFTA *)
Lemma ifta_loop_same ny nx F F' W W' ideal ideal' N k : same_in ny nx F F' -> same_in ny nx W W' -> (forall i j, ideal i j = ideal' i j) -> forall g g', same_in ny nx g g' ->
  same_in ny nx (ifta_loop ny nx F W ideal N k g) (ifta_loop ny nx F' W' ideal' N k g').
Proof.
  intros HF HW HI g g' HG. induction k as [|k IH]; [exact HG|]. cbn [ifta_loop]. intros i j Hi Hj. unfold ifta_step. rewrite HF by assumption.
  destruct (C_dec0 (F' i j)); [reflexivity|].
  match goal with |- match offt2 ny nx ?a i j with _ => _ end = match offt2 ny nx ?b i j with _ => _ end => rewrite (offt2_ext ny nx a b) end; [reflexivity|].
  intros a b Ha Hb. rewrite HI, HW by assumption. f_equal. apply oifft2_ext. intros c e Hc He. rewrite IH, HF by assumption. reflexivity.
Qed.
Lemma ifta_array_same ny nx F F' W W' g g' N s : same_in ny nx F F' -> same_in ny nx W W' -> same_in ny nx g g' -> same_in ny nx (ifta_array ny nx F W g N s) (ifta_array ny nx F' W' g' N s).
Proof.
  intros HF HW H i j Hi Hj. unfold ifta_array.
  rewrite (ifta_loop_same ny nx F F' (ifftshift2 ny nx W) (ifftshift2 ny nx W') _ (oifft2 ny nx (fun i j => omul (F' i j) (fin_of (xscale (g' i j) s)))) N (Z.to_nat N)) with (g' := fun i j => fin_of (xscale (g' i j) s)).
  - reflexivity.
  - exact HF.
  - apply shift_same, HW.
  - intros a b. apply oifft2_ext. intros c e Hc He. rewrite H, HF by assumption. reflexivity.
  - intros a b Ha Hb. rewrite H by assumption. reflexivity.
  - exact Hi.
  - exact Hj.
Qed.
Lemma dispatch_ifta neg amp amp' pin pin' pout pout' x y ny nx X Y p th kw kw' F F' a b W a' b' W' u : k_N kw = k_N kw' -> k_s kw = k_s kw' ->
  reads_same ny nx amp amp' -> reads_same ny nx pin pin' -> reads_same ny nx pout pout' -> grid_is (x, y) ny nx X Y -> reads_same ny nx F F' -> reads_same ny nx (T2 a b W) (T2 a' b' W') ->
  exists s s', (let! g := calculate_dmd_grating MIfta neg amp pin pout x y p th kw (Some F) (Some (T2 a b W)) u in to_dstate g) = Ok s /\
    (let! g := calculate_dmd_grating MIfta neg amp' pin' pout' x y p th kw' (Some F') (Some (T2 a' b' W')) u in to_dstate g) = Ok s' /\ same_state s s'.
Proof.
  intros KN KS (A1 & A2 & A3) (B1 & B2 & B3) (C1 & C2 & C3) G HF HW. cbn [calculate_dmd_grating]. unfold grating_ifta, grating_ideal.
  match goal with |- context [grating_tensor ?px amp pin pout x y] => destruct (grating_fits px amp pin pout x y ny nx X Y A1 B1 C1 G) as (g & -> & Vg); destruct (grating_fits px amp' pin' pout' x y ny nx X Y A2 B2 C2 G) as (g' & -> & Vg') end.
  cbn [rbind]. destruct (stretch_same ny nx F F' HF) as (f & f' & -> & -> & SF). destruct (stretch_same ny nx _ _ HW) as (w & w' & -> & -> & SW). rewrite KN, KS.
  cbn [rmap rbind to_dstate]. do 2 eexists. split; [reflexivity|]. split; [reflexivity|]. split; [reflexivity|]. split; [reflexivity|]. cbn [state_shape fst snd cell_at]. intros i j Hi Hj. f_equal.
  rewrite (ifta_array_same ny nx f f' w w' g g'); [reflexivity|exact SF|exact SW| |exact Hi|exact Hj]. intros k l Hk Hl. rewrite Vg, Vg', A3, B3, C3 by assumption. reflexivity.
Qed.
Lemma set_ifta_repeats h d amp pin pout A B D F y x W a b y' x' kw kw' u : let s := d_slm d in reads h s amp A -> reads h s pin B -> reads h s pout D ->
  fits s y x -> fits s y' x' -> k_N kw = k_N kw' -> k_s kw = k_s kw' ->
  k_input kw = Some (AConstC (T2 y x F)) -> k_window kw = Some (AConstC (T2 y' x' W)) -> k_input kw' = Some (AConstC (T2 (s_Ny s) (s_Nx s) (repeated y x F))) -> k_window kw' = Some (AConstC (T2 (s_Ny s) (s_Nx s) (repeated y' x' W))) ->
  a = set_dmd_grating_state h d amp pin pout MIfta kw u -> b = set_dmd_grating_state h d amp pin pout MIfta kw' u -> snd a = Ok tt /\ snd b = Ok tt /\ same_state (d_state (fst a)) (d_state (fst b)).
Proof.
  intros s (ta & Ea & Sa & _) (tb & Eb & Sb & _) (tc & Ec & Sc & _) [Fy Fx] [Gy Gx] KN KS I1 W1 I2 W2 -> ->. unfold set_dmd_grating_state, grating_of. fold s. rewrite Ea, Eb, Ec. cbn [rbind].
  assert (fitt : forall t : tensor R, tshape t = S0 \/ tshape t = S2 (s_Ny s) (s_Nx s) -> fit (tshape t) (s_Ny s) (s_Nx s)). { intros t [-> | ->]; [exact I|split; left; reflexivity]. }
  assert (G := grid_mirrors s). destruct (fourier_plane_grid s) as [gx gy]. rewrite I1, W1, I2, W2. cbn [raw_tensor].
  destruct (dispatch_ifta (d_neg d) (tmap Fin ta) (tmap Fin ta) tb tb tc tc gx gy _ _ _ _ (d_p d) (d_theta d) kw kw' (T2 y x F) (T2 (s_Ny s) (s_Nx s) (repeated y x F)) y' x' W (s_Ny s) (s_Nx s) (repeated y' x' W) u KN KS
    (reads_same_map Fin _ _ _ _ (reads_same_refl _ _ _ (fitt _ Sa))) (reads_same_refl _ _ _ (fitt _ Sb)) (reads_same_refl _ _ _ (fitt _ Sc)) G (repeat_same _ _ y x F Fy Fx) (repeat_same _ _ y' x' W Gy Gx)) as (st & st' & -> & -> & S).
  split; [reflexivity|]. split; [reflexivity|exact S].
Qed.

(** ** calculate_dmd_state *)
Definition opt_same {A} (ny nx : nat) (a b : option (tensor A)) : Prop := match a, b with None, None => True | Some s, Some t => reads_same ny nx s t | _, _ => False end.
Lemma tmap2_reads {A B D} (g : A -> B -> D) ny nx f (t : tensor B) : fit (tshape t) ny nx -> exists k, tmap2 g (T2 ny nx f) t = Ok (T2 ny nx k) /\ forall i j, (i < ny)%nat -> (j < nx)%nat -> k i j = g (f i j) (tget t i j).
Proof.
  intros H. unfold tmap2, bc2. assert (E : bshape (tshape (T2 ny nx f)) (tshape t) = Some (S2 ny nx)).
  { cbn [tshape]. destruct t as [|a b h]; [reflexivity|]. cbn [tshape fit bshape] in *. destruct H as [H1 H2]. destruct (bdim_fit_full a ny H1) as [_ ->]. destruct (bdim_fit_full b nx H2) as [_ ->]. reflexivity. }
  rewrite E. cbn [rbind mk]. exists (fun i j => g (tget (T2 ny nx f) i j) (tget t i j)). split; [reflexivity|]. intros i j Hi Hj. rewrite (tget_T2 ny nx f) by assumption. reflexivity.
Qed.
Lemma amp_same ny nx i i' t w w' : reads_same ny nx i i' -> opt_same ny nx w w' ->
  exists amp amp' pin pin' pout pout' M, calc_amp_phase i (T2 ny nx t) w = Ok (amp, pin, pout, M) /\ calc_amp_phase i' (T2 ny nx t) w' = Ok (amp', pin', pout', M) /\
    reads_same ny nx amp amp' /\ reads_same ny nx pin pin' /\ reads_same ny nx pout pout'.
Proof.
  intros HI HW. unfold calc_amp_phase.
  assert (FP : exists f f', (match w with None => Ok (T2 ny nx (target_fp ny nx t)) | Some w => tmap2 Cmult (T2 ny nx (target_fp ny nx t)) w end) = Ok (T2 ny nx f) /\
    (match w' with None => Ok (T2 ny nx (target_fp ny nx t)) | Some w => tmap2 Cmult (T2 ny nx (target_fp ny nx t)) w end) = Ok (T2 ny nx f') /\ same_in ny nx f f').
  { destruct w as [w|], w' as [w'|]; try contradiction.
    - destruct HW as (H1 & H2 & H3). destruct (tmap2_reads Cmult ny nx (target_fp ny nx t) w H1) as (f & Ef & Vf). destruct (tmap2_reads Cmult ny nx (target_fp ny nx t) w' H2) as (f' & Ef' & Vf'). exists f, f'. split; [exact Ef|]. split; [exact Ef'|]. intros a b Ha Hb. rewrite Vf, Vf', H3 by assumption. reflexivity.
    - exists (target_fp ny nx t), (target_fp ny nx t). split; [reflexivity|]. split; [reflexivity|]. intros a b _ _. reflexivity. }
  destruct FP as (f & f' & -> & -> & Sf). cbn [rbind tmap]. destruct HI as (H1 & H2 & H3).
  destruct (tmap2_reads safe_ratio ny nx (fun a b => Cmod (f a b)) (tmap Cmod i)) as (k & -> & Vk); [rewrite tshape_tmap; exact H1|].
  destruct (tmap2_reads safe_ratio ny nx (fun a b => Cmod (f' a b)) (tmap Cmod i')) as (k' & -> & Vk'); [rewrite tshape_tmap; exact H2|]. cbn [rbind tmap reduce_max].
  assert (K : forall a b, (a < ny)%nat -> (b < nx)%nat -> k a b = k' a b). { intros a b Ha Hb. rewrite Vk, Vk', !tget_tmap, H3, Sf by assumption. reflexivity. }
  assert (full : forall T (g g' : nat -> nat -> T), same_in ny nx g g' -> reads_same ny nx (T2 ny nx g) (T2 ny nx g')). { intros T g g' H. split; [split; left; reflexivity|]. split; [split; left; reflexivity|]. intros a b Ha Hb. rewrite !tget_T2 by assumption. apply H; assumption. }
  do 7 eexists. split; [reflexivity|]. split; [rewrite <- (xmax2_ext k k' ny nx K); reflexivity|]. split; [|split].
  - apply full. intros a b Ha Hb. rewrite K by assumption. reflexivity.
  - apply reads_same_map. split; [exact H1|]. split; [exact H2|exact H3].
  - apply full. intros a b Ha Hb. rewrite Sf by assumption. reflexivity.
Qed.
Definition is_array {A} (t : tensor A) : bool := match t with T0 _ => false | T2 _ _ _ => true end.
Lemma calc_repeats h d input input' ti ti' target t m w w' tw tw' kw kw' u : let s := d_slm d in
  profile_to_tensor_c h s input true = Ok ti -> profile_to_tensor_c h s input' true = Ok ti' -> reads_same (s_Ny s) (s_Nx s) ti ti' ->
  profile_to_tensor_c h s target false = Ok (T2 (s_Ny s) (s_Nx s) t) ->
  (match w with None => Ok None | Some w => let! w := profile_to_tensor_c h s w true in Ok (Some w) end) = Ok tw -> (match w' with None => Ok None | Some w => let! w := profile_to_tensor_c h s w true in Ok (Some w) end) = Ok tw' -> opt_same (s_Ny s) (s_Nx s) tw tw' ->
  k_N kw = k_N kw' -> k_s kw = k_s kw' -> k_r kw = k_r kw' ->
  (m = MIfta -> exists v v' tv tv', k_window kw = Some v /\ k_window kw' = Some v' /\ profile_to_tensor_c h s v false = Ok tv /\ profile_to_tensor_c h s v' false = Ok tv' /\ reads_same (s_Ny s) (s_Nx s) tv tv' /\ is_array tv = true /\ is_array tv' = true) ->
  let r := calculate_dmd_state h d input target m w kw u in let r' := calculate_dmd_state h d input' target m w' kw' u in
  snd r = snd r' /\ same_state (d_state (fst r)) (d_state (fst r')).
Proof.
  intros s E1 E2 RS Et Ew Ew' OW KN KS KR HV r r'. subst r r'. rewrite !calc_split. unfold calc_new. fold s. rewrite E1, E2, Et. cbn [rbind]. rewrite Ew, Ew'. cbn [rbind].
  destruct (amp_same (s_Ny s) (s_Nx s) ti ti' t tw tw' RS OW) as (amp & amp' & pin & pin' & pout & pout' & M & -> & -> & R1 & R2 & R3). cbn [rbind].
  assert (G := grid_mirrors s). destruct (fourier_plane_grid s) as [gx gy].
  assert (D : match (let! (inp, win) := match m with MIfta => match k_window kw with None => Err KeyError | Some w => let! w := profile_to_tensor_c h s w false in Ok (Some ti, Some w) end | _ => Ok (raw_tensor (k_input kw), raw_tensor (k_window kw)) end in
      let! g := calculate_dmd_grating m (d_neg d) amp pin pout gx gy (d_p d) (d_theta d) kw inp win u in let! st := to_dstate g in Ok (st, M)),
    (let! (inp, win) := match m with MIfta => match k_window kw' with None => Err KeyError | Some w => let! w := profile_to_tensor_c h s w false in Ok (Some ti', Some w) end | _ => Ok (raw_tensor (k_input kw'), raw_tensor (k_window kw')) end in
      let! g := calculate_dmd_grating m (d_neg d) amp' pin' pout' gx gy (d_p d) (d_theta d) kw' inp win u in let! st := to_dstate g in Ok (st, M)) with
    | Ok (a, q), Ok (b, q') => q = q' /\ same_state a b | Err e, Err e' => e = e' | _, _ => False end).
  { assert (N : m <> MIfta -> forall inp win inp' win', match (let! g := calculate_dmd_grating m (d_neg d) amp pin pout gx gy (d_p d) (d_theta d) kw inp win u in let! st := to_dstate g in Ok (st, M)),
      (let! g := calculate_dmd_grating m (d_neg d) amp' pin' pout' gx gy (d_p d) (d_theta d) kw' inp' win' u in let! st := to_dstate g in Ok (st, M)) with Ok (a, q), Ok (b, q') => q = q' /\ same_state a b | Err e, Err e' => e = e' | _, _ => False end).
    { intros NM inp win inp' win'. assert (D := dispatch_same m (d_neg d) amp amp' pin pin' pout pout' gx gy _ _ _ _ (d_p d) (d_theta d) kw inp win u R1 R2 R3 G).
      assert (Q : calculate_dmd_grating m (d_neg d) amp' pin' pout' gx gy (d_p d) (d_theta d) kw' inp' win' u = calculate_dmd_grating m (d_neg d) amp' pin' pout' gx gy (d_p d) (d_theta d) kw inp win u) by (destruct m; try contradiction; cbn [calculate_dmd_grating]; rewrite ?KR; reflexivity).
      rewrite Q. destruct (calculate_dmd_grating m (d_neg d) amp pin pout gx gy (d_p d) (d_theta d) kw inp win u) as [g|]; cbn [rbind] in D |- *; destruct (calculate_dmd_grating m (d_neg d) amp' pin' pout' gx gy (d_p d) (d_theta d) kw inp win u) as [g'|]; cbn [rbind] in D |- *.
      - destruct (to_dstate g) as [a|], (to_dstate g') as [b|]; cbn [rbind]; try contradiction; [split; [reflexivity|apply D]|exact D].
      - destruct (to_dstate g) as [a|]; cbn [rbind]; [contradiction|exact D].
      - destruct (to_dstate g') as [a|]; cbn [rbind]; [contradiction|exact D].
      - exact D. }
    destruct m; try (apply N; discriminate). clear N. destruct (HV eq_refl) as (v & v' & tv & tv' & -> & -> & -> & -> & RV & AV & AV'). cbn [rbind]. destruct tv as [|a b W]; [discriminate|]. destruct tv' as [|a' b' W']; [discriminate|].
    destruct (dispatch_ifta (d_neg d) amp amp' pin pin' pout pout' gx gy _ _ _ _ (d_p d) (d_theta d) kw kw' ti ti' a b W a' b' W' u KN KS R1 R2 R3 G RS RV) as (st & st' & H1 & H2 & S).
    destruct (calculate_dmd_grating MIfta (d_neg d) amp pin pout gx gy (d_p d) (d_theta d) kw (Some ti) (Some (T2 a b W)) u) as [g|]; [|discriminate]. destruct (calculate_dmd_grating MIfta (d_neg d) amp' pin' pout' gx gy (d_p d) (d_theta d) kw' (Some ti') (Some (T2 a' b' W')) u) as [g'|]; [|discriminate].
    cbn [rbind] in H1, H2 |- *. rewrite H1, H2. cbn [rbind]. split; [reflexivity|exact S]. }
  match goal with |- snd (match ?a with _ => _ end) = snd (match ?b with _ => _ end) /\ _ => destruct a as [[st q]|e], b as [[st' q']|e'] end; try contradiction.
  - destruct D as [-> D]. destruct (Req_EM_T _ 0); split; try reflexivity; exact D.
  - subst e'. split; [reflexivity|split; [reflexivity|split; reflexivity]].
Qed.
Lemma calc_input_repeats h d F y x target t m kw u : let s := d_slm d in fits s y x -> profile_to_tensor_c h s target false = Ok (T2 (s_Ny s) (s_Nx s) t) ->
  (m = MIfta -> exists v y' x' W, k_window kw = Some v /\ (v = AConstC (T2 y' x' W) \/ v = ATensorC (T2 y' x' W)) /\ fits s y' x') ->
  let r := calculate_dmd_state h d (AConstC (T2 y x F)) target m None kw u in let r' := calculate_dmd_state h d (AConstC (T2 (s_Ny s) (s_Nx s) (repeated y x F))) target m None kw u in
  snd r = snd r' /\ same_state (d_state (fst r)) (d_state (fst r')).
Proof.
  intros s [Fy Fx] Et HV. apply (calc_repeats h d _ _ (T2 y x F) (T2 (s_Ny s) (s_Nx s) (repeated y x F)) target t m None None None None kw kw u); fold s; try reflexivity.
  - apply repeat_same; assumption.
  - exact Et.
  - intros Hm. destruct (HV Hm) as (v & y' & x' & W & Ev & V & [Gy Gx]). exists v, v, (T2 y' x' W), (T2 y' x' W). repeat split; try assumption; destruct V as [-> | ->]; reflexivity.
Qed.
Lemma calc_window_repeats h d input F target t m w y x ww kw kw' y' x' W u : let s := d_slm d in full_input h s input F -> profile_to_tensor_c h s target false = Ok (T2 (s_Ny s) (s_Nx s) t) ->
  fits s y x -> w = AConstC (T2 y x ww) -> fits s y' x' -> k_window kw = Some (AConstC (T2 y' x' W)) ->
  k_window kw' = Some (AConstC (T2 (s_Ny s) (s_Nx s) (repeated y' x' W))) -> k_N kw = k_N kw' -> k_s kw = k_s kw' -> k_r kw = k_r kw' ->
  let r := calculate_dmd_state h d input target m (Some w) kw u in let r' := calculate_dmd_state h d input target m (Some (AConstC (T2 (s_Ny s) (s_Nx s) (repeated y x ww)))) kw' u in
  snd r = snd r' /\ same_state (d_state (fst r)) (d_state (fst r')).
Proof.
  intros s HF Et [Fy Fx] -> [Gy Gx] K1 K2 KN KS KR. apply (calc_repeats h d input input (T2 (s_Ny s) (s_Nx s) F) (T2 (s_Ny s) (s_Nx s) F) target t m _ _ (Some (T2 y x ww)) (Some (T2 (s_Ny s) (s_Nx s) (repeated y x ww))) kw kw' u); fold s; try assumption; try reflexivity.
  - apply reads_same_refl. split; left; reflexivity.
  - cbn [opt_same]. apply repeat_same; assumption.
  - intros _. do 4 eexists. split; [exact K1|]. split; [exact K2|]. split; [reflexivity|]. split; [reflexivity|]. split; [apply repeat_same; assumption|split; reflexivity].
Qed.

(** ** Gerchberg-Saxton and MRAF *)
Lemma iter_same {A} (Q : A -> A -> Prop) f g a b : Q a b -> (forall a b, Q a b -> Q (f a) (g b)) -> forall n, Q (iter n f a) (iter n g b).
Proof. intros H S n. induction n as [|n IH]; cbn [iter]; [exact H|apply S, IH]. Qed.
Lemma gs_same ny nx F T T' u N : same_in ny nx T T' -> same_in ny nx (gs_array ny nx F T u N) (gs_array ny nx F T' u N).
Proof.
  intros H. unfold gs_array. apply (iter_same (same_in ny nx)); [intros i j _ _; reflexivity|]. intros a b Hab i j Hi Hj. unfold gs_step. f_equal. apply fft2_ext. intros k q Hk Hq.
  rewrite (shift_same ny nx T T' H k q Hk Hq). rewrite (ifft2_ext ny nx (fun i j => (F i j * cis (a i j))%C) (fun i j => (F i j * cis (b i j))%C)) by (intros c e Hc He; rewrite Hab by assumption; reflexivity). reflexivity.
Qed.
Lemma mraf_same ny nx F T T' W W' m u N : same_in ny nx T T' -> same_in ny nx W W' -> same_in ny nx (mraf_array ny nx F T W m u N) (mraf_array ny nx F T' W' m u N).
Proof.
  intros H HW. unfold mraf_array. apply (iter_same (same_in ny nx)); [intros i j _ _; reflexivity|]. intros a b Hab i j Hi Hj. unfold mraf_step. f_equal. apply fft2_ext. intros k q Hk Hq.
  rewrite (shift_same ny nx T T' H k q Hk Hq), (shift_same ny nx W W' HW k q Hk Hq). rewrite (ifft2_ext ny nx (fun i j => (F i j * cis (a i j))%C) (fun i j => (F i j * cis (b i j))%C)) by (intros c e Hc He; rewrite Hab by assumption; reflexivity). reflexivity.
Qed.
Lemma holo_repeats h l input F y x t y' x' W m kw kw' u : let s := l_slm l in full_input h s input F -> fits s y x -> fits s y' x' -> m <> MLUnknown ->
  lk_N kw = lk_N kw' -> lk_mix kw = lk_mix kw' -> lk_window kw = Some (AConstC (T2 y' x' W)) -> lk_window kw' = Some (AConstC (T2 (s_Ny s) (s_Nx s) (repeated y' x' W))) ->
  exists phi phi', calculate_hologram h l input (AConstR (T2 y x t)) m kw u = ({| l_slm := s; l_state := LReal (s_Ny s) (s_Nx s) phi |}, Ok tt) /\
    calculate_hologram h l input (AConstR (T2 (s_Ny s) (s_Nx s) (repeated y x t))) m kw' u = ({| l_slm := s; l_state := LReal (s_Ny s) (s_Nx s) phi' |}, Ok tt) /\
    forall i j, (i < s_Ny s)%nat -> (j < s_Nx s)%nat -> phi i j = phi' i j.
Proof.
  intros s HF [Fy Fx] [Gy Gx] Hm KN KM KW KW'. unfold calculate_hologram. fold s. rewrite HF, KW, KW'. cbn [profile_to_tensor_r profile_to_tensor_c rbind].
  destruct (stretch_same (s_Ny s) (s_Nx s) _ _ (repeat_same (s_Ny s) (s_Nx s) y x t Fy Fx)) as (f & f' & E1 & E2 & S1). destruct (stretch_same (s_Ny s) (s_Nx s) _ _ (repeat_same (s_Ny s) (s_Nx s) y' x' W Gy Gx)) as (g & g' & E3 & E4 & S2).
  destruct m; [| |contradiction]; cbn [rbind calculate_lcos_hologram]; rewrite E1, E2, ?E3, ?E4, KN, ?KM; do 2 eexists; (split; [reflexivity|]); (split; [reflexivity|]).
  - apply gs_same, S1.
  - apply mraf_same; assumption.
Qed.

(** ** Keyword arrays of the grating methods are used as they are *)
Lemma ifta_needs_complex h d a b c kw u : ~ (is_complex_array (k_window kw) /\ complex_or_number (k_input kw)) ->
  exists e, grating_of h d a b c MIfta kw u = Err e.
Proof.
  intros N. destruct (grating_of h d a b c MIfta kw u) as [st|e] eqn:E; [exfalso|exists e; reflexivity]. apply N. unfold grating_of in E.
  destruct (profile_to_tensor_r h (d_slm d) a true) as [ta|]; [|discriminate]. cbn [rbind] in E.
  destruct (profile_to_tensor_r h (d_slm d) b true) as [tb|]; [|discriminate]. cbn [rbind] in E.
  destruct (profile_to_tensor_r h (d_slm d) c true) as [tc|]; [|discriminate]. cbn [rbind] in E.
  destruct (fourier_plane_grid (d_slm d)) as [x y]. unfold calculate_dmd_grating, grating_ifta in E.
  destruct (grating_ideal _ _ _ _ _ _ _ _) as [g|]; [|discriminate]. cbn [rbind] in E.
  destruct (raw_tensor (k_input kw)) as [F|] eqn:EF; [|discriminate]. destruct (raw_tensor (k_window kw)) as [[w|wy wx W]|] eqn:EW; [discriminate| |discriminate].
  split.
  - destruct (k_window kw) as [[p|[r|yy xx r]|t|[r|yy xx r]|t]|]; try discriminate; injection EW as ->; exists wy, wx, W; auto.
  - destruct (k_input kw) as [[p|[r|yy xx r]|[z|yy xx t]|[r|yy xx r]|[z|yy xx t]]|]; try discriminate.
    + right. left. eauto.
    + left. exists yy, xx, t. auto.
    + right. right. eauto.
    + right. left. eauto.
    + left. exists yy, xx, t. auto.
Qed.
Lemma ifta_rejects_kinds h d a b c kw u : ~ (is_complex_array (k_window kw) /\ complex_or_number (k_input kw)) ->
  (exists e, set_dmd_grating_state h d a b c MIfta kw u = (d, Err e)) /\ forall ci cj dm, exists e, circular_patch h d ci cj a b c dm MIfta kw u = (d, Err e).
Proof.
  intros N. destruct (ifta_needs_complex h d a b c kw u N) as [e E]. unfold set_dmd_grating_state, circular_patch. rewrite E. split; [|intros ci cj dm]; exists e; reflexivity.
Qed.
