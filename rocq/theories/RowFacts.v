(** Arrays with a single row or column (C83). *)
From Coq Require Import Reals Lra ZArith Arith List Bool Lia.
From Coquelicot Require Import Complex.
From Verif Require Import Cx Sums DFT PyBase ProfileModel SlmModel LibModel DmdModel SimModel SimSpec GridFacts SimFacts SimFacts2 DmdSpec DmdFacts DmdFacts2 AmpFacts AmpFacts2 AmpFacts3 IftaFacts ShapeSpec ShapeFacts.
Import ListNotations.
Open Scope R_scope.

(** ** spectrum of a single row *)
Lemma centred_mid n : centred n (n / 2) = 0%Z.
Proof. unfold centred. lia. Qed.
Lemma spectrum_line ny nx t i j : (0 < ny)%nat -> spectrum_of ny nx (line ny (t 0%nat)) i j = spectrum_of 1 nx t 0 j.
Proof.
  intros Hy. unfold spectrum_of, csum2. assert (M : (ny / 2 < ny)%nat) by (apply Nat.div_lt; lia).
  rewrite (csum_single ny (ny / 2)); [|exact M|].
  - rewrite (csum_single 1 0); [|lia|intros k Hk Hne; lia]. apply csum_ext. intros v _. unfold line. rewrite Nat.eqb_refl.
    unfold wave. rewrite centred_mid. change (centred 1 0) with 0%Z. rewrite !Z.mul_0_r. unfold Rdiv. rewrite !Rmult_0_l. reflexivity.
  - intros k Hk Hne. rewrite <- (csum_0 nx). apply csum_ext. intros v _. unfold line. destruct (Nat.eqb_spec k (ny / 2)); [contradiction|]. ring.
Qed.
Lemma fp_line ny nx t i j : (i < ny)%nat -> (j < nx)%nat -> target_fp ny nx (line ny (t 0%nat)) i j = target_fp 1 nx t 0 j.
Proof. intros Hi Hj. rewrite !spectrum_fp by lia. apply spectrum_line. lia. Qed.

(** ** gratings of tensors that read the same *)
Definition reads_same {A} (ny nx : nat) (a b : tensor A) : Prop :=
  fit (tshape a) ny nx /\ fit (tshape b) ny nx /\ forall i j, (i < ny)%nat -> (j < nx)%nat -> tget a i j = tget b i j.
Lemma bdim_fit_full a n : a = n \/ a = 1%nat -> bdim a n = Some n /\ bdim n a = Some n.
Proof.
  intros [->| ->]; unfold bdim; rewrite ?Nat.eqb_refl; [auto|]. destruct n as [|[|n]]; auto.
Qed.
Lemma bdim_fit2 a b n : a = n \/ a = 1%nat -> b = n \/ b = 1%nat -> exists c, bdim a b = Some c /\ (c = n \/ c = 1%nat).
Proof.
  intros [->| ->] Hb; [exists n; split; [apply bdim_fit_full; exact Hb|auto]|]. destruct Hb as [->| ->]; [|exists 1%nat; cbn; auto].
  exists n. split; [apply (bdim_fit_full 1 n); auto|auto].
Qed.
Lemma bshape_fit2 s t ny nx : fit s ny nx -> fit t ny nx -> exists k, bshape s t = Some k /\ fit k ny nx.
Proof.
  destruct s as [|a b]; [intros _ H; exists t; split; [reflexivity|exact H]|]. destruct t as [|c d]; [intros H _; exists (S2 a b); split; [reflexivity|exact H]|].
  cbn [fit bshape]. intros [H1 H2] [H3 H4]. destruct (bdim_fit2 a c ny H1 H3) as (y & -> & Hy). destruct (bdim_fit2 b d nx H2 H4) as (x & -> & Hx).
  exists (S2 y x). split; [reflexivity|]. split; assumption.
Qed.
Lemma bshape_fit_full s ny nx : fit s ny nx -> bshape s (S2 ny nx) = Some (S2 ny nx).
Proof.
  destruct s as [|a b]; [reflexivity|]. cbn [fit bshape]. intros [H1 H2].
  destruct (bdim_fit_full a ny H1) as [-> _]. destruct (bdim_fit_full b nx H2) as [-> _]. reflexivity.
Qed.
Lemma grating_fits {A} (px : xr -> R -> R -> R -> R -> nat -> nat -> A) amp pin pout x y ny nx X Y :
  fit (tshape amp) ny nx -> fit (tshape pin) ny nx -> fit (tshape pout) ny nx -> grid_is (x, y) ny nx X Y ->
  exists g, grating_tensor px amp pin pout x y = Ok (T2 ny nx g) /\
    forall i j, (i < ny)%nat -> (j < nx)%nat -> g i j = px (tget amp i j) (tget pin i j) (tget pout i j) (X i j) (Y i j) i j.
Proof.
  intros F1 F2 F3 G. destruct (grid_is_shape _ _ _ _ _ G) as (gx & gy & Eg). injection Eg as -> ->.
  unfold grating_tensor, bc_all. cbn [fold_left]. unfold bshape_r. cbn [rbind tshape].
  destruct (bshape_fit2 _ _ _ _ F1 F2) as (k & -> & Fk). cbn [rbind]. destruct (bshape_fit2 _ _ _ _ Fk F3) as (k2 & -> & Fk2). cbn [rbind].
  rewrite (bshape_fit_full _ _ _ Fk2). cbn [rbind bshape]. rewrite !bdim_refl. cbn [rbind mk]. eexists. split; [reflexivity|].
  intros i j Hi Hj. cbn beta. destruct (grid_is_get _ _ _ _ _ i j G Hi Hj) as [Ex Ey]. cbn [fst snd] in Ex, Ey. rewrite Ex, Ey. reflexivity.
Qed.
Lemma allb2_ext_in f g ny nx : (forall i j, (i < ny)%nat -> (j < nx)%nat -> f i j = g i j) -> allb2 f ny nx = allb2 g ny nx.
Proof.
  intros H. destruct (allb2 f ny nx) eqn:E.
  - symmetry. apply allb2_true. intros i j Hi Hj. rewrite <- H by assumption. exact (allb2_inv _ _ _ E i j Hi Hj).
  - destruct (allb2 g ny nx) eqn:E2; [|reflexivity]. rewrite <- E. apply allb2_true. intros i j Hi Hj. rewrite H by assumption. exact (allb2_inv _ _ _ E2 i j Hi Hj).
Qed.
Definition same_in {A} (ny nx : nat) (f g : nat -> nat -> A) : Prop := forall i j, (i < ny)%nat -> (j < nx)%nat -> f i j = g i j.
Lemma oifft2_ext ny nx f g u v : same_in ny nx f g -> oifft2 ny nx f u v = oifft2 ny nx g u v.
Proof.
  intros H. unfold oifft2. rewrite (allb2_ext_in _ (fun i j => isome (g i j)) ny nx) by (intros; rewrite H by assumption; reflexivity).
  destruct (allb2 _ ny nx); [|reflexivity]. f_equal. apply ifft2_ext. intros i j Hi Hj. unfold oget. rewrite H by assumption. reflexivity.
Qed.
Lemma offt2_ext ny nx f g u v : same_in ny nx f g -> offt2 ny nx f u v = offt2 ny nx g u v.
Proof.
  intros H. unfold offt2. rewrite (allb2_ext_in _ (fun i j => isome (g i j)) ny nx) by (intros; rewrite H by assumption; reflexivity).
  destruct (allb2 _ ny nx); [|reflexivity]. f_equal. apply fft2_ext. intros i j Hi Hj. unfold oget. rewrite H by assumption. reflexivity.
Qed.
Lemma ifta_loop_ext ny nx F W ideal ideal' N k : (forall i j, ideal i j = ideal' i j) -> forall g g', same_in ny nx g g' ->
  same_in ny nx (ifta_loop ny nx F W ideal N k g) (ifta_loop ny nx F W ideal' N k g').
Proof.
  intros HI g g' HG. induction k as [|k IH]; [exact HG|]. cbn [ifta_loop]. intros i j Hi Hj. unfold ifta_step.
  destruct (C_dec0 (F i j)); [reflexivity|].
  match goal with |- match ?a with Some _ => _ | None => _ end = match ?b with Some _ => _ | None => _ end => assert (E : a = b); [|rewrite E; reflexivity] end.
  apply offt2_ext. intros a b Ha Hb. rewrite HI. f_equal. apply oifft2_ext. intros c e Hc He. rewrite IH by assumption. reflexivity.
Qed.
Lemma ifta_array_ext ny nx F W g g' N s : same_in ny nx g g' -> same_in ny nx (ifta_array ny nx F W g N s) (ifta_array ny nx F W g' N s).
Proof.
  intros H i j Hi Hj. unfold ifta_array.
  rewrite (ifta_loop_ext ny nx F (ifftshift2 ny nx W) _ (oifft2 ny nx (fun i j => omul (F i j) (fin_of (xscale (g' i j) s)))) N (Z.to_nat N)) with (g' := fun i j => fin_of (xscale (g' i j) s)).
  - reflexivity.
  - intros a b. apply oifft2_ext. intros c e Hc He. rewrite H by assumption. reflexivity.
  - intros a b Ha Hb. rewrite H by assumption. reflexivity.
  - exact Hi.
  - exact Hj.
Qed.
Lemma dispatch_same m neg amp amp' pin pin' pout pout' x y ny nx X Y p th kw inp win u :
  reads_same ny nx amp amp' -> reads_same ny nx pin pin' -> reads_same ny nx pout pout' -> grid_is (x, y) ny nx X Y ->
  match (let! g := calculate_dmd_grating m neg amp pin pout x y p th kw inp win u in to_dstate g),
        (let! g := calculate_dmd_grating m neg amp' pin' pout' x y p th kw inp win u in to_dstate g) with
  | Ok a, Ok b => state_shape a = (ny, nx) /\ same_state a b
  | Err e, Err e' => e = e'
  | _, _ => False
  end.
Proof.
  intros (A1 & A2 & A3) (B1 & B2 & B3) (C1 & C2 & C3) G.
  assert (K : forall T (px : xr -> R -> R -> R -> R -> nat -> nat -> T), exists g g', grating_tensor px amp pin pout x y = Ok (T2 ny nx g) /\
    grating_tensor px amp' pin' pout' x y = Ok (T2 ny nx g') /\ same_in ny nx g g').
  { intros T px. destruct (grating_fits px amp pin pout x y ny nx X Y A1 B1 C1 G) as (g & Eg & Vg).
    destruct (grating_fits px amp' pin' pout' x y ny nx X Y A2 B2 C2 G) as (g' & Eg' & Vg'). exists g, g'. split; [exact Eg|]. split; [exact Eg'|].
    intros i j Hi Hj. rewrite Vg, Vg', A3, B3, C3 by assumption. reflexivity. }
  destruct m; cbn [calculate_dmd_grating]; [| | | |reflexivity].
  - unfold grating_ideal. destruct (K _ (guard_p p (fun _ _ _ _ _ _ _ => NaN) (fun a pi po x y _ _ => px_ideal neg a pi po x y p th))) as (g & g' & -> & -> & S).
    cbn [rmap rbind to_dstate state_shape]. split; [reflexivity|]. split; [reflexivity|]. split; [reflexivity|]. cbn [state_shape fst snd cell_at]. intros i j Hi Hj. rewrite S by assumption. reflexivity.
  - unfold grating_simple. match goal with |- context [grating_tensor ?px amp pin pout x y] => destruct (K _ px) as (g & g' & -> & -> & S) end.
    cbn [rmap rbind to_dstate state_shape]. split; [reflexivity|]. split; [reflexivity|]. split; [reflexivity|]. cbn [state_shape fst snd cell_at]. intros i j Hi Hj. rewrite S by assumption. reflexivity.
  - unfold grating_random. match goal with |- context [grating_tensor ?px amp pin pout x y] => destruct (K _ px) as (g & g' & -> & -> & S) end.
    cbn [rmap rbind to_dstate state_shape]. split; [reflexivity|]. split; [reflexivity|]. split; [reflexivity|]. cbn [state_shape fst snd cell_at]. intros i j Hi Hj. rewrite S by assumption. reflexivity.
  - unfold grating_ifta, grating_ideal. match goal with |- context [grating_tensor ?px amp pin pout x y] => destruct (K _ px) as (g & g' & -> & -> & S) end.
    cbn [rbind]. destruct inp as [F|]; [|reflexivity]. destruct win as [[|wy wx W]|]; [reflexivity| |reflexivity].
    destruct (stretch ny nx F) as [F'|]; [|reflexivity]. destruct (stretch ny nx (T2 wy wx W)) as [W'|]; [|reflexivity].
    cbn [rmap rbind to_dstate state_shape]. split; [reflexivity|]. split; [reflexivity|]. split; [reflexivity|]. cbn [state_shape fst snd cell_at]. intros i j Hi Hj.
    rewrite (ifta_array_ext ny nx F' W' g g') by assumption. reflexivity.
Qed.

(** ** repeated rows and columns *)
Lemma repeat_same {A} ny nx y x (f : nat -> nat -> A) : (y = ny \/ y = 1%nat) -> (x = nx \/ x = 1%nat) ->
  reads_same ny nx (T2 y x f) (T2 ny nx (repeated y x f)).
Proof.
  intros Hy Hx. split; [split; assumption|]. split; [split; left; reflexivity|]. intros i j Hi Hj. rewrite (tget_T2 ny nx) by assumption. reflexivity.
Qed.
Lemma reads_same_refl {A} ny nx (t : tensor A) : fit (tshape t) ny nx -> reads_same ny nx t t.
Proof. intros H. split; [exact H|]. split; [exact H|]. reflexivity. Qed.
Lemma reads_same_map {A B} (f : A -> B) ny nx a b : reads_same ny nx a b -> reads_same ny nx (tmap f a) (tmap f b).
Proof. intros (H1 & H2 & H3). split; [rewrite tshape_tmap; exact H1|]. split; [rewrite tshape_tmap; exact H2|]. intros i j Hi Hj. rewrite !tget_tmap, H3 by assumption. reflexivity. Qed.

(** A real array argument: the same data whichever way it is passed. *)
Lemma set_repeats h d a b c f y x m kw u : let s := d_slm d in fits s y x ->
  (exists t, profile_to_tensor_r h s b true = Ok t /\ fit (tshape t) (s_Ny s) (s_Nx s)) ->
  (exists t, profile_to_tensor_r h s c true = Ok t /\ fit (tshape t) (s_Ny s) (s_Nx s)) ->
  (a = AConstR (T2 y x f) \/ a = ATensorR (T2 y x f)) ->
  let r := set_dmd_grating_state h d a b c m kw u in
  let r' := set_dmd_grating_state h d (AConstR (T2 (s_Ny s) (s_Nx s) (repeated y x f))) b c m kw u in
  snd r = snd r' /\ same_state (d_state (fst r)) (d_state (fst r')).
Proof.
  intros s [Fy Fx] (tb & Eb & Fb) (tc & Ec & Fc) Ha r r'. subst r r'. unfold set_dmd_grating_state, grating_of. fold s.
  replace (profile_to_tensor_r h s a true) with (@Ok (tensor R) (T2 y x f)) by (destruct Ha as [-> | ->]; reflexivity).
  rewrite Eb, Ec. cbn [profile_to_tensor_r rbind]. assert (G := grid_mirrors s). destruct (fourier_plane_grid s) as [gx gy].
  assert (D := dispatch_same m (d_neg d) (tmap Fin (T2 y x f)) (tmap Fin (T2 (s_Ny s) (s_Nx s) (repeated y x f))) tb tb tc tc gx gy _ _ _ _ (d_p d) (d_theta d) kw (raw_tensor (k_input kw)) (raw_tensor (k_window kw)) u
    (reads_same_map Fin _ _ _ _ (repeat_same _ _ y x f Fy Fx)) (reads_same_refl _ _ _ Fb) (reads_same_refl _ _ _ Fc) G).
  destruct (rbind _ _) as [st|e]; destruct (rbind _ _) as [st'|e']; try contradiction.
  - destruct D as [_ D]. split; [reflexivity|exact D].
  - subst e'. split; [reflexivity|]. split; [reflexivity|]. split; [reflexivity|]. reflexivity.
Qed.
(** A target of one row. *)
Lemma row_amp ny nx F t : (0 < ny)%nat ->
  exists amp amp' pin pout pout' M, calc_amp_phase (T2 ny nx F) (T2 1 nx t) None = Ok (amp, pin, pout, M) /\
    calc_amp_phase (T2 ny nx F) (T2 ny nx (line ny (t 0%nat))) None = Ok (amp', pin, pout', M) /\
    reads_same ny nx amp amp' /\ reads_same ny nx pin pin /\ reads_same ny nx pout pout'.
Proof.
  intros Hy. unfold calc_amp_phase. cbn [rbind tmap]. rewrite tmap2_same. cbn [rbind tmap reduce_max].
  unfold tmap2, bc2. cbn [tshape bshape]. destruct (bdim_fit_full 1 ny ltac:(auto)) as [-> _]. rewrite bdim_refl. cbn [rbind mk tmap reduce_max].
  set (A := fun i j => safe_ratio (tget (T2 1 nx (fun a b => Cmod (target_fp 1 nx t a b))) i j) (tget (T2 ny nx (fun a b => Cmod (F a b))) i j)).
  set (B := fun i j => safe_ratio (tget (T2 ny nx (fun a b => Cmod (target_fp ny nx (line ny (t 0%nat)) a b))) i j) (tget (T2 ny nx (fun a b => Cmod (F a b))) i j)).
  assert (Col : forall j, (j < nx)%nat -> (if Nat.eqb nx 1 then 0 else j)%nat = j) by (intros j Hj; destruct (Nat.eqb_spec nx 1); lia).
  assert (AB : forall i j, (i < ny)%nat -> (j < nx)%nat -> A i j = B i j).
  { intros i j Hi Hj. unfold A, B. rewrite !(tget_T2 ny nx) by assumption. cbn [tget]. cbn [Nat.eqb]. rewrite Col, fp_line by assumption. reflexivity. }
  do 6 eexists. split; [reflexivity|]. split.
  - assert (EM : xmax2 A ny nx = xmax2 B ny nx) by (apply xmax2_ext; exact AB). rewrite EM. reflexivity.
  - split; [|split].
    + split; [split; left; reflexivity|]. split; [split; left; reflexivity|]. intros i j Hi Hj.
      transitivity (xdiv (A i j) (xmax2 A ny nx)); [rewrite tget_T2 by assumption; reflexivity|].
      transitivity (xdiv (B i j) (xmax2 B ny nx)); [rewrite AB, (xmax2_ext A B ny nx AB) by assumption; reflexivity|].
      rewrite tget_T2 by assumption. reflexivity.
    + apply reads_same_refl. split; left; reflexivity.
    + split; [split; [right; reflexivity|left; reflexivity]|]. split; [split; left; reflexivity|]. intros i j Hi Hj.
      rewrite (tget_T2 ny nx) by assumption. cbn [tget Nat.eqb]. rewrite Col, fp_line by assumption. reflexivity.
Qed.
Lemma row_target h d input F t m kw u : let s := d_slm d in (0 < s_Ny s)%nat -> full_input h s input F ->
  let r := calculate_dmd_state h d input (AConstC (T2 1 (s_Nx s) t)) m None kw u in
  let r' := calculate_dmd_state h d input (AConstC (T2 (s_Ny s) (s_Nx s) (line (s_Ny s) (t 0%nat)))) m None kw u in
  snd r = snd r' /\ same_state (d_state (fst r)) (d_state (fst r')).
Proof.
  intros s Hy HF r r'. subst r r'. rewrite !calc_split. unfold calc_new. fold s. rewrite HF. cbn [profile_to_tensor_c rbind].
  destruct (row_amp (s_Ny s) (s_Nx s) F t Hy) as (amp & amp' & pin & pout & pout' & M & -> & -> & R1 & R2 & R3). cbn [rbind].
  assert (G := grid_mirrors s). destruct (fourier_plane_grid s) as [gx gy].
  match goal with |- context [rbind ?q (fun x => let (_, _) := x in _)] => destruct q as [[inp win]|] end;
    [|split; [reflexivity|split; [reflexivity|split; reflexivity]]]. cbn [rbind].
  assert (D := dispatch_same m (d_neg d) amp amp' pin pin pout pout' gx gy _ _ _ _ (d_p d) (d_theta d) kw inp win u R1 R2 R3 G).
  destruct (calculate_dmd_grating m (d_neg d) amp pin pout gx gy (d_p d) (d_theta d) kw inp win u) as [g|]; cbn [rbind] in D |- *;
  destruct (calculate_dmd_grating m (d_neg d) amp' pin pout' gx gy (d_p d) (d_theta d) kw inp win u) as [g'|]; cbn [rbind] in D |- *.
  - destruct (to_dstate g) as [a|], (to_dstate g') as [b|]; cbn [rbind]; try contradiction.
    + destruct D as [_ D]. destruct (Req_EM_T _ 0); split; try reflexivity; exact D.
    + subst. split; [reflexivity|split; [reflexivity|split; reflexivity]].
  - destruct (to_dstate g) as [a|]; cbn [rbind]; try contradiction. subst. split; [reflexivity|split; [reflexivity|split; reflexivity]].
  - destruct (to_dstate g') as [a|]; cbn [rbind]; try contradiction. subst. split; [reflexivity|split; [reflexivity|split; reflexivity]].
  - subst. split; [reflexivity|split; [reflexivity|split; reflexivity]].
Qed.
