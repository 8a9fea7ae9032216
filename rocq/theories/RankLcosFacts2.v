(** Agreement with the two-axis model, and stacks that come out of order. *)
From Coq Require Import Reals Lra ZArith Arith List Bool Lia.
From Coquelicot Require Import Complex.
From Verif Require Import Cx Sums DFT PyBase ProfileModel SlmModel LibModel DmdModel SimModel SimSpec HoloSpec HoloFacts2 RankModel RankSpec RankFacts2 RankLcosModel RankLcosSpec RankLcosFacts SimExamples.
Import ListNotations.
Open Scope R_scope.

Lemma stretch_over {A} (z : A) ny nx a b f g : stretch ny nx (T2 a b f) = Some g -> fits [b; a] [nx; ny] /\ over nx ny [] (nd_of (T2 a b f)) (glue z (fun _ => g)).
Proof.
  cbn [stretch]. destruct ((_ && _)%bool) eqn:E; [|discriminate]. intros H. injection H as <-. apply andb_true_iff in E as [Ea Eb]. rewrite !orb_true_iff, !Nat.eqb_eq in Ea, Eb.
  assert (Fi : fits [b; a] [nx; ny]) by (cbn [fits]; tauto). split; [exact Fi|]. split; [exact Fi|]. intros ix Hx. destruct (cut _ _ _ _ Hx) as (j & i & r & -> & Hi & Hj & Hr).
  clear Hr Hx. unfold nget. cbn [nd_of nsh nel nclip hd tl glue]. f_equal.
  - destruct (Nat.eqb_spec a 1) as [->|Q]; [destruct (Nat.eqb_spec 1 ny); [lia|reflexivity]|]. destruct (Nat.eqb_spec a ny); [reflexivity|lia].
  - destruct (Nat.eqb_spec b 1) as [->|Q]; [destruct (Nat.eqb_spec 1 nx); [lia|reflexivity]|]. destruct (Nat.eqb_spec b nx); [reflexivity|lia].
Qed.
Lemma stretch_none {A} ny nx a b (f : nat -> nat -> A) : stretch ny nx (T2 a b f) = None -> ~ fits [b; a] [nx; ny].
Proof.
  cbn [stretch fits]. destruct ((_ && _)%bool) eqn:E; [discriminate|]. intros _ (Hb & Ha & _). apply andb_false_iff in E. rewrite !orb_false_iff, !Nat.eqb_neq in E. lia.
Qed.
Lemma whole_of {A} (z : A) ny nx f : whole nx ny [] (nd_of (T2 ny nx f)) (glue z (fun _ => f)).
Proof. split; [reflexivity|]. intros ix H. destruct (cut _ _ _ _ H) as (j & i & r & -> & _). reflexivity. Qed.
Lemma two_axes {A} a b (f : nat -> nat -> A) : nsh (nd_of (T2 a b f)) <> []. Proof. discriminate. Qed.
Lemma lcos_two_axes h l input target m window N mix u v : (forall i j, v [j; i] = u i j) ->
  agrees_lcos l (nd_calculate_hologram (nd_of input) (nd_of target) m (option_map nd_of window) N mix v)
    (calculate_hologram h l (ATensorC input) (ATensorR target) m {| lk_N := N; lk_window := option_map ATensorC window; lk_mix := mix |} u).
Proof.
  intros Hv. assert (Eu : (fun i j => v (j :: i :: [])) = u) by (do 2 (apply FunctionalExtensionality.functional_extensionality; intros); apply Hv).
  destruct m; unfold calculate_hologram; cbn [profile_to_tensor_c profile_to_tensor_r rbind lk_window lk_N lk_mix].
  - unfold nd_calculate_hologram, calculate_lcos_hologram. cbn [lk_N].
    destruct input as [c|ny nx F]; [rewrite gs_bad by (cbn; intros [H _]; lia); split; reflexivity|].
    destruct target as [c|a b T]; [rewrite gs_bad by (cbn; intros (_ & H & _); apply H; reflexivity); split; reflexivity|].
    destruct (stretch ny nx (T2 a b T)) as [g|] eqn:E.
    + destruct (stretch_over 0 _ _ _ _ _ _ E) as [_ O]. destruct (gs_any nx ny [] _ _ _ _ (dflt N 200%Z) v (whole_of (RtoC 0) ny nx F) (two_axes _ _ _) O) as (t & -> & Et & V). split; [reflexivity|].
      exists ny, nx, (gs_array ny nx F g u (dflt N 200%Z)). split; [reflexivity|]. split; [exact Et|]. intros i j Hi Hj. rewrite (V [j; i]) by (apply join3; [assumption|assumption|constructor]). cbn [glue]. rewrite Eu. reflexivity.
    + rewrite gs_bad; [split; reflexivity|]. intros (_ & _ & H). exact (stretch_none _ _ _ _ _ E H).
  - destruct window as [w|]; [|split; reflexivity]. cbn [option_map profile_to_tensor_c rbind]. unfold nd_calculate_hologram, calculate_lcos_hologram. cbn [lk_N lk_mix].
    destruct input as [c|ny nx F]; [rewrite mraf_bad by (cbn; intros [H _]; lia); split; reflexivity|].
    destruct target as [c|a b T]; [rewrite mraf_bad by (cbn; intros (_ & (H & _) & _); apply H; reflexivity); split; reflexivity|].
    destruct w as [c|a' b' W]; [rewrite mraf_bad by (cbn; intros (_ & _ & H & _); apply H; reflexivity); split; reflexivity|].
    destruct (stretch ny nx (T2 a b T)) as [g|] eqn:E; [destruct (stretch ny nx (T2 a' b' W)) as [g'|] eqn:E'|].
    + destruct (stretch_over 0 _ _ _ _ _ _ E) as [_ O]. destruct (stretch_over (RtoC 0) _ _ _ _ _ _ E') as [_ O'].
      destruct (mraf_any nx ny [] _ _ _ _ _ _ (dflt mix 0.4) (dflt N 200%Z) v (whole_of (RtoC 0) ny nx F) (two_axes _ _ _) O (two_axes _ _ _) O') as (t & -> & Et & V). split; [reflexivity|].
      exists ny, nx, (mraf_array ny nx F g g' (dflt mix 0.4) u (dflt N 200%Z)). split; [reflexivity|]. split; [exact Et|]. intros i j Hi Hj. rewrite (V [j; i]) by (apply join3; [assumption|assumption|constructor]). cbn [glue]. rewrite Eu. reflexivity.
    + rewrite mraf_bad; [split; reflexivity|]. intros (_ & _ & _ & H). exact (stretch_none _ _ _ _ _ E' H).
    + rewrite mraf_bad; [split; reflexivity|]. intros (_ & (_ & H) & _). exact (stretch_none _ _ _ _ _ E H).
  - split; reflexivity.
Qed.
(** ** Two targets, exchanged. *)
Definition row2 : slm := {| wavelength := 1; focal_length := 1; s_Nx := 2; s_Ny := 1; pixel_size := 1 |}.
Definition flat_stack : nd C := Nd [2; 1; 2]%nat (fun _ => RtoC 1).
(** Image k of the stack is bright at column k. *)
Definition spot_stack : nd R := Nd [2; 1; 2]%nat (fun ix => match ix with [j; i; k] => if Nat.eqb j k then 1 else 0 | _ => 0 end).
Definition spot_of (b : list nat) (i j : nat) : R := match b with [k] => if Nat.eqb j k then 1 else 0 | _ => 0 end.
Lemma flat_spread : spread row2 [2%nat] flat_stack (fun _ _ _ => RtoC 1).
Proof. split; [repeat split; auto|]. intros; reflexivity. Qed.
Lemma spot_spread : spread row2 [2%nat] spot_stack spot_of.
Proof.
  split; [repeat split; auto|]. intros b i j Hb [Hi Hj]. inversion Hb as [|k n b' B Hk Hb']; subst. inversion Hb'; subst. cbn [s_Ny s_Nx row2] in Hi, Hj. assert (i = 0)%nat by lia. subst. reflexivity.
Qed.
Lemma carg_neg1 : carg (RtoC (-1)) = PI.
Proof. unfold carg, atan2. cbn [RtoC fst snd]. destruct (Rlt_dec 0 (-1)); [lra|]. destruct (Rlt_dec (-1) 0); [|lra]. destruct (Rle_dec 0 0); [|lra]. replace (0 / -1) with 0 by field. rewrite atan_0. ring. Qed.
Lemma spot_phase k : (k < 2)%nat -> gs_array 1 2 (fun _ _ => RtoC 1) (spot_of [k]) (fun _ _ => 0) 1 0 1 = (if Nat.eqb k 0 then PI else 0).
Proof.
  intros Hk. assert (U : forall j, (j < 2)%nat -> carg (ifft2 1 2 (fun i j => (RtoC 1 * cis (2 * PI * 0))%C) 0 j) = 0).
  { intros j Hj. assert (E : ifft2 1 2 (fun i j => (RtoC 1 * cis (2 * PI * 0))%C) 0 j = RtoC (if Nat.eqb j 0 then 1 else 0)).
    { unfold ifft2, csum2. cbn [csum]. rewrite Rmult_0_r, cis_0. destruct j as [|[|j]]; [| |lia]; cbn [Nat.mul Nat.eqb INR].
      - apply C_eq; cbn; replace (2 * PI * (0 / 1 + 0 / (1 + 1))) with 0 by field; rewrite cos_0, sin_0; field.
      - apply C_eq; cbn; replace (2 * PI * (0 / 1 + 0 / (1 + 1))) with 0 by field; replace (2 * PI * (0 / 1 + 1 / (1 + 1))) with PI by field; rewrite cos_0, sin_0, cos_PI, sin_PI; field. }
    rewrite E. apply carg_pos_real. destruct (Nat.eqb j 0); lra. }
  change (gs_array 1 2 (fun _ _ => RtoC 1) (spot_of [k]) (fun _ _ => 0) 1 0 1) with
    (carg (fft2 1 2 (fun i j => (RtoC (ifftshift2 1 2 (spot_of [k]) i j) * cis (carg (ifft2 1 2 (fun i j => (RtoC 1 * cis (2 * PI * 0))%C) i j)))%C) 0 1)).
  assert (E : fft2 1 2 (fun i j => (RtoC (ifftshift2 1 2 (spot_of [k]) i j) * cis (carg (ifft2 1 2 (fun i j => (RtoC 1 * cis (2 * PI * 0))%C) i j)))%C) 0 1 = RtoC (if Nat.eqb k 0 then -1 else 1)).
  { unfold fft2, csum2. cbn [csum]. rewrite !U by lia. rewrite cis_0. unfold ifftshift2. change (ishift_idx 2 0) with 1%nat. change (ishift_idx 2 1) with 0%nat. change (ishift_idx 1 0) with 0%nat. cbn [spot_of Nat.mul INR].
    destruct k as [|[|k]]; [| |lia]; cbn [Nat.eqb]; apply C_eq; cbn; replace (- (2 * PI * (0 / 1 + 0 / (1 + 1)))) with 0 by field; replace (- (2 * PI * (0 / 1 + 1 / (1 + 1)))) with (- PI) by field;
      rewrite cos_0, sin_0, cos_neg, sin_neg, cos_PI, sin_PI; ring. }
  rewrite E. destruct (Nat.eqb k 0); [apply carg_neg1|apply carg_pos_real; lra].
Qed.
Lemma in_order_refuted : ~ (forall h l B input target F T W N u, let s := l_slm l in
  nsh input = s_Nx s :: s_Ny s :: B -> nsh target = nsh input -> spread s B input F -> spread s B target T ->
  forall t, nd_calculate_hologram input target MGs None N None u = (Some t, Ok tt) ->
  forall b, valid B b -> exists phi, stores s (alone_lcos h l F T W b b MGs N None u) phi /\ forall i j, in_slm s i j -> nel t (j :: i :: b) = phi i j).
Proof.
  intros H. set (l := lcos_new row2).
  destruct (gs_stack ex_heap l [2%nat] flat_stack spot_stack (fun _ _ _ => RtoC 1) spot_of (Some 1%Z) (fun _ => 0) eq_refl flat_spread ltac:(discriminate) spot_spread None None (fun _ _ _ => RtoC 0)) as (t & Et & _ & V).
  assert (V0 : valid [2%nat] [0%nat]) by (constructor; [lia|constructor]).
  destruct (H ex_heap l [2%nat] flat_stack spot_stack (fun _ _ _ => RtoC 1) spot_of (fun _ _ _ => RtoC 0) (Some 1%Z) (fun _ => 0) eq_refl eq_refl flat_spread spot_spread t Et [0%nat] V0) as (phi & [_ P1] & P2).
  destruct (V [0%nat] V0) as (psi & [_ Q1] & Q2).
  assert (Ep : phi = gs_array 1 2 (fun _ _ => RtoC 1) (spot_of [0%nat]) (fun _ _ => 0) 1) by (symmetry; exact (f_equal (fun r => match l_state r with LReal _ _ f => f | _ => phi end) P1)).
  assert (Eq : psi = gs_array 1 2 (fun _ _ => RtoC 1) (spot_of [1%nat]) (fun _ _ => 0) 1) by (symmetry; exact (f_equal (fun r => match l_state r with LReal _ _ f => f | _ => psi end) Q1)).
  assert (I01 : in_slm (l_slm l) 0 1) by (split; cbn; lia). specialize (P2 _ _ I01). specialize (Q2 _ _ I01). rewrite Q2, Ep, Eq, !spot_phase in P2 by lia. cbn [Nat.eqb] in P2. generalize PI_RGT_0. lra.
Qed.
