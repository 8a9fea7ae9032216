(** LCOS holograms of arrays of any rank: every image for itself, but the targets are moved half a stack. *)
From Coq Require Import Reals Lra ZArith Arith List Bool Lia.
From Coquelicot Require Import Complex.
From Verif Require Import Cx Sums DFT PyBase ProfileModel SlmModel LibModel DmdModel SimModel SimSpec HoloSpec HoloFacts2 RankModel RankSpec RankFacts2 RankLcosModel RankLcosSpec.
Import ListNotations.
Open Scope R_scope.

(** ** Broadcasting to a given shape. *)
Lemma fits_refl s : fits s s. Proof. induction s as [|n s IH]; [exact Logic.I|]. split; [right; reflexivity|exact IH]. Qed.
Lemma fits_left t s : fits t s -> nbshape t s = Some s.
Proof.
  revert s. induction t as [|a t IH]; intros [|n s] H; cbn [fits] in H; try contradiction; try reflexivity. destruct H as [Ha H]. cbn [nbshape]. rewrite (IH s H). unfold bdim.
  destruct (Nat.eqb_spec a n) as [->|Q]; [reflexivity|]. destruct Ha as [->|]; [rewrite Nat.eqb_refl; reflexivity|contradiction].
Qed.
Lemma fits_right t s : fits t s -> nbshape s t = Some s.
Proof.
  revert s. induction t as [|a t IH]; intros [|n s] H; cbn [fits] in H; try contradiction; try reflexivity. destruct H as [Ha H]. cbn [nbshape]. rewrite (IH s H). unfold bdim.
  destruct (Nat.eqb_spec n a) as [->|Q]; [reflexivity|]. destruct Ha as [->|]; [|congruence]. destruct (Nat.eqb_spec n 1) as [->|_]; reflexivity.
Qed.
Lemma bdim_fits a b n d : bdim a b = Some n -> (n = 1 \/ n = d)%nat -> (a = 1 \/ a = d)%nat /\ (b = 1 \/ b = d)%nat.
Proof.
  unfold bdim. destruct (Nat.eqb_spec a b) as [->|_]; [intros H; injection H as <-; auto|].
  destruct (Nat.eqb_spec a 1) as [->|_]; [intros H; injection H as <-; auto|]. destruct (Nat.eqb_spec b 1) as [->|_]; [intros H; injection H as <-; auto|discriminate].
Qed.
Lemma fits_parts a b r d : nbshape a b = Some r -> fits r d -> fits a d /\ fits b d.
Proof.
  revert b r d. induction a as [|x a IH]; intros [|y b] r d H Hf; cbn [nbshape] in H.
  - injection H as <-. split; [exact Logic.I|exact Hf].
  - injection H as <-. split; [exact Logic.I|exact Hf].
  - injection H as <-. split; [exact Hf|exact Logic.I].
  - destruct (bdim x y) as [n|] eqn:E; [|discriminate]. destruct (nbshape a b) as [r'|] eqn:E'; [|discriminate]. injection H as <-.
    destruct d as [|m d]; [destruct Hf|]. destruct Hf as [H1 H2]. destruct (bdim_fits _ _ _ _ E H1) as [P Q]. destruct (IH b r' d E' H2) as [P' Q']. split; split; assumption.
Qed.
Lemma place_clip t s ix : fits t s -> valid s ix -> place t ix = nclip t ix.
Proof.
  revert s ix. induction t as [|a t IH]; intros s ix H V; [reflexivity|]. destruct V as [|k n b s Hk V]; [destruct H|]. destruct H as [_ H]. cbn [place nclip hd tl]. rewrite (IH s b H V).
  destruct a as [|[|a]]; reflexivity.
Qed.
Lemma half_on_shift B b : shift_all ishift_idx B b = half_on B b.
Proof. revert b. induction B as [|n B IH]; intros [|k b]; try reflexivity. cbn [shift_all half_on]. rewrite IH. reflexivity. Qed.
Lemma half_on_valid B b : valid B b -> valid B (half_on B b).
Proof.
  intros H. induction H as [|k n b B Hk _ IH]; [constructor|]. cbn [half_on]. constructor; [apply Nat.mod_upper_bound; lia|exact IH].
Qed.
Lemma half_on_clip t s ix : fits t s -> valid s ix -> half_on t (nclip t ix) = nclip t (half_on s ix).
Proof.
  revert s ix. induction t as [|a t IH]; intros s ix H V; [reflexivity|]. destruct V as [|k n b s Hk V]; [destruct H|]. destruct H as [Ha H]. cbn [nclip half_on hd tl]. rewrite (IH s b H V). f_equal.
  destruct (Nat.eqb_spec a 1) as [->|Q]; [reflexivity|]. destruct Ha as [->| ->]; [destruct Q|]; reflexivity.
Qed.
(** ** Arrays spread over a shape, and arrays of exactly this shape. *)
Section Shape.
Variables (nx ny : nat) (B : list nat).
Let D := nx :: ny :: B.
Definition over {A} (a : nd A) (f : list nat -> A) : Prop := fits (nsh a) D /\ forall ix, valid D ix -> nget a ix = f ix.
Definition whole {A} (a : nd A) (f : list nat -> A) : Prop := nsh a = D /\ forall ix, valid D ix -> nel a ix = f ix.
Lemma whole_over {A} (a : nd A) f : whole a f -> over a f.
Proof. intros [E V]. split; [rewrite E; apply fits_refl|]. intros ix H. unfold nget. rewrite E, nclip_valid by exact H. exact (V ix H). Qed.
Lemma over_left {A A' R} (g : A -> A' -> R) a f b f' : over a f -> whole b f' -> exists r, nmap2 g a b = Ok r /\ whole r (fun ix => g (f ix) (f' ix)).
Proof.
  intros [Ha V] W. unfold nmap2. rewrite (proj1 W), (fits_left _ _ Ha). eexists. split; [reflexivity|]. split; [reflexivity|]. intros ix H. cbn [nel]. rewrite (V ix H), (proj2 (whole_over _ _ W) ix H). reflexivity.
Qed.
Lemma over_right {A A' R} (g : A -> A' -> R) a f b f' : whole a f -> over b f' -> exists r, nmap2 g a b = Ok r /\ whole r (fun ix => g (f ix) (f' ix)).
Proof.
  intros W [Hb V]. unfold nmap2. rewrite (proj1 W), (fits_right _ _ Hb). eexists. split; [reflexivity|]. split; [reflexivity|]. intros ix H. cbn [nel]. rewrite (V ix H), (proj2 (whole_over _ _ W) ix H). reflexivity.
Qed.
Lemma over_shift {A} (a : nd A) f : nsh a <> [] -> over a f -> exists r, nd_ifftshift a = Ok r /\ over r (fun ix => f (half_on D ix)).
Proof.
  intros N [H V]. exists (nifftshift a). split; [unfold nd_ifftshift; destruct (nsh a); [destruct N; reflexivity|reflexivity]|]. split; [exact H|]. intros ix Hx. unfold nget. cbn [nifftshift nsh nel].
  rewrite half_on_shift, (half_on_clip _ D) by assumption. apply V. apply half_on_valid. exact Hx.
Qed.
Lemma cut ix : valid D ix -> exists j i b, ix = j :: i :: b /\ (i < ny)%nat /\ (j < nx)%nat /\ valid B b.
Proof. intros H. inversion H as [|j n ix1 D1 Hj H1]; subst. inversion H1 as [|i m b D2 Hi H2]; subst. exists j, i, b. auto. Qed.
Lemma join3 j i b : (i < ny)%nat -> (j < nx)%nat -> valid B b -> valid D (j :: i :: b).
Proof. intros. constructor; [assumption|]. constructor; assumption. Qed.
Definition cutf {A} (f : list nat -> A) (b : list nat) (i j : nat) : A := f (j :: i :: b).
Definition glue {A} (z : A) (f : list nat -> nat -> nat -> A) (ix : list nat) : A := match ix with j :: i :: b => f b i j | _ => z end.
Lemma whole_fft a f : whole a f -> exists r, nfft2 a = Ok r /\ whole r (glue (RtoC 0) (fun b => fft2 ny nx (cutf f b))).
Proof.
  intros [E V]. unfold nfft2. rewrite E. unfold D at 1. eexists. split; [reflexivity|]. split; [reflexivity|]. intros ix H. destruct (cut ix H) as (j & i & b & -> & Hi & Hj & Hb). cbn [nel glue].
  apply fft2_ext. intros p q Hp Hq. apply V. apply join3; assumption.
Qed.
Lemma whole_ifft a f : whole a f -> exists r, nifft2 a = Ok r /\ whole r (glue (RtoC 0) (fun b => ifft2 ny nx (cutf f b))).
Proof.
  intros [E V]. unfold nifft2. rewrite E. unfold D at 1. eexists. split; [reflexivity|]. split; [reflexivity|]. intros ix H. destruct (cut ix H) as (j & i & b & -> & Hi & Hj & Hb). cbn [nel glue].
  apply ifft2_ext. intros p q Hp Hq. apply V. apply join3; assumption.
Qed.
Lemma whole_map {A A'} (g : A -> A') a f : whole a f -> whole (nmap g a) (fun ix => g (f ix)).
Proof. intros [E V]. split; [exact E|]. intros ix H. cbn [nmap nel]. rewrite (V ix H). reflexivity. Qed.
Lemma whole_ext {A} (a : nd A) f g : whole a f -> (forall b i j, valid B b -> (i < ny)%nat -> (j < nx)%nat -> f (j :: i :: b) = g (j :: i :: b)) -> whole a g.
Proof. intros [E V] H. split; [exact E|]. intros ix Hx. rewrite (V ix Hx). destruct (cut ix Hx) as (j & i & b & -> & Hi & Hj & Hb). apply H; assumption. Qed.
Lemma gs_step_any input F T Tc ph p : whole input F -> over T Tc -> whole ph p ->
  exists r, nd_gs_step input T ph = Ok r /\ whole r (glue 0 (fun b => gs_step ny nx (cutf F b) (cutf Tc b) (cutf p b))).
Proof.
  intros Sf Sc Sp. unfold nd_gs_step.
  destruct (over_left (fun e p => (e * cis p)%C) _ _ _ _ (whole_over _ _ Sf) Sp) as (mo & -> & Sm). cbn [rbind].
  destruct (whole_ifft _ _ Sm) as (im & -> & Si). cbn [rbind].
  destruct (over_left (fun t z => (RtoC t * cis (carg z))%C) _ _ _ _ Sc Si) as (co & -> & Sco). cbn [rbind].
  destruct (whole_fft _ _ Sco) as (ba & -> & Sb). cbn [rbind]. eexists. split; [reflexivity|]. eapply whole_ext; [exact (whole_map carg _ _ Sb)|]. intros b i j _ _ _. reflexivity.
Qed.
Lemma mraf_step_any input F T Tc W Wc m ph p : whole input F -> over T Tc -> over W Wc -> whole ph p ->
  exists r, nd_mraf_step input T W m ph = Ok r /\ whole r (glue 0 (fun b => mraf_step ny nx (cutf F b) (cutf Tc b) (cutf Wc b) m (cutf p b))).
Proof.
  intros Sf Sc Sw Sp. unfold nd_mraf_step.
  destruct (over_left (fun e p => (e * cis p)%C) _ _ _ _ (whole_over _ _ Sf) Sp) as (mo & -> & Sm). cbn [rbind].
  destruct (whole_ifft _ _ Sm) as (im & -> & Si). cbn [rbind].
  destruct (over_left (fun t z => (RtoC m * RtoC t * cis (carg z))%C) _ _ _ _ Sc Si) as (ai & -> & Sa). cbn [rbind].
  destruct (over_right Cmult _ _ _ _ Sa Sw) as (si & -> & Ss). cbn [rbind].
  destruct (over_right (fun z w => (RtoC (1 - m) * z * (RtoC 1 - w))%C) _ _ _ _ Si Sw) as (re & -> & Sr). cbn [rbind].
  destruct (over_right Cplus _ _ _ _ Ss (whole_over _ _ Sr)) as (co & -> & Sco). cbn [rbind].
  destruct (whole_fft _ _ Sco) as (ba & -> & Sb). cbn [rbind]. eexists. split; [reflexivity|]. eapply whole_ext; [exact (whole_map carg _ _ Sb)|]. intros b i j _ _ _. reflexivity.
Qed.
Lemma loop_any N step (s : list nat -> (nat -> nat -> R) -> nat -> nat -> R) a p : whole a p ->
  (forall ph q, whole ph q -> exists r, step ph = Ok r /\ whole r (glue 0 (fun b => s b (cutf q b)))) ->
  exists r, nd_loop N step a = Ok r /\ whole r (glue 0 (fun b => iter (Z.to_nat N) (s b) (cutf p b))).
Proof.
  intros Sa H. unfold nd_loop. destruct (H a p Sa) as (r & -> & Sr). cbn [rbind]. destruct (list_eq_dec Nat.eq_dec (nsh r) (nsh a)) as [_|Q]; [|exfalso; apply Q; rewrite (proj1 Sr), (proj1 Sa); reflexivity].
  clear r Sr. induction (Z.to_nat N) as [|n IH]; [exists a; split; [reflexivity|]; eapply whole_ext; [exact Sa|]; intros; reflexivity|].
  destruct IH as (r' & E & S'). cbn [nloop]. rewrite E. cbn [rbind]. destruct (H r' _ S') as (r2 & E2 & S2). exists r2. split; [exact E2|]. eapply whole_ext; [exact S2|]. intros b i j _ _ _. reflexivity.
Qed.
Lemma gs_any input F target T N u : whole input F -> nsh target <> [] -> over target T ->
  exists t, nd_gs input target N u = Ok t /\ whole t (glue 0 (fun b => gs_array ny nx (cutf F b) (cutf T (half_on B b)) (fun i j => u (j :: i :: b)) N)).
Proof.
  intros Sf Nt St. unfold nd_gs. destruct (over_shift _ _ Nt St) as (Ts & -> & Ss). cbn [rbind].
  assert (S0 : whole (Nd (nsh input) (fun ix => 2 * PI * u ix)) (fun ix => 2 * PI * u ix)) by (split; [exact (proj1 Sf)|intros; reflexivity]).
  destruct (loop_any N (nd_gs_step input Ts) (fun b => gs_step ny nx (cutf F b) (cutf (fun ix => T (half_on D ix)) b)) _ _ S0 (fun ph q Sq => gs_step_any input F Ts _ ph q Sf Ss Sq)) as (t & -> & St'). exists t. split; [reflexivity|]. eapply whole_ext; [exact St'|]. intros b i j _ _ _. reflexivity.
Qed.
Lemma mraf_any input F target T w W m N u : whole input F -> nsh target <> [] -> over target T -> nsh w <> [] -> over w W ->
  exists t, nd_mraf input target w m N u = Ok t /\ whole t (glue 0 (fun b => mraf_array ny nx (cutf F b) (cutf T (half_on B b)) (cutf W (half_on B b)) m (fun i j => u (j :: i :: b)) N)).
Proof.
  intros Sf Nt St Nw Sw. unfold nd_mraf. destruct (over_shift _ _ Nt St) as (Ts & -> & Ss). destruct (over_shift _ _ Nw Sw) as (Ws & -> & Sws). cbn [rbind].
  assert (S0 : whole (Nd (nsh input) (fun ix => 2 * PI * u ix)) (fun ix => 2 * PI * u ix)) by (split; [exact (proj1 Sf)|intros; reflexivity]).
  destruct (loop_any N (nd_mraf_step input Ts Ws m) (fun b => mraf_step ny nx (cutf F b) (cutf (fun ix => T (half_on D ix)) b) (cutf (fun ix => W (half_on D ix)) b) m) _ _ S0 (fun ph q Sq => mraf_step_any input F Ts _ Ws _ m ph q Sf Ss Sws Sq)) as (t & -> & St'). exists t. split; [reflexivity|]. eapply whole_ext; [exact St'|]. intros b i j _ _ _. reflexivity.
Qed.
End Shape.
(** ** Calls that raise. *)
Lemma gs_bad input target N u : ~ ((2 <= length (nsh input))%nat /\ nsh target <> [] /\ fits (nsh target) (nsh input)) -> nd_gs input target N u = Err ETensorFlow.
Proof.
  intros H. unfold nd_gs, nd_ifftshift. destruct (nsh target) as [|t0 tr] eqn:Et; [reflexivity|]. cbn [rbind]. unfold nd_loop, nd_gs_step, nmap2. cbn [nsh]. rewrite nbshape_same. cbn [rbind].
  unfold nifft2. cbn [nsh]. destruct (nsh input) as [|nx [|ny B]] eqn:Ei; try reflexivity. cbn [rbind nifftshift nsh]. rewrite Et. destruct (nbshape (t0 :: tr) (nx :: ny :: B)) as [r|] eqn:E; [|reflexivity]. cbn [rbind].
  unfold nfft2. cbn [nsh]. assert (N' : r <> nx :: ny :: B) by (intros ->; apply H; split; [cbn; lia|split; [discriminate|exact (proj1 (fits_parts _ _ _ _ E (fits_refl _)))]]).
  destruct r as [|a [|b r]]; try reflexivity. cbn [rbind nmap nsh]. destruct (list_eq_dec Nat.eq_dec _ _) as [Q|_]; [destruct (N' Q)|reflexivity].
Qed.
Lemma mraf_bad input target w m N u : ~ ((2 <= length (nsh input))%nat /\ (nsh target <> [] /\ fits (nsh target) (nsh input)) /\ nsh w <> [] /\ fits (nsh w) (nsh input)) ->
  nd_mraf input target w m N u = Err ETensorFlow.
Proof.
  intros H. unfold nd_mraf, nd_ifftshift. destruct (nsh target) as [|t0 tr] eqn:Et; [reflexivity|]. cbn [rbind]. destruct (nsh w) as [|w0 wr] eqn:Ew; [reflexivity|]. cbn [rbind].
  unfold nd_loop, nd_mraf_step, nmap2. cbn [nsh]. rewrite nbshape_same. cbn [rbind].
  unfold nifft2. cbn [nsh]. destruct (nsh input) as [|nx [|ny B]] eqn:Ei; try reflexivity. cbn [rbind nifftshift nsh]. rewrite Et, Ew.
  destruct (nbshape (t0 :: tr) (nx :: ny :: B)) as [r1|] eqn:E1; [|reflexivity]. cbn [rbind nsh].
  destruct (nbshape r1 (w0 :: wr)) as [r2|] eqn:E2; [|reflexivity]. cbn [rbind nsh].
  destruct (nbshape (nx :: ny :: B) (w0 :: wr)) as [r3|] eqn:E3; [|reflexivity]. cbn [rbind nsh].
  destruct (nbshape r2 r3) as [r|] eqn:E; [|reflexivity]. cbn [rbind].
  assert (N' : r <> nx :: ny :: B).
  { intros ->. destruct (fits_parts _ _ _ _ E (fits_refl _)) as [P2 P3]. destruct (fits_parts _ _ _ _ E2 P2) as [P1 Pw]. destruct (fits_parts _ _ _ _ E1 P1) as [Pt _].
    apply H. split; [cbn; lia|]. split; [split; [discriminate|exact Pt]|split; [discriminate|exact Pw]]. }
  unfold nfft2. cbn [nsh]. destruct r as [|a [|b r]]; try reflexivity. cbn [rbind nmap nsh]. destruct (list_eq_dec Nat.eq_dec _ _) as [Q|_]; [destruct (N' Q)|reflexivity].
Qed.
Lemma spread_over {A} s B (a : nd A) f z : spread s B a f -> over (s_Nx s) (s_Ny s) B a (glue z f).
Proof.
  intros [H V]. split; [exact H|]. intros ix Hx. destruct (cut _ _ _ _ Hx) as (j & i & b & -> & Hi & Hj & Hb). unfold nget. rewrite <- (place_clip _ _ _ H Hx). apply V; [exact Hb|split; assumption].
Qed.
Lemma spread_whole {A} s B (a : nd A) f z : nsh a = s_Nx s :: s_Ny s :: B -> spread s B a f -> whole (s_Nx s) (s_Ny s) B a (glue z f).
Proof.
  intros E H. destruct (spread_over _ _ _ _ z H) as [_ V]. split; [exact E|]. intros ix Hx. specialize (V ix Hx). unfold nget in V. rewrite E, nclip_valid in V by exact Hx. exact V.
Qed.
Section Holograms.
Variables (h : heap) (l : lcos) (B : list nat) (input : nd C) (target : nd R) (F : list nat -> nat -> nat -> C) (T : list nat -> nat -> nat -> R) (N : option Z) (u : list nat -> R).
Let s := l_slm l.
Hypotheses (HD : nsh input = s_Nx s :: s_Ny s :: B) (HF : spread s B input F) (NT : nsh target <> []) (HT : spread s B target T).
Lemma gs_stack w mix W : exists t, nd_calculate_hologram input target MGs w N mix u = (Some t, Ok tt) /\ nsh t = s_Nx s :: s_Ny s :: B /\
  forall b, valid B b -> exists phi, stores s (alone_lcos h l F T W b (half_on B b) MGs N mix u) phi /\ forall i j, in_slm s i j -> nel t (j :: i :: b) = phi i j.
Proof.
  destruct (gs_any _ _ _ input _ target _ (dflt N 200%Z) u (spread_whole _ _ _ _ (RtoC 0) HD HF) NT (spread_over _ _ _ _ 0 HT)) as (t & E & Et & V).
  exists t. unfold nd_calculate_hologram. rewrite E. split; [reflexivity|]. split; [exact Et|]. intros b Hb. eexists. split.
  - apply gs_stores; reflexivity.
  - intros i j [Hi Hj]. rewrite (V (j :: i :: b)) by (apply join3; assumption). reflexivity.
Qed.
Lemma mraf_stack w mix W : nsh w <> [] -> spread s B w W -> exists t, nd_calculate_hologram input target MMraf (Some w) N mix u = (Some t, Ok tt) /\ nsh t = s_Nx s :: s_Ny s :: B /\
  forall b, valid B b -> exists phi, stores s (alone_lcos h l F T W b (half_on B b) MMraf N mix u) phi /\ forall i j, in_slm s i j -> nel t (j :: i :: b) = phi i j.
Proof.
  intros NW HW.
  destruct (mraf_any _ _ _ input _ target _ w _ (dflt mix 0.4) (dflt N 200%Z) u (spread_whole _ _ _ _ (RtoC 0) HD HF) NT (spread_over _ _ _ _ 0 HT) NW (spread_over _ _ _ _ (RtoC 0) HW)) as (t & E & Et & V).
  exists t. unfold nd_calculate_hologram. rewrite E. split; [reflexivity|]. split; [exact Et|]. intros b Hb. eexists. split.
  - eapply mraf_stores; reflexivity.
  - intros i j [Hi Hj]. rewrite (V (j :: i :: b)) by (apply join3; assumption). reflexivity.
Qed.
End Holograms.
Lemma raises_any input target m w N mix u :
  (m = MLUnknown -> nd_calculate_hologram input target m w N mix u = (None, Err ValueError)) /\
  (m = MMraf -> w = None -> nd_calculate_hologram input target m w N mix u = (None, Err KeyError)) /\
  (m = MGs \/ (m = MMraf /\ w <> None) ->
   ~ ((2 <= length (nsh input))%nat /\ (nsh target <> [] /\ fits (nsh target) (nsh input)) /\ (m = MMraf -> forall v, w = Some v -> nsh v <> [] /\ fits (nsh v) (nsh input))) ->
   nd_calculate_hologram input target m w N mix u = (None, Err ETensorFlow)).
Proof.
  split; [intros ->; reflexivity|]. split; [intros -> ->; reflexivity|]. intros [->|[-> Hw]] H; unfold nd_calculate_hologram.
  - rewrite gs_bad; [reflexivity|]. intros (H1 & H2 & H3). apply H. split; [exact H1|]. split; [split; assumption|discriminate].
  - destruct w as [w|]; [|destruct Hw; reflexivity]. rewrite mraf_bad; [reflexivity|]. intros (H1 & H2 & H3). apply H. split; [exact H1|]. split; [exact H2|]. intros _ v E. injection E as <-. exact H3.
Qed.
