(** The last IFTA iteration never increases the error inside the signal window (C105, C106). *)
From Coq Require Import Reals Lra Psatz ZArith Arith List Bool Lia.
From Coquelicot Require Import Complex.
From Verif Require Import Cx Sums DFT PyBase ProfileModel SlmModel LibModel DmdModel SimModel SimSpec GridFacts SimFacts SimFacts2 SimFacts4 DmdSpec DmdFacts DmdFacts2 DmdFacts3 AmpFacts AmpFacts3 AmpFacts4 AmpFacts5 HoloSpec HoloFacts IftaFacts IftaSym StabFacts AmpFacts2 BestFacts ScaleFacts WinSpec.
Open Scope R_scope.

Lemma image_norm ny nx E : (0 < ny)%nat -> (0 < nx)%nat ->
  rsum2 ny nx (fun u v => cnorm2 (image_of ny nx E u v)) = / INR (ny * nx) * rsum2 ny nx (fun i j => cnorm2 (E i j)).
Proof.
  intros Hy Hx. rewrite <- (Rmult_1_l (/ _)). replace 1 with (1 ^ 2) by ring. fold (Rdiv (1 ^ 2) (INR (ny * nx))). rewrite <- (image_energy ny nx E 1 Hy Hx).
  apply rsum2_ext. intros u v Hu Hv. rewrite image_of_to_image by assumption. f_equal. ring.
Qed.
Lemma image_minus ny nx E E' u v : (u < ny)%nat -> (v < nx)%nat -> image_of ny nx (fun i j => (E i j - E' i j)%C) u v = (image_of ny nx E u v - image_of ny nx E' u v)%C.
Proof.
  intros Hu Hv. rewrite (image_of_ext ny nx (fun i j => (E i j - E' i j)%C) (fun i j => (E i j + RtoC (Ropp 1) * E' i j)%C)).
  - rewrite image_plus, image_scal by assumption. rewrite RtoC_opp. ring.
  - intros i j _ _. rewrite RtoC_opp. ring.
Qed.
Lemma soft_step (x y : C) (w : R) : 0 <= w <= 1 -> w * cnorm2 x <= cnorm2 (x - RtoC (1 - w) * y)%C + w * (1 - w) * cnorm2 y.
Proof.
  intros Hw. destruct x as [a b], y as [c d]. unfold cnorm2, Cminus, Cplus, Copp, Cmult, RtoC. cbn [fst snd].
  assert (0 <= (1 - w) * ((a - c) ^ 2 + (b - d) ^ 2)) by (apply Rmult_le_pos; [lra|]; apply Rplus_le_le_0_compat; apply pow2_ge_0).
  match goal with |- ?l <= ?r => replace r with (l + (1 - w) * ((a - c) ^ 2 + (b - d) ^ 2)) by ring end. lra.
Qed.
Lemma lit_error (F S : C) (f b : bool) : F <> RtoC 0 -> (f = true <-> 1 / 2 < fst (S / F)%C) ->
  cnorm2 (F * RtoC (bit f) - S)%C <= cnorm2 (F * RtoC (bit b) - S)%C.
Proof.
  intros HF Hf. assert (K : forall c, cnorm2 (F * RtoC (bit c) - S)%C = cnorm2 F * ((bit c - fst (S / F)%C) ^ 2 + snd (S / F)%C ^ 2)).
  { intros c. replace (F * RtoC (bit c) - S)%C with (F * (RtoC (bit c) - S / F))%C by (field; exact HF). rewrite cnorm2_mult. f_equal.
    destruct (S / F)%C as [p q]. unfold cnorm2, Cminus, Cplus, Copp, RtoC. cbn [fst snd]. ring. }
  rewrite !K. apply Rmult_le_compat_l; [apply cnorm2_ge_0|]. assert (N := proj1 (nearest_bit f b _ Hf)). lra.
Qed.
Section Step.
Variables (ny nx : nat) (F V : nat -> nat -> C) (w q B g : nat -> nat -> R) (b f : nat -> nat -> bool).
Hypothesis HV : forall u v, (u < ny)%nat -> (v < nx)%nat -> V u v = RtoC (w u v) /\ 0 <= w u v <= 1.
Hypothesis HB : forall i j, (i < ny)%nat -> (j < nx)%nat -> F i j <> RtoC 0 -> B i j = bit (b i j).
Let fixed := fun u v => (shown_grey ny nx F B u v + V u v * (shown_grey ny nx F q u v - shown_grey ny nx F B u v))%C.
Hypothesis Hg : forall i j, (i < ny)%nat -> (j < nx)%nat -> F i j <> RtoC 0 -> g i j = fst (spectrum_of ny nx fixed i j / F i j)%C.
Hypothesis Hf : forall i j, (i < ny)%nat -> (j < nx)%nat -> F i j <> RtoC 0 -> (f i j = true <-> 1 / 2 < g i j).
Let S := spectrum_of ny nx fixed.
Lemma shown_grey_bits u v : shown_grey ny nx F B u v = shown ny nx F b u v.
Proof.
  unfold shown_grey, shown. apply image_of_ext. intros i j Hi Hj. destruct (Ceq_dec (F i j) (RtoC 0)) as [E|E]; [rewrite E; ring|]. rewrite HB by assumption. reflexivity.
Qed.
Lemma last_step : window_difference ny nx w (shown ny nx F f) (shown_grey ny nx F q) <= window_difference ny nx w (shown ny nx F b) (shown_grey ny nx F q).
Proof.
  destruct (Nat.eq_dec ny 0) as [Zy|Zy]; [unfold window_difference; apply rsum2_le; intros; lia|]. destruct (Nat.eq_dec nx 0) as [Zx|Zx]; [unfold window_difference; apply rsum2_le; intros; lia|].
  set (x := fun u v => (shown ny nx F f u v - shown_grey ny nx F q u v)%C). set (y := fun u v => (shown ny nx F b u v - shown_grey ny nx F q u v)%C).
  assert (HS : forall c u v, (u < ny)%nat -> (v < nx)%nat -> image_of ny nx (fun i j => (F i j * RtoC (bit (c i j)) - S i j)%C) u v = (shown ny nx F c u v - fixed u v)%C).
  { intros c u v Hu Hv. rewrite image_minus by assumption. unfold S. rewrite image_of_spectrum by assumption. reflexivity. }
  assert (P : rsum2 ny nx (fun u v => cnorm2 (shown ny nx F f u v - fixed u v)%C) <= rsum2 ny nx (fun u v => cnorm2 (shown ny nx F b u v - fixed u v)%C)).
  { rewrite <- (rsum2_ext ny nx _ _ (fun u v Hu Hv => f_equal cnorm2 (HS f u v Hu Hv))), <- (rsum2_ext ny nx _ _ (fun u v Hu Hv => f_equal cnorm2 (HS b u v Hu Hv))).
    rewrite !image_norm by lia. apply Rmult_le_compat_l; [left; apply Rinv_0_lt_compat, lt_0_INR; nia|]. apply rsum2_le. intros i j Hi Hj.
    destruct (Ceq_dec (F i j) (RtoC 0)) as [E|E]; [rewrite E, !Cmult_0_l; lra|]. apply lit_error; [exact E|]. unfold S. rewrite <- Hg by assumption. apply Hf; assumption. }
  unfold window_difference. rewrite (rsum2_ext ny nx (fun u v => w u v * Cmod (shown ny nx F f u v - shown_grey ny nx F q u v)%C ^ 2) (fun u v => w u v * cnorm2 (x u v))) by (intros; rewrite cnorm2_Cmod; reflexivity).
  rewrite (rsum2_ext ny nx (fun u v => w u v * Cmod (shown ny nx F b u v - shown_grey ny nx F q u v)%C ^ 2) (fun u v => cnorm2 (shown ny nx F b u v - fixed u v)%C + w u v * (1 - w u v) * cnorm2 (y u v))).
  - eapply Rle_trans; [|rewrite rsum2_plus; apply Rplus_le_compat_r; exact P]. rewrite <- rsum2_plus. apply rsum2_le. intros u v Hu Hv.
    replace (shown ny nx F f u v - fixed u v)%C with (x u v - RtoC (1 - w u v) * y u v)%C; [apply soft_step, HV; assumption|].
    unfold fixed, x, y. rewrite shown_grey_bits, (proj1 (HV u v Hu Hv)), RtoC_minus. ring.
  - intros u v Hu Hv. rewrite <- cnorm2_Cmod. fold (y u v). replace (shown ny nx F b u v - fixed u v)%C with (RtoC (w u v) * y u v)%C.
    + rewrite cnorm2_mult, cnorm2_RtoC. ring.
    + unfold fixed, y. rewrite shown_grey_bits, (proj1 (HV u v Hu Hv)). ring.
Qed.
End Step.
(** The last iteration. *)
Lemma last_iteration ny nx F V w q N G b f : ifta_patterns ny nx F V q N G -> (1 <= N)%Z ->
  (forall u v, (u < ny)%nat -> (v < nx)%nat -> V u v = RtoC (w u v) /\ 0 <= w u v <= 1) ->
  (forall i j, (i < ny)%nat -> (j < nx)%nat -> F i j <> RtoC 0 -> G (Z.to_nat N - 1)%nat i j <> 1 / 2) ->
  rounded ny nx (G (Z.to_nat N - 1)%nat) b -> rounded ny nx (G (Z.to_nat N)) f ->
  window_difference ny nx w (shown ny nx F f) (shown_grey ny nx F q) <= window_difference ny nx w (shown ny nx F b) (shown_grey ny nx F q).
Proof.
  intros (H0 & HS) HN HV HT Hb Hf. destruct (HS (Z.to_nat N - 1)%nat ltac:(lia)) as (B & HB & HG). cbv zeta in HG.
  replace (INR (Z.to_nat N - 1 + 1) / (2 * IZR N)) with (1 / 2) in HB.
  2:{ replace (Z.to_nat N - 1 + 1)%nat with (Z.to_nat N) by lia. rewrite INR_IZR_INZ, Z2Nat.id by lia. field. apply not_0_IZR. lia. }
  replace (S (Z.to_nat N - 1)) with (Z.to_nat N) in HG by lia.
  apply (last_step ny nx F V w q B (G (Z.to_nat N)) b f HV).
  - intros i j Hi Hj HF. destruct (HB i j Hi Hj) as (C1 & C2 & C3). specialize (HT i j Hi Hj HF). specialize (Hb i j Hi Hj).
    destruct (b i j); cbn [bit].
    + assert (1 / 2 < G (Z.to_nat N - 1)%nat i j) by (apply Hb; reflexivity). apply C2; lra.
    + apply C1. destruct (Rlt_dec (G (Z.to_nat N - 1)%nat i j) (1 / 2)) as [L|L]; [exact L|]. assert (false = true) by (apply Hb; lra). discriminate.
  - intros i j Hi Hj HF. apply HG; assumption.
  - intros i j Hi Hj HF. apply Hf; assumption.
Qed.
Lemma run_patterns ny nx F V q N f : ifta_run ny nx F V q N f -> exists G, ifta_patterns ny nx F V q N G /\ rounded ny nx (G (Z.to_nat N)) f.
Proof. intros (G & H0 & HS & Hf). exists G. split; [split; assumption|exact Hf]. Qed.
(** *** Through the simulation (no padding) *)
Lemma simulated h d S m a F n J : let s := d_slm d in full_input h s a F -> full_state (DevDmd d) S -> scaling_factor s <> 0 -> pad_x m = 0%Z -> pad_y m = 0%Z ->
  propagate_to_image h (DevDmd d) m a = (n, Ok tt) -> field_is (f_image n) (NY s m) (NX s m) J ->
  forall u v, (u < s_Ny s)%nat -> (v < s_Nx s)%nat -> J u v = (RtoC (eta_scale s) * image_of (s_Ny s) (s_Nx s) (fun i j => (F i j * S i j)%C) u v)%C.
Proof.
  intros s HF HS Hs Hx Hy P HJ u v Hu Hv. destruct (dev_simulated h (DevDmd d) m a F S HF HS Hs Hx Hy) as (m' & P' & K). rewrite P in P'. injection P' as <-. cbn [dev_slm] in K. fold s in K.
  destruct (field_is_inj _ _ _ _ _ _ _ HJ K) as (EY & EX & H). apply H; lia.
Qed.
Lemma window_scaled ny nx w c I I' K K' : (forall u v, (u < ny)%nat -> (v < nx)%nat -> I u v = (RtoC c * K u v)%C /\ I' u v = (RtoC c * K' u v)%C) ->
  window_difference ny nx w I I' = c ^ 2 * window_difference ny nx w K K'.
Proof.
  intros H. unfold window_difference. rewrite <- rsum2_scal_l. apply rsum2_ext. intros u v Hu Hv. destruct (H u v Hu Hv) as [-> ->].
  replace (RtoC c * K u v - RtoC c * K' u v)%C with (RtoC c * (K u v - K' u v))%C by ring. rewrite Cmod_mult, Cmod_R, Rpow_mult_distr, pow2_abs. ring.
Qed.
Section Sim.
Variables (h : heap) (s : slm) (m : sim) (a : parg) (F : nat -> nat -> C) (w : nat -> nat -> R).
Hypothesis HF : full_input h s a F. Hypothesis Hs : scaling_factor s <> 0. Hypothesis Hx : pad_x m = 0%Z. Hypothesis Hy : pad_y m = 0%Z.
Lemma compared df dg f g q nf ng If Ig : d_slm df = s -> d_slm dg = s -> d_state df = DBool (s_Ny s) (s_Nx s) f -> d_state dg = DFloat (s_Ny s) (s_Nx s) g ->
  (forall i j, (i < s_Ny s)%nat -> (j < s_Nx s)%nat -> g i j = Fin (q i j)) ->
  propagate_to_image h (DevDmd df) m a = (nf, Ok tt) -> propagate_to_image h (DevDmd dg) m a = (ng, Ok tt) ->
  field_is (f_image nf) (NY s m) (NX s m) If -> field_is (f_image ng) (NY s m) (NX s m) Ig ->
  window_difference (s_Ny s) (s_Nx s) w If Ig = eta_scale s ^ 2 * window_difference (s_Ny s) (s_Nx s) w (shown (s_Ny s) (s_Nx s) F f) (shown_grey (s_Ny s) (s_Nx s) F q).
Proof.
  intros Ef Eg Sf Sg Vg Pf Pg Jf Jg. apply window_scaled. intros u v Hu Hv. split.
  - assert (K := simulated h df (fun i j => RtoC (if f i j then 1 else 0)) m a F nf If). cbv zeta in K. rewrite Ef in K. apply (K HF); auto. apply state_bool. rewrite Ef. exact Sf.
  - assert (K := simulated h dg (fun i j => RtoC (xr_val (g i j))) m a F ng Ig). cbv zeta in K. rewrite Eg in K. rewrite (K HF) by (auto; apply (state_float_in dg (s_Ny s) (s_Nx s) g q); rewrite ?Eg; auto).
    f_equal. apply image_of_ext. intros i j Hi Hj. rewrite Vg by assumption. reflexivity.
Qed.
End Sim.
Lemma one_iteration_run ny nx F V w q f b : ifta_run ny nx F V q 1 f -> (forall u v, (u < ny)%nat -> (v < nx)%nat -> V u v = RtoC (w u v) /\ 0 <= w u v <= 1) ->
  (forall i j, (i < ny)%nat -> (j < nx)%nat -> F i j <> RtoC 0 -> q i j <> 1 / 2) -> rounded ny nx q b ->
  window_difference ny nx w (shown ny nx F f) (shown_grey ny nx F q) <= window_difference ny nx w (shown ny nx F b) (shown_grey ny nx F q).
Proof.
  intros R HV HT Hb. destruct (run_patterns _ _ _ _ _ _ _ R) as (G & HG & Hf). assert (H0 := proj1 HG). apply (last_iteration ny nx F V w q 1 G b f HG ltac:(lia) HV); [| |exact Hf].
  - intros i j Hi Hj HF. change (Z.to_nat 1 - 1)%nat with O. rewrite H0 by assumption. apply HT; assumption.
  - intros i j Hi Hj. change (Z.to_nat 1 - 1)%nat with O. rewrite H0 by assumption. apply Hb; assumption.
Qed.
Lemma one_iteration_grating h d amp pin pout A Pi Po kw u kw1 u1 kw2 u2 m a F V w nf ns ng If Is Ig : let s := d_slm d in
  reads h s amp A -> reads h s pin Pi -> reads h s pout Po -> d_p d <> 0 -> full_input h s a F -> scaling_factor s <> 0 -> pad_x m = 0%Z -> pad_y m = 0%Z ->
  complex_array (k_input kw) (T2 (s_Ny s) (s_Nx s) F) -> complex_array (k_window kw) (T2 (s_Ny s) (s_Nx s) V) -> k_N kw = Some 1%Z -> dflt (k_s kw) 1 = 1 ->
  (forall i j, in_array d i j -> V i j = RtoC (w i j) /\ 0 <= w i j <= 1) ->
  (forall i j, in_array d i j -> F i j <> RtoC 0 -> A i j * (cos (carrier d i j - signed (d_neg d) (Po i j - Pi i j)) / 2 + 1 / 2) <> 1 / 2) ->
  propagate_to_image h (DevDmd (fst (set_dmd_grating_state h d amp pin pout MIfta kw u))) m a = (nf, Ok tt) ->
  propagate_to_image h (DevDmd (fst (set_dmd_grating_state h d amp pin pout MSimple kw1 u1))) m a = (ns, Ok tt) ->
  propagate_to_image h (DevDmd (fst (set_dmd_grating_state h d amp pin pout MIdeal kw2 u2))) m a = (ng, Ok tt) ->
  field_is (f_image nf) (NY s m) (NX s m) If -> field_is (f_image ns) (NY s m) (NX s m) Is -> field_is (f_image ng) (NY s m) (NX s m) Ig ->
  window_difference (s_Ny s) (s_Nx s) w If Ig <= window_difference (s_Ny s) (s_Nx s) w Is Ig.
Proof.
  intros s HA HI HO Hp HF Hs Hx Hy K1 K2 EN Es HV HT.
  destruct (set_ideal h d amp pin pout A Pi Po HA HI HO Hp kw2 u2) as (d1 & g & E1 & -> & Vg). destruct (set_simple h d amp pin pout A Pi Po HA HI HO Hp kw1 u1) as (d2 & b & E2 & -> & Vb).
  destruct (ifta_grating h d amp pin pout A Pi Po kw F V u HA HI HO Hp K1 K2) as (f & E3 & R). rewrite E1, E2, E3. cbn [fst]. intros Pf Ps Pg Jf Js Jg.
  rewrite (compared h s m a F w HF Hs Hx Hy (with_state d (DBool (s_Ny s) (s_Nx s) f)) (with_state d (DFloat (s_Ny s) (s_Nx s) g)) f g _ nf ng If Ig eq_refl eq_refl eq_refl eq_refl Vg Pf Pg Jf Jg).
  rewrite (compared h s m a F w HF Hs Hx Hy (with_state d (DBool (s_Ny s) (s_Nx s) b)) (with_state d (DFloat (s_Ny s) (s_Nx s) g)) b g _ ns ng Is Ig eq_refl eq_refl eq_refl eq_refl Vg Ps Pg Js Jg).
  apply Rmult_le_compat_l; [apply pow2_ge_0|]. rewrite EN, Es in R. cbn [dflt] in R.
  assert (Q : (fun i j => A i j * (cos (carrier d i j - signed (d_neg d) (Po i j - Pi i j)) / 2 + 1 / 2) * 1) = (fun i j => A i j * (cos (carrier d i j - signed (d_neg d) (Po i j - Pi i j)) / 2 + 1 / 2))).
  { apply fun2_ext. intros. ring. }
  rewrite Q in R. apply (one_iteration_run _ _ F V w _ f b R).
  - intros i j Hi Hj. apply HV. split; assumption.
  - intros i j Hi Hj HL. apply HT; [split; assumption|exact HL].
  - exact Vb.
Qed.
Lemma one_iteration_hologram h d input target win kw wi u kw1 u1 kw2 u2 m F T W V w g nf ns ng If Is Ig : let s := d_slm d in
  full_input h s input F -> full_target h s target T -> window_reads h s win W -> d_p d <> 0 -> scaling_factor s <> 0 -> pad_x m = 0%Z -> pad_y m = 0%Z ->
  k_window kw = Some wi -> full_target h s wi V -> k_N kw = Some 1%Z -> dflt (k_s kw) 1 = 1 -> (forall i j, in_array d i j -> V i j = RtoC (w i j) /\ 0 <= w i j <= 1) ->
  d_state (fst (calculate_dmd_state h d input target MIdeal win kw2 u2)) = DFloat (s_Ny s) (s_Nx s) g ->
  (forall i j, in_array d i j -> exists q, g i j = Fin q /\ (F i j <> RtoC 0 -> q <> 1 / 2)) ->
  propagate_to_image h (DevDmd (fst (calculate_dmd_state h d input target MIfta win kw u))) m input = (nf, Ok tt) ->
  propagate_to_image h (DevDmd (fst (calculate_dmd_state h d input target MSimple win kw1 u1))) m input = (ns, Ok tt) ->
  propagate_to_image h (DevDmd (fst (calculate_dmd_state h d input target MIdeal win kw2 u2))) m input = (ng, Ok tt) ->
  field_is (f_image nf) (NY s m) (NX s m) If -> field_is (f_image ns) (NY s m) (NX s m) Is -> field_is (f_image ng) (NY s m) (NX s m) Ig ->
  window_difference (s_Ny s) (s_Nx s) w If Ig <= window_difference (s_Ny s) (s_Nx s) w Is Ig.
Proof.
  intros s HF HT HW Hp Hs Hx Hy Hk HV EN Es Hw.
  destruct (ifta_program h d input target win F T W V kw wi u HF HT HW Hp Hk HV) as (g0 & r0 & f & E0 & E3 & R & _).
  destruct (calc_ideal h d input target win F T W kw2 u2 HF HT HW Hp) as (g' & E1 & G). destruct (calc_ideal h d input target win F T W kw u HF HT HW Hp) as (g'' & E1' & G'').
  destruct (calc_simple h d input target win F T W kw1 u1 HF HT HW Hp) as (b & E2 & Gb).
  rewrite E1, E2, E3. cbn [fst with_state d_state]. intros Eg HT'. injection Eg as <-. intros Pf Ps Pg Jf Js Jg.
  assert (Hv : forall i j, (i < s_Ny s)%nat -> (j < s_Nx s)%nat -> g' i j = Fin (xr_val (g' i j))) by (intros i j Hi Hj; destruct (HT' i j (conj Hi Hj)) as (q & -> & _); reflexivity).
  rewrite (compared h s m input F w HF Hs Hx Hy (with_state d (DBool (s_Ny s) (s_Nx s) f)) (with_state d (DFloat (s_Ny s) (s_Nx s) g')) f g' _ nf ng If Ig eq_refl eq_refl eq_refl eq_refl Hv Pf Pg Jf Jg).
  rewrite (compared h s m input F w HF Hs Hx Hy (with_state d (DBool (s_Ny s) (s_Nx s) b)) (with_state d (DFloat (s_Ny s) (s_Nx s) g')) b g' _ ns ng Is Ig eq_refl eq_refl eq_refl eq_refl Hv Ps Pg Js Jg).
  apply Rmult_le_compat_l; [apply pow2_ge_0|].
  assert (EG : forall i j, (i < s_Ny s)%nat -> (j < s_Nx s)%nat -> g0 i j = g' i j).
  { intros i j Hi Hj. rewrite E0 in E1'. injection E1' as E5 E6. subst g0. rewrite (G'' i j Hi Hj). symmetry. apply G; assumption. }
  specialize (R (fun i j => xr_val (g' i j))). rewrite EN, Es in R. cbn [dflt] in R.
  assert (Q : (fun i j => xr_val (g' i j) * 1) = (fun i j => xr_val (g' i j))) by (apply fun2_ext; intros; ring). rewrite Q in R.
  apply (one_iteration_run _ _ F V w _ f b).
  - apply R. intros i j [Hi Hj]. rewrite EG by assumption. apply Hv; assumption.
  - intros i j Hi Hj. apply Hw. split; assumption.
  - intros i j Hi Hj HL. destruct (HT' i j (conj Hi Hj)) as (q & -> & K). cbn [xr_val]. apply K. exact HL.
  - intros i j Hi Hj. rewrite (Gb i j Hi Hj), <- (G i j Hi Hj), (Hv i j Hi Hj). unfold xgtb. cbn [xr_val]. destruct (Rlt_dec _ _); split; intros; try assumption; try reflexivity; try discriminate; contradiction.
Qed.
