(** The thresholded grating is the mirror pattern nearest to the ideal one (C90). *)
From Coq Require Import Reals Lra Psatz ZArith Arith List Bool Lia.
From Coquelicot Require Import Complex.
From Verif Require Import Cx Sums DFT PyBase ProfileModel SlmModel LibModel DmdModel SimModel SimSpec GridFacts GridFacts2 SimFacts SimFacts2 SimFacts4 SimFacts5 DmdSpec DmdFacts DmdFacts2 AmpFacts AmpFacts3 AmpFacts4 AmpFacts5 PhaseFacts DmdThms HoloSpec HoloFacts IftaFacts IftaSym StabFacts.
Open Scope R_scope.

Lemma rsum_lt n f g : (forall i, (i < n)%nat -> f i <= g i) -> (exists i, (i < n)%nat /\ f i < g i) -> rsum n f < rsum n g.
Proof.
  induction n as [|n IH]; intros H (i & Hi & L); [lia|]. cbn [rsum]. assert (A := rsum_le n f g ltac:(intros; apply H; lia)). assert (B := H n ltac:(lia)).
  destruct (Nat.eq_dec i n) as [->|N]; [lra|]. assert (rsum n f < rsum n g); [|lra]. apply IH; [intros; apply H; lia|]. exists i. split; [lia|exact L].
Qed.
Lemma rsum2_lt ny nx f g : (forall i j, (i < ny)%nat -> (j < nx)%nat -> f i j <= g i j) -> (exists i j, (i < ny)%nat /\ (j < nx)%nat /\ f i j < g i j) -> rsum2 ny nx f < rsum2 ny nx g.
Proof.
  intros H (i & j & Hi & Hj & L). unfold rsum2. apply rsum_lt; [intros a Ha; apply rsum_le; intros; apply H; assumption|]. exists i. split; [exact Hi|]. apply rsum_lt; [intros; apply H; assumption|]. exists j. auto.
Qed.
Definition bit (b : bool) : R := if b then 1 else 0.
Lemma pixel_error (F : C) (b : bool) (r : R) : Cmod (F * RtoC (bit b) - F * RtoC r)%C ^ 2 = Cmod F ^ 2 * (bit b - r) ^ 2.
Proof.
  replace (F * RtoC (bit b) - F * RtoC r)%C with (F * RtoC (bit b - r))%C by (rewrite RtoC_minus; ring). rewrite Cmod_mult, Cmod_R, Rpow_mult_distr, pow2_abs. reflexivity.
Qed.
Lemma nearest_bit (f b : bool) (r : R) : (f = true <-> 1 / 2 < r) -> (bit f - r) ^ 2 <= (bit b - r) ^ 2 /\ (f <> b -> r <> 1 / 2 -> (bit f - r) ^ 2 < (bit b - r) ^ 2).
Proof.
  intros [H1 H2]. assert (K : (f = true /\ 1 / 2 < r) \/ (f = false /\ r <= 1 / 2)).
  { destruct f; [left; auto|right]. split; [reflexivity|]. destruct (Rle_dec r (1 / 2)) as [L|L]; [exact L|]. assert (1 / 2 < r) by lra. specialize (H2 H). discriminate. }
  destruct K as [[-> K]|[-> K]], b; cbn [bit]; split; try (intros E _; contradiction E; reflexivity); intros; nra.
Qed.

Section Best.
Variables (h : heap) (df dg db : dmd) (m : sim) (a : parg) (F : nat -> nat -> C) (f b : nat -> nat -> bool) (g : nat -> nat -> xr) (r : nat -> nat -> R) (nf ng nb : sim) (If Ig Ib : nat -> nat -> C).
Let s := d_slm dg.
Hypothesis sf : d_slm df = s. Hypothesis sb : d_slm db = s.
Hypothesis Ef : d_state df = DBool (s_Ny s) (s_Nx s) f. Hypothesis Eb : d_state db = DBool (s_Ny s) (s_Nx s) b. Hypothesis Eg : d_state dg = DFloat (s_Ny s) (s_Nx s) g.
Hypothesis Vg : forall i j, (i < s_Ny s)%nat -> (j < s_Nx s)%nat -> g i j = Fin (r i j).
Hypothesis Vf : forall i j, (i < s_Ny s)%nat -> (j < s_Nx s)%nat -> F i j <> RtoC 0 -> (f i j = true <-> 1 / 2 < r i j).
Hypothesis HF : full_input h s a F.
Hypothesis Pf : propagate_to_image h (DevDmd df) m a = (nf, Ok tt). Hypothesis Pg : propagate_to_image h (DevDmd dg) m a = (ng, Ok tt). Hypothesis Pb : propagate_to_image h (DevDmd db) m a = (nb, Ok tt).
Hypothesis Jf : field_is (f_image nf) (NY s m) (NX s m) If. Hypothesis Jg : field_is (f_image ng) (NY s m) (NX s m) Ig. Hypothesis Jb : field_is (f_image nb) (NY s m) (NX s m) Ib.
Hypothesis Hx : (0 < s_Nx s)%nat. Hypothesis Hy : (0 < s_Ny s)%nat. Hypothesis Hp : pixel_size s <> 0.
Let area := scaling_factor s ^ 2 / (INR (NX s m) * INR (NY s m) * pixel_size s ^ 2).

Lemma error_of (d : dmd) (c : nat -> nat -> bool) n J : d_slm d = s -> d_state d = DBool (s_Ny s) (s_Nx s) c -> propagate_to_image h (DevDmd d) m a = (n, Ok tt) -> field_is (f_image n) (NY s m) (NX s m) J ->
  power_of area (NY s m) (NX s m) (fun u v => (J u v - Ig u v)%C) = pixel_size s ^ 2 * rsum2 (s_Ny s) (s_Nx s) (fun i j => Cmod (F i j) ^ 2 * (bit (c i j) - r i j) ^ 2).
Proof.
  intros E E' P HJ. assert (HS := state_bool d c ltac:(rewrite E; exact E')). assert (HG := state_float_in dg _ _ g r Eg eq_refl eq_refl Vg).
  assert (K := error_power h h (DevDmd d) (DevDmd dg) m a a F F (fun i j => RtoC (bit (c i j))) (fun i j => RtoC (xr_val (g i j))) n ng J Ig). cbn [dev_slm] in K. rewrite E in K. specialize (K eq_refl HF HF HS HG P Pg HJ Jg Hx Hy Hp).
  unfold area. rewrite K. unfold power_of. f_equal. apply rsum2_ext. intros i j Hi Hj. rewrite Vg by assumption. cbn [xr_val]. apply pixel_error.
Qed.
Lemma best : power_of area (NY s m) (NX s m) (fun u v => (If u v - Ig u v)%C) <= power_of area (NY s m) (NX s m) (fun u v => (Ib u v - Ig u v)%C) /\
  ((exists i j, (i < s_Ny s)%nat /\ (j < s_Nx s)%nat /\ F i j <> RtoC 0 /\ f i j <> b i j /\ r i j <> 1 / 2) ->
   power_of area (NY s m) (NX s m) (fun u v => (If u v - Ig u v)%C) < power_of area (NY s m) (NX s m) (fun u v => (Ib u v - Ig u v)%C)).
Proof.
  rewrite (error_of df f nf If sf Ef Pf Jf), (error_of db b nb Ib sb Eb Pb Jb). assert (P : 0 < pixel_size s ^ 2) by (apply Rsqr_pos_lt in Hp; unfold Rsqr in Hp; nra).
  assert (L : forall i j, (i < s_Ny s)%nat -> (j < s_Nx s)%nat -> Cmod (F i j) ^ 2 * (bit (f i j) - r i j) ^ 2 <= Cmod (F i j) ^ 2 * (bit (b i j) - r i j) ^ 2).
  { intros i j Hi Hj. destruct (Ceq_dec (F i j) (RtoC 0)) as [E|E]; [rewrite E, Cmod_0; nra|]. apply Rmult_le_compat_l; [apply pow2_ge_0|]. apply nearest_bit. apply Vf; assumption. }
  split.
  - apply Rmult_le_compat_l; [lra|]. apply rsum2_le. exact L.
  - intros (i & j & Hi & Hj & HL & Hd & Hr). apply Rmult_lt_compat_l; [exact P|]. apply rsum2_lt; [exact L|]. exists i, j. split; [exact Hi|]. split; [exact Hj|].
    apply Rmult_lt_compat_l; [assert (0 < Cmod (F i j)) by (apply Cmod_gt_0; exact HL); nra|]. apply nearest_bit; [apply Vf; assumption|exact Hd|exact Hr].
Qed.
End Best.

Lemma simple_best h d amp pin pout A Pi Po kw u kw' u' db b m a F nf ng nb If Ig Ib : let s := d_slm d in
  reads h s amp A -> reads h s pin Pi -> reads h s pout Po -> d_p d <> 0 -> full_input h s a F -> d_slm db = s -> d_state db = DBool (s_Ny s) (s_Nx s) b ->
  (0 < s_Nx s)%nat -> (0 < s_Ny s)%nat -> pixel_size s <> 0 ->
  propagate_to_image h (DevDmd (fst (set_dmd_grating_state h d amp pin pout MSimple kw u))) m a = (nf, Ok tt) ->
  propagate_to_image h (DevDmd (fst (set_dmd_grating_state h d amp pin pout MIdeal kw' u'))) m a = (ng, Ok tt) ->
  propagate_to_image h (DevDmd db) m a = (nb, Ok tt) ->
  field_is (f_image nf) (NY s m) (NX s m) If -> field_is (f_image ng) (NY s m) (NX s m) Ig -> field_is (f_image nb) (NY s m) (NX s m) Ib ->
  difference_power s m If Ig <= difference_power s m Ib Ig /\
  ((exists i j f, in_array d i j /\ F i j <> RtoC 0 /\ d_state (fst (set_dmd_grating_state h d amp pin pout MSimple kw u)) = DBool (s_Ny s) (s_Nx s) f /\ f i j <> b i j /\
      A i j * (cos (carrier d i j - signed (d_neg d) (Po i j - Pi i j)) / 2 + 1 / 2) <> 1 / 2) -> difference_power s m If Ig < difference_power s m Ib Ig).
Proof.
  intros s HA HI HO Hp HF sb Eb Hx Hy Hps. destruct (set_ideal h d amp pin pout A Pi Po HA HI HO Hp kw' u') as (d1 & g & E & -> & V). destruct (set_simple h d amp pin pout A Pi Po HA HI HO Hp kw u) as (d2 & f & E' & -> & V').
  rewrite E, E'. cbn [fst]. intros Pf Pg Pb Jf Jg Jb.
  destruct (best h (with_state d (DBool (s_Ny s) (s_Nx s) f)) (with_state d (DFloat (s_Ny s) (s_Nx s) g)) db m a F f b g _ nf ng nb If Ig Ib eq_refl sb eq_refl Eb eq_refl V (fun i j Hi Hj _ => V' i j Hi Hj) HF Pf Pg Pb Jf Jg Jb Hx Hy Hps) as [B1 B2].
  split; [exact B1|]. intros (i & j & f' & [Hi Hj] & HL & Q & N1 & N2). cbn [with_state d_state] in Q. injection Q as <-. apply B2. exists i, j. auto.
Qed.
Lemma hologram_best h d input target w T W kw u kw' u' db b m F nf ng nb If Ig Ib : let s := d_slm d in
  full_input h s input F -> full_target h s target T -> window_reads h s w W -> d_p d <> 0 -> (0 < s_Nx s)%nat -> (0 < s_Ny s)%nat -> pixel_size s <> 0 -> scaling_factor s <> 0 ->
  (forall i j, in_array d i j -> F i j = RtoC 0 -> windowed d T W i j = RtoC 0) -> (exists i j, in_array d i j /\ windowed d T W i j <> RtoC 0) ->
  d_slm db = s -> d_state db = DBool (s_Ny s) (s_Nx s) b ->
  propagate_to_image h (DevDmd (fst (calculate_dmd_state h d input target MSimple w kw u))) m input = (nf, Ok tt) ->
  propagate_to_image h (DevDmd (fst (calculate_dmd_state h d input target MIdeal w kw' u'))) m input = (ng, Ok tt) ->
  propagate_to_image h (DevDmd db) m input = (nb, Ok tt) ->
  field_is (f_image nf) (NY s m) (NX s m) If -> field_is (f_image ng) (NY s m) (NX s m) Ig -> field_is (f_image nb) (NY s m) (NX s m) Ib ->
  difference_power s m If Ig <= difference_power s m Ib Ig.
Proof.
  intros s HF HT HW Hp Hx Hy Hps Hs Hd Hl sb Eb.
  destruct (hologram_spec h d input target w F T W kw u HF HT HW Hp Hy Hx Hs Hd Hl) as (M & HM & P1 & (i1 & j1 & Q1 & R1) & _ & (f & Ef & Vf) & _).
  destruct (hologram_spec h d input target w F T W kw' u' HF HT HW Hp Hy Hx Hs Hd Hl) as (M' & HM' & P1' & (i1' & j1' & Q1' & R1') & (g & Eg & Vg) & _).
  assert (EM := max_unique _ _ M M' HM HM' R1 R1' (proj2 (P1 i1' j1' Q1')) (proj2 (P1' i1 j1 Q1))). subst M'.
  rewrite Ef, Eg. cbn [fst]. intros Pf Pg Pb Jf Jg Jb.
  refine (proj1 (best h (with_state d (DBool (s_Ny s) (s_Nx s) f)) (with_state d (DFloat (s_Ny s) (s_Nx s) g)) db m input F f b g _ nf ng nb If Ig Ib eq_refl sb eq_refl Eb eq_refl (fun i j Hi Hj => Vg i j (conj Hi Hj)) (fun i j Hi Hj _ => Vf i j (conj Hi Hj)) HF Pf Pg Pb Jf Jg Jb Hx Hy Hps)).
Qed.
Lemma ifta_best h d amp pin pout P Pi Po kw u kw' u' db b m a F A c V al nf ng nb If Ig Ib : let s := d_slm d in
  reads h s amp P -> reads h s pin Pi -> reads h s pout Po -> d_p d <> 0 -> full_input h s a F -> (forall i j, in_array d i j -> F i j = (RtoC (A i j) * cis c)%C) ->
  complex_array (k_input kw) (T2 (s_Ny s) (s_Nx s) F) -> complex_array (k_window kw) (T2 (s_Ny s) (s_Nx s) V) -> dflt (k_s kw) 1 = 1 ->
  0 <= al <= 1 -> (forall u v, in_array d u v -> symmetric_part (s_Ny s) (s_Nx s) V u v = RtoC al) ->
  d_slm db = s -> d_state db = DBool (s_Ny s) (s_Nx s) b -> (0 < s_Nx s)%nat -> (0 < s_Ny s)%nat -> pixel_size s <> 0 ->
  propagate_to_image h (DevDmd (fst (set_dmd_grating_state h d amp pin pout MIfta kw u))) m a = (nf, Ok tt) ->
  propagate_to_image h (DevDmd (fst (set_dmd_grating_state h d amp pin pout MIdeal kw' u'))) m a = (ng, Ok tt) ->
  propagate_to_image h (DevDmd db) m a = (nb, Ok tt) ->
  field_is (f_image nf) (NY s m) (NX s m) If -> field_is (f_image ng) (NY s m) (NX s m) Ig -> field_is (f_image nb) (NY s m) (NX s m) Ib ->
  difference_power s m If Ig <= difference_power s m Ib Ig.
Proof.
  intros s HA HI HO Hp HF Hc K1 W1 Hs1 Hal HS sb Eb Hx Hy Hps. destruct (set_ideal h d amp pin pout P Pi Po HA HI HO Hp kw' u') as (d1 & g & E & -> & Vg).
  destruct (ifta_grating h d amp pin pout P Pi Po kw F V u HA HI HO Hp K1 W1) as (f & E1 & R1). rewrite E, E1. cbn [fst]. intros Pf Pg Pb Jf Jg Jb.
  refine (proj1 (best h (with_state d (DBool (s_Ny s) (s_Nx s) f)) (with_state d (DFloat (s_Ny s) (s_Nx s) g)) db m a F f b g _ nf ng nb If Ig Ib eq_refl sb eq_refl Eb eq_refl Vg _ HF Pf Pg Pb Jf Jg Jb Hx Hy Hps)).
  intros i j Hi Hj HL. cbn [with_state d_slm] in Hi, Hj. assert (K := run_const (s_Ny s) (s_Nx s) A c F (fun i j Hi Hj => Hc i j (conj Hi Hj)) V al _ _ f Hal (fun u v Hu Hv => HS u v (conj Hu Hv)) R1 i j Hi Hj HL).
  cbv beta in K. rewrite Hs1, ?Rmult_1_l, ?Rmult_1_r in K. exact K.
Qed.
