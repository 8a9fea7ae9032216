(** Gratings after rounding, on a whole device (C123). *)
From Coq Require Import Reals Lra Psatz ZArith Arith List Bool Lia.
From Flocq Require Import Core.
From Coquelicot Require Import Complex.
From Verif Require Import Cx PyBase ProfileModel SlmModel LibModel DmdModel SimModel SimSpec DmdSpec DmdFacts2 FloatModel FloatSpec FloatFacts FloatFacts2 FloatFacts4 FringeSpec FringeErr.
Open Scope R_scope.

Lemma carrier_wave d i j : carrier d i j = wave_number (d_p d) * (cos (d_theta d) * mirror_x (d_slm d) j + sin (d_theta d) * mirror_y (d_slm d) i).
Proof. unfold carrier, wave_number, Rdiv. ring. Qed.
Lemma grating_rounded a u eta u' eta' v B B' h d amp pin pout A Pi Po kw ru :
  arithmetic u eta B (rnd a) -> arithmetic u' eta' B' (dbl a) -> (2 ^ 22 <= B)%Z -> (2 ^ 22 <= B')%Z -> library a -> accurate a v ->
  0 <= u <= / 2 ^ 24 -> u <= v -> 0 <= u' <= v -> v <= / 2 ^ 16 -> 0 <= eta <= v -> eta' <= v ->
  let s := d_slm d in reads h s amp A -> reads h s pin Pi -> reads h s pout Po ->
  (Z.of_nat (s_Ny s) <= 2 ^ 20)%Z -> (Z.of_nat (s_Nx s) <= 2 ^ 20)%Z -> 0 < pixel_size s -> 0 < d_p d -> Rabs (d_theta d) <= 4 -> no_underflow eta v (pixel_size s) (d_p d) ->
  (forall i j, in_array d i j -> Rabs (A i j) <= 1 /\ Rabs (Pi i j) <= 4 /\ Rabs (Po i j) <= 4) ->
  let x := fun i j => fst (fl_grid a (s_Ny s) (s_Nx s) (pixel_size s) i j) in let y := fun i j => snd (fl_grid a (s_Ny s) (s_Nx s) (pixel_size s) i j) in
  let bound := fun i j => 16 * v * (phase_size (d_p d) (pixel_size s) (mirror_x s j) (mirror_y s i) + 8) in
  exists g f, set_dmd_grating_state h d amp pin pout MIdeal kw ru = (with_state d (DFloat (s_Ny s) (s_Nx s) g), Ok tt) /\
    set_dmd_grating_state h d amp pin pout MSimple kw ru = (with_state d (DBool (s_Ny s) (s_Nx s) f), Ok tt) /\
    forall i j, in_array d i j -> exists r, g i j = Fin r /\
      Rabs (fl_ideal a (d_neg d) (A i j) (Pi i j) (Po i j) (x i j) (y i j) (rnd a (d_p d)) (rnd a (d_theta d)) - r) <= bound i j /\
      (fl_simple a (d_neg d) (A i j) (Pi i j) (Po i j) (x i j) (y i j) (rnd a (d_p d)) (rnd a (d_theta d)) <> f i j -> Rabs (r - 1 / 2) <= bound i j).
Proof.
  intros Har Har' HB HB' HL HA Hu Huv Hu' Hv He He' s R1 R2 R3 Hy Hx Hps Hp Ht (U1 & U2 & U3 & U4) HV x y bound.
  assert (Hp0 : d_p d <> 0) by lra.
  destruct (set_ideal h d amp pin pout A Pi Po R1 R2 R3 Hp0 kw ru) as (d1 & g & E1 & -> & V1).
  destruct (set_simple h d amp pin pout A Pi Po R1 R2 R3 Hp0 kw ru) as (d2 & f & E2 & -> & V2).
  exists g, f. split; [exact E1|]. split; [exact E2|]. intros i j [Hi Hj]. destruct (HV i j (conj Hi Hj)) as (A1 & A2 & A3).
  eexists. split; [apply V1; assumption|].
  assert (N := ideal_near a u eta u' eta' v B B' Har Har' HB Hu Huv Hu' Hv He He' HL HA (d_neg d) (A i j) (Pi i j) (Po i j)
    (INR j - INR (s_Nx s) / 2) (INR (s_Ny s) / 2 - INR i) (pixel_size s) (d_p d) (d_theta d) Hps Hp Ht U1 U2 U3 U4 A2 A3 A1).
  unfold x, y, bound. rewrite (grid_value a u eta u' eta' B B' Har Har' HB HB') by (try assumption; fold s in Hi, Hj; lia). cbn [fst snd].
  specialize (V2 i j Hi Hj). rewrite carrier_wave in V2 |- *. fold s in V2 |- *.
  fold (mirror_x s j) in N. fold (mirror_y s i) in N.
  split; [exact N|]. intros D. unfold fl_simple in D. rewrite (z12 a u eta B Har HB) in D.
  apply Rabs_le_inv in N. apply Rabs_le. destruct (Rlt_dec _ _) as [L|L] in D.
  - assert (f i j = false) by (destruct (f i j); [contradiction D; reflexivity|reflexivity]). 
    assert (~ 1 / 2 < A i j * (cos (wave_number (d_p d) * (cos (d_theta d) * mirror_x s j + sin (d_theta d) * mirror_y s i) - signed (d_neg d) (Po i j - Pi i j)) / 2 + 1 / 2)) by (intros Q; apply V2 in Q; congruence). lra.
  - assert (Q : f i j = true) by (destruct (f i j); [reflexivity|contradiction D; reflexivity]). apply V2 in Q. lra.
Qed.
(** ** Machines and panels *)
Lemma machine_accurate f u eta B : arithmetic u eta B f -> 0 <= u -> accurate (machine f) (u + eta).
Proof.
  intros H Hu. split; intros x; cbn [machine f_cos f_sin].
  - eapply Rle_trans; [apply (ar_error _ _ _ _ H)|]. assert (Rabs (cos x) <= 1) by (assert (B0 := COS_bound x); apply Rabs_le; lra). nra.
  - eapply Rle_trans; [apply (ar_error _ _ _ _ H)|]. assert (Rabs (sin x) <= 1) by (assert (B0 := SIN_bound x); apply Rabs_le; lra). nra.
Qed.
Lemma accurate_more a v w : accurate a v -> v <= w -> accurate a w.
Proof. intros [C S] Hw. split; intros x; [eapply Rle_trans; [apply C|exact Hw]|eapply Rle_trans; [apply S|exact Hw]]. Qed.
Lemma tiny150 : / 2 ^ 150 <= / 2 ^ 100.
Proof. apply Rinv_le_contravar; [apply pow_lt; lra|apply Rle_pow; [lra|lia]]. Qed.
Lemma tiny1075 : / 2 ^ 1075 <= / 2 ^ 100.
Proof. apply Rinv_le_contravar; [apply pow_lt; lra|apply Rle_pow; [lra|lia]]. Qed.
Lemma single_accurate : accurate single (/ 2 ^ 23).
Proof. apply (accurate_more single (/ 2 ^ 24 + / 2 ^ 150)); [apply (machine_accurate _ _ _ _ binary32_arithmetic); lra|]. assert (T := tiny150). lra. Qed.
Lemma double_accurate : accurate double (/ 2 ^ 52).
Proof. apply (accurate_more double (/ 2 ^ 53 + / 2 ^ 1075)); [apply (machine_accurate _ _ _ _ binary64_arithmetic); lra|]. assert (T := tiny1075). lra. Qed.
(** A DLP9500 and a period of 4 to 2^20 pixels. *)
Lemma size_9500 wl fl per th neg i j : 4 <= per -> let d := DLP9500 wl fl per th neg in in_array d i j ->
  0 <= phase_size (d_p d) (pixel_size (d_slm d)) (mirror_x (d_slm d) j) (mirror_y (d_slm d) i) + 8 <= 3012.
Proof.
  intros Hp d [Hi Hj]. cbn in Hi, Hj. unfold d, phase_size, wave_number, mirror_x, mirror_y. cbn [DLP9500 dmd_new d_slm d_p s_Nx s_Ny pixel_size].
  set (ps := 10.8 * micro). assert (Ps : 0 < ps) by (unfold ps, micro; lra). clearbody ps.
  rewrite !Rabs_mult, (Rabs_pos_eq ps) by lra.
  assert (I : Rabs (INR 1080 / 2 - INR i) <= 540).
  { rewrite !INR_IZR_INZ. assert (0 <= IZR (Z.of_nat i) <= 1080) by (split; apply IZR_le; lia). change (IZR (Z.of_nat 1080)) with 1080. apply Rabs_le. lra. }
  assert (J : Rabs (INR j - INR 1920 / 2) <= 960).
  { rewrite !INR_IZR_INZ. assert (0 <= IZR (Z.of_nat j) <= 1920) by (split; apply IZR_le; lia). change (IZR (Z.of_nat 1920)) with 1920. apply Rabs_le. lra. }
  assert (P := PI_RGT_0). assert (P4 := PI_4). set (a := Rabs (INR 1080 / 2 - INR i)) in *. set (b := Rabs (INR j - INR 1920 / 2)) in *.
  assert (A0 : 0 <= a) by apply Rabs_pos. assert (B0 : 0 <= b) by apply Rabs_pos. clearbody a b.
  replace (2 * PI / (per * ps) * (b * ps + a * ps + 2 * ps)) with (2 * PI * (b + a + 2) / per) by (field; lra).
  assert (Q : 0 <= 2 * PI * (b + a + 2) <= 2 * 4 * 1502) by (split; nra).
  split; [assert (0 <= 2 * PI * (b + a + 2) / per) by (apply Rmult_le_pos; [lra|apply Rlt_le, Rinv_0_lt_compat; lra]); lra|].
  assert (2 * PI * (b + a + 2) / per <= 2 * 4 * 1502 / 4); [|lra]. unfold Rdiv. apply Rmult_le_compat; [lra|apply Rlt_le, Rinv_0_lt_compat; lra|lra|apply Rinv_le_contravar; lra].
Qed.
Lemma underflow_9500 wl fl per th neg e v : 4 <= per <= 2 ^ 20 -> e <= / 2 ^ 100 -> / 2 ^ 52 <= v -> let d := DLP9500 wl fl per th neg in no_underflow e v (pixel_size (d_slm d)) (d_p d).
Proof.
  intros Hp He Hv d. unfold d, no_underflow, wave_number. cbn [DLP9500 dmd_new d_slm d_p pixel_size]. set (ps := 10.8 * micro). assert (Ps : / 2 ^ 20 <= ps <= 1) by (unfold ps, micro; lra). clearbody ps.
  assert (P := PI_RGT_0). assert (P2 := PI2_1).
  assert (W : forall t, / 2 ^ 40 <= t -> e <= v * t). { intros t T. assert (/ 2 ^ 52 * / 2 ^ 40 <= v * t) by (apply Rmult_le_compat; lra). lra. }
  assert (N : / 2 ^ 20 <= 2 * PI / (per * ps)).
  { apply Rmult_le_reg_r with (per * ps); [nra|]. replace (2 * PI / (per * ps) * (per * ps)) with (2 * PI) by (field; nra). assert (per * ps <= 2 ^ 20 * 1) by (apply Rmult_le_compat; lra). nra. }
  repeat apply conj; apply W.
  - lra.
  - assert (4 * / 2 ^ 20 <= per * ps) by (apply Rmult_le_compat; lra). lra.
  - lra.
  - assert (/ 2 ^ 20 * / 2 ^ 20 <= 2 * PI / (per * ps) * ps) by (apply Rmult_le_compat; lra). lra.
Qed.
Lemma rounded_9500 wl fl per th neg h amp pin pout A Pi Po kw ru (prec : bool) : let d := DLP9500 wl fl per th neg in let s := d_slm d in let a := if prec then double else single in
  let bound := if prec then / 10 ^ 10 else 1 / 150 in
  4 <= per <= 2 ^ 20 -> Rabs th <= 4 -> reads h s amp A -> reads h s pin Pi -> reads h s pout Po ->
  (forall i j, in_array d i j -> Rabs (A i j) <= 1 /\ Rabs (Pi i j) <= 4 /\ Rabs (Po i j) <= 4) ->
  let x := fun i j => fst (fl_grid a (s_Ny s) (s_Nx s) (pixel_size s) i j) in let y := fun i j => snd (fl_grid a (s_Ny s) (s_Nx s) (pixel_size s) i j) in
  exists g f, set_dmd_grating_state h d amp pin pout MIdeal kw ru = (with_state d (DFloat (s_Ny s) (s_Nx s) g), Ok tt) /\
    set_dmd_grating_state h d amp pin pout MSimple kw ru = (with_state d (DBool (s_Ny s) (s_Nx s) f), Ok tt) /\
    forall i j, in_array d i j -> exists r, g i j = Fin r /\
      Rabs (fl_ideal a (d_neg d) (A i j) (Pi i j) (Po i j) (x i j) (y i j) (rnd a (d_p d)) (rnd a (d_theta d)) - r) <= bound /\
      (fl_simple a (d_neg d) (A i j) (Pi i j) (Po i j) (x i j) (y i j) (rnd a (d_p d)) (rnd a (d_theta d)) <> f i j -> Rabs (r - 1 / 2) <= bound).
Proof.
  intros d s a bound Hp Ht R1 R2 R3 HV x y. assert (Ps : 0 < pixel_size s) by (cbn; unfold micro; lra). assert (Pp : 0 < d_p d) by (cbn; unfold micro; lra).
  assert (S9 := fun i j => size_9500 wl fl per th neg i j (proj1 Hp)). cbv zeta in S9. fold d s in S9. assert (T1 := tiny150). assert (T2 := tiny1075).
  destruct prec.
  - destruct (grating_rounded double (/ 2 ^ 53) (/ 2 ^ 1075) (/ 2 ^ 53) (/ 2 ^ 1075) (/ 2 ^ 52) (2 ^ 53) (2 ^ 53) h d amp pin pout A Pi Po kw ru) as (g & f & G & F & V); try first [assumption|exact binary64_arithmetic|exact binary64_arithmetic|exact double_library|exact double_accurate|apply underflow_9500; [exact Hp|exact T2|lra]|lia|cbn; lia|lra].
    exists g, f. split; [exact G|]. split; [exact F|]. intros i j Hij. destruct (V i j Hij) as (r & E & V1 & V2). exists r. split; [exact E|].
      specialize (S9 i j Hij). fold s in V1, V2. set (L := phase_size _ _ _ _ + 8) in *. clearbody L. assert (16 * / 2 ^ 52 * L <= bound) by (unfold bound; nra).
      split; [eapply Rle_trans; [exact V1|assumption]|]. intros D. eapply Rle_trans; [exact (V2 D)|assumption].
  - destruct (grating_rounded single (/ 2 ^ 24) (/ 2 ^ 150) (/ 2 ^ 53) (/ 2 ^ 1075) (/ 2 ^ 23) (2 ^ 24) (2 ^ 53) h d amp pin pout A Pi Po kw ru) as (g & f & G & F & V); try first [assumption|exact binary32_arithmetic|exact binary64_arithmetic|exact single_library|exact single_accurate|apply underflow_9500; [exact Hp|exact T1|lra]|lia|cbn; lia|lra].
    exists g, f. split; [exact G|]. split; [exact F|]. intros i j Hij. destruct (V i j Hij) as (r & E & V1 & V2). exists r. split; [exact E|].
      specialize (S9 i j Hij). fold s in V1, V2. set (L := phase_size _ _ _ _ + 8) in *. clearbody L. assert (16 * / 2 ^ 23 * L <= bound) by (unfold bound; nra).
      split; [eapply Rle_trans; [exact V1|assumption]|]. intros D. eapply Rle_trans; [exact (V2 D)|assumption].
Qed.
