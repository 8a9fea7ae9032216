(** The random grating after rounding, on a whole device (C124). *)
From Coq Require Import Reals Lra Psatz ZArith Arith List Bool Lia.
From Flocq Require Import Core.
From Coquelicot Require Import Complex Coquelicot.
From Verif Require Import Cx PyBase ProfileModel SlmModel LibModel DmdModel SimModel SimSpec DmdSpec DmdFacts DmdFacts2 DmdFacts3 DmdThms LinearFacts RandomFacts FloatModel FloatSpec FloatFacts FloatFacts2 FloatFacts4 FringeSpec InverseSpec FringeErr FringeErr2 FringeRand.
Open Scope R_scope.

(** A threshold that is moved. *)
Lemma clamped_indicator g : is_RInt (fun u => if Rlt_dec u g then 1 else 0) 0 1 (Rmax 0 (Rmin 1 g)).
Proof.
  destruct (Rle_dec g 0) as [L|L].
  - rewrite Rmax_left by (rewrite Rmin_right; lra). apply (is_RInt_ext (V := R_NormedModule) (fun _ => 0)).
    + intros x Hx. rewrite Rmin_left, Rmax_right in Hx by lra. destruct (Rlt_dec x g); [lra|reflexivity].
    + assert (E : (1 - 0) * 0 = 0) by ring. exact (eq_ind _ (fun z => is_RInt (fun _ => 0) 0 1 z) (rint_const 0 1 0) _ E).
  - destruct (Rle_dec g 1) as [M|M].
    + rewrite Rmin_right, Rmax_right by lra. apply indicator_integral. lra.
    + rewrite Rmin_left, Rmax_right by lra. apply (is_RInt_ext (V := R_NormedModule) (fun _ => 1)).
      * intros x Hx. rewrite Rmin_left, Rmax_right in Hx by lra. destruct (Rlt_dec x g); [reflexivity|lra].
      * assert (E : (1 - 0) * 1 = 1) by ring. exact (eq_ind _ (fun z => is_RInt (fun _ => 1) 0 1 z) (rint_const 0 1 1) _ E).
Qed.
Lemma moved_threshold (b : R -> bool) g D : (forall z, b z = true <-> z < g) ->
  exists e, is_RInt (fun z => if Bool.eqb (b z) (if Rlt_dec z D then true else false) then 0 else 1) 0 1 e /\ e <= Rabs (g - D).
Proof.
  intros Hb. assert (I1 := clamped_indicator g). assert (I2 := clamped_indicator D).
  destruct (Rle_dec g D) as [L|L].
  - eexists. split.
    + eapply (is_RInt_ext (V := R_NormedModule)); [|exact (is_RInt_minus (V := R_NormedModule) _ _ _ _ _ _ I2 I1)].
      intros x _. unfold minus, plus, opp. cbn. specialize (Hb x). destruct (b x), (Rlt_dec x D), (Rlt_dec x g); cbn; try lra; try (assert (true = true) by reflexivity; intuition lra); try (intuition (try discriminate; lra)).
    + unfold minus, plus, opp. cbn. rewrite Rabs_left1 by lra. unfold Rmax, Rmin. repeat destruct Rle_dec; lra.
  - eexists. split.
    + eapply (is_RInt_ext (V := R_NormedModule)); [|exact (is_RInt_minus (V := R_NormedModule) _ _ _ _ _ _ I1 I2)].
      intros x _. unfold minus, plus, opp. cbn. specialize (Hb x). destruct (b x), (Rlt_dec x D), (Rlt_dec x g); cbn; try lra; try (assert (true = true) by reflexivity; intuition lra); try (intuition (try discriminate; lra)).
    + unfold minus, plus, opp. cbn. rewrite Rabs_pos_eq by lra. unfold Rmax, Rmin. repeat destruct Rle_dec; lra.
Qed.
Lemma random_rounded a u eta u' eta' v B B' h d amp pin pout A Pi Po kw ru :
  arithmetic u eta B (rnd a) -> arithmetic u' eta' B' (dbl a) -> (2 ^ 22 <= B)%Z -> (2 ^ 22 <= B')%Z -> library a -> accurate a v -> inverse_accurate a v ->
  0 <= u <= / 2 ^ 24 -> u <= v -> 0 <= u' <= v -> v <= / 2 ^ 16 -> 0 <= eta <= v -> eta' <= v ->
  let s := d_slm d in reads h s amp A -> reads h s pin Pi -> reads h s pout Po ->
  (Z.of_nat (s_Ny s) <= 2 ^ 20)%Z -> (Z.of_nat (s_Nx s) <= 2 ^ 20)%Z -> 0 < pixel_size s -> 0 < d_p d -> Rabs (d_theta d) <= 4 -> no_underflow eta v (pixel_size s) (d_p d) ->
  let r := dflt (k_r kw) 10 in 0 < r -> eta <= v * r ->
  (forall i j, in_array d i j -> Rabs (Pi i j) <= 4 /\ Rabs (Po i j) <= 4) ->
  let x := fun i j => fst (fl_grid a (s_Ny s) (s_Nx s) (pixel_size s) i j) in let y := fun i j => snd (fl_grid a (s_Ny s) (s_Nx s) (pixel_size s) i j) in
  let on := fun i j => fl_random a (d_neg d) (A i j) (Pi i j) (Po i j) (x i j) (y i j) (rnd a (d_p d)) (rnd a (d_theta d)) r in
  let bound := fun i j => duty_error v r (phase_size (d_p d) (pixel_size s) (mirror_x s j) (mirror_y s i)) in
  exists f, set_dmd_grating_state h d amp pin pout MRandom kw ru = (with_state d (DBool (s_Ny s) (s_Nx s) f), Ok tt) /\
    forall i j, in_array d i j -> 0 <= A i j <= 1 ->
    exists q, folded (carrier d i j - signed (d_neg d) (Po i j - Pi i j)) q /\
      let D := duty r q (A i j) in (f i j = true <-> ru i j < D) /\
      (on i j (ru i j) <> f i j -> Rabs (ru i j - D) <= bound i j) /\
      exists e, is_RInt (fun z => if Bool.eqb (on i j z) (if Rlt_dec z D then true else false) then 0 else 1) 0 1 e /\ e <= bound i j.
Proof.
  intros Har Har' HB HB' HL HA HI Hu Huv Hu' Hv He He' s R1 R2 R3 Hy Hx Hps Hp Ht (U1 & U2 & U3 & U4) r Hr Er HV x y on bound.
  destruct (random_spec h d amp pin pout A Pi Po kw ru R1 R2 R3 ltac:(lra) Hr) as (f & E & V). exists f. split; [exact E|].
  intros i j [Hi Hj] Ha. destruct (V i j (conj Hi Hj)) as [V1 _]. destruct (V1 Ha) as (q & Fq & Fd & _). destruct (HV i j (conj Hi Hj)) as [A2 A3].
  exists q. split; [exact Fq|]. cbv zeta. split; [exact Fd|]. fold r in Fd.
  destruct (duty_near a u eta u' eta' v B B' Har Har' HB Hu Huv Hu' Hv He He' HL HA HI (d_neg d) (A i j) (Pi i j) (Po i j)
    (INR j - INR (s_Nx s) / 2) (INR (s_Ny s) / 2 - INR i) (pixel_size s) (d_p d) (d_theta d) r Hps Hp Ht U1 U2 U3 U4 A2 A3 Ha Hr Er) as (g & G1 & G2).
  fold (mirror_x s j) in G2. fold (mirror_y s i) in G2. unfold s in G2 at 3 4. rewrite <- carrier_wave in G2. rewrite (folded_unique _ _ _ (folded_acos _) Fq) in G2. change (duty_error v r _) with (bound i j) in G2.
  set (b := bound i j) in *. set (D := duty r q (A i j)) in *. clearbody b D.
  assert (On : forall z, on i j z = true <-> z < g).
  { intros z. unfold on, x, y. rewrite (grid_value a u eta u' eta' B B' Har Har' HB HB') by (try assumption; fold s in Hi, Hj; lia). apply G1. }
  split.
  - intros N. apply Rabs_le_inv in G2. apply Rabs_le. destruct (on i j (ru i j)) eqn:O.
    + apply On in O. assert (~ ru i j < D). { intros Q. apply Fd in Q. congruence. } lra.
    + assert (~ ru i j < g). { intros Q. apply On in Q. congruence. } assert (Q : f i j = true) by (destruct (f i j); [reflexivity|contradiction N; reflexivity]). apply Fd in Q. lra.
  - destruct (moved_threshold (on i j) g D On) as (e & I & Le). exists e. split; [exact I|]. lra.
Qed.
(** ** Machines and panels *)
Lemma PI_small : PI < 3.9.
Proof.
  assert (Q := proj1 (PI_ineq 1)). assert (Q2 := proj2 (PI_ineq 1)). unfold PI_tg, tg_alt in *. cbn in Q, Q2. lra.
Qed.
Lemma machine_inverse f u eta B : arithmetic u eta B f -> 0 <= eta <= u / 100 -> inverse_accurate (machine f) (2 * u).
Proof.
  intros H He. assert (P4 := PI_small). assert (P := PI_RGT_0). split; intros x.
  - intros _. cbn [machine f_acos]. eapply Rle_trans; [apply (ar_error _ _ _ _ H)|]. assert (Q := acos_bound x). rewrite Rabs_pos_eq by lra. nra.
  - intros _. cbn [machine f_asin]. eapply Rle_trans; [apply (ar_error _ _ _ _ H)|]. assert (Q := asin_bound x). assert (Rabs (asin x) <= 2) by (apply Rabs_le; lra). nra.
  - cbn [machine f_tanh]. eapply Rle_trans; [apply (ar_error _ _ _ _ H)|]. assert (Q := tanh_bound x). assert (Rabs (tanh x) <= 1) by (apply Rabs_le; lra). nra.
Qed.
Lemma single_inverse : inverse_accurate single (/ 2 ^ 23).
Proof. replace (/ 2 ^ 23) with (2 * / 2 ^ 24) by lra. apply (machine_inverse _ _ _ _ binary32_arithmetic). split; [apply Rlt_le, Rinv_0_lt_compat, pow_lt; lra|]. assert (T := tiny150). lra. Qed.
Lemma double_inverse : inverse_accurate double (/ 2 ^ 52).
Proof. replace (/ 2 ^ 52) with (2 * / 2 ^ 53) by lra. apply (machine_inverse _ _ _ _ binary64_arithmetic). split; [apply Rlt_le, Rinv_0_lt_compat, pow_lt; lra|]. assert (T := tiny1075). lra. Qed.
Lemma random_9500 wl fl per th neg h amp pin pout A Pi Po kw ru (prec : bool) : let d := DLP9500 wl fl per th neg in let s := d_slm d in let a := if prec then double else single in
  let r := dflt (k_r kw) 10 in
  let bound := if prec then r / 10 ^ 7 + / 10 ^ 14 else 13 / 1000 * r + / 10 ^ 6 in
  4 <= per <= 2 ^ 20 -> Rabs th <= 4 -> reads h s amp A -> reads h s pin Pi -> reads h s pout Po -> / 2 ^ 20 <= r ->
  (forall i j, in_array d i j -> Rabs (Pi i j) <= 4 /\ Rabs (Po i j) <= 4) ->
  let x := fun i j => fst (fl_grid a (s_Ny s) (s_Nx s) (pixel_size s) i j) in let y := fun i j => snd (fl_grid a (s_Ny s) (s_Nx s) (pixel_size s) i j) in
  let on := fun i j => fl_random a (d_neg d) (A i j) (Pi i j) (Po i j) (x i j) (y i j) (rnd a (d_p d)) (rnd a (d_theta d)) r in
  exists f, set_dmd_grating_state h d amp pin pout MRandom kw ru = (with_state d (DBool (s_Ny s) (s_Nx s) f), Ok tt) /\
    forall i j, in_array d i j -> 0 <= A i j <= 1 ->
    exists q, folded (carrier d i j - signed (d_neg d) (Po i j - Pi i j)) q /\
      let D := duty r q (A i j) in (f i j = true <-> ru i j < D) /\
      (on i j (ru i j) <> f i j -> Rabs (ru i j - D) <= bound) /\
      exists e, is_RInt (fun z => if Bool.eqb (on i j z) (if Rlt_dec z D then true else false) then 0 else 1) 0 1 e /\ e <= bound.
Proof.
  intros d s a r bound Hp Ht R1 R2 R3 Hr HV x y on. assert (Ps : 0 < pixel_size s) by (cbn; unfold micro; lra). assert (Pp : 0 < d_p d) by (cbn; unfold micro; lra).
  assert (S9 := fun i j => size_9500 wl fl per th neg i j (proj1 Hp)). cbv zeta in S9. fold d s in S9. assert (T1 := tiny150). assert (T2 := tiny1075).
  assert (R0 : 0 < r) by (assert (0 < / 2 ^ 20) by lra; lra).
  assert (E52 : / 2 ^ 1075 <= / 2 ^ 52 * r) by (assert (/ 2 ^ 52 * / 2 ^ 20 <= / 2 ^ 52 * r) by (apply Rmult_le_compat_l; lra); lra).
  assert (E23 : / 2 ^ 150 <= / 2 ^ 23 * r) by (assert (/ 2 ^ 23 * / 2 ^ 20 <= / 2 ^ 23 * r) by (apply Rmult_le_compat_l; lra); lra).
  destruct prec.
  - destruct (random_rounded double (/ 2 ^ 53) (/ 2 ^ 1075) (/ 2 ^ 53) (/ 2 ^ 1075) (/ 2 ^ 52) (2 ^ 53) (2 ^ 53) h d amp pin pout A Pi Po kw ru) as (f & F & V); try first [assumption|exact binary64_arithmetic|exact double_library|exact double_accurate|exact double_inverse|apply underflow_9500; [exact Hp|exact T2|lra]|lia|cbn; lia|lra].
    exists f. split; [exact F|]. intros i j Hij Ha. destruct (V i j Hij Ha) as (q & Fq & V1 & V2 & e & I & Le). exists q. split; [exact Fq|]. cbv zeta. split; [exact V1|].
    assert (K : duty_error (/ 2 ^ 52) r (phase_size (d_p d) (pixel_size s) (mirror_x s j) (mirror_y s i)) <= bound).
    { specialize (S9 i j Hij). unfold duty_error, bound. replace (/ 2 ^ 52) with ((/ 2 ^ 26) ^ 2) at 2 by lra. rewrite sqrt_pow2 by lra. set (L := phase_size _ _ _ _) in *. clearbody L.
      assert (r * (33 * / 2 ^ 52 * (L + 8) + 3 * / 2 ^ 26) <= r * / 10 ^ 7) by (apply Rmult_le_compat_l; lra). lra. }
    split; [intros N; eapply Rle_trans; [exact (V2 N)|exact K]|]. exists e. split; [exact I|]. eapply Rle_trans; [exact Le|exact K].
  - destruct (random_rounded single (/ 2 ^ 24) (/ 2 ^ 150) (/ 2 ^ 53) (/ 2 ^ 1075) (/ 2 ^ 23) (2 ^ 24) (2 ^ 53) h d amp pin pout A Pi Po kw ru) as (f & F & V); try first [assumption|exact binary32_arithmetic|exact binary64_arithmetic|exact single_library|exact single_accurate|exact single_inverse|apply underflow_9500; [exact Hp|exact T1|lra]|lia|cbn; lia|lra].
    exists f. split; [exact F|]. intros i j Hij Ha. destruct (V i j Hij Ha) as (q & Fq & V1 & V2 & e & I & Le). exists q. split; [exact Fq|]. cbv zeta. split; [exact V1|].
    assert (K : duty_error (/ 2 ^ 23) r (phase_size (d_p d) (pixel_size s) (mirror_x s j) (mirror_y s i)) <= bound).
    { specialize (S9 i j Hij). unfold duty_error, bound. assert (Q : sqrt (/ 2 ^ 23) <= 0.000346). { rewrite <- (sqrt_pow2 0.000346) by lra. apply sqrt_le_1_alt. lra. }
      set (L := phase_size _ _ _ _) in *. clearbody L. assert (r * (33 * / 2 ^ 23 * (L + 8) + 3 * sqrt (/ 2 ^ 23)) <= r * (13 / 1000)) by (apply Rmult_le_compat_l; lra). lra. }
    split; [intros N; eapply Rle_trans; [exact (V2 N)|exact K]|]. exists e. split; [exact I|]. eapply Rle_trans; [exact Le|exact K].
Qed.
