(** Grey levels, mirrors and efficiency of a hologram after rounding (C134). *)
From Coq Require Import Reals Lra Psatz ZArith Arith List Bool Lia.
From Flocq Require Import Core.
From Coquelicot Require Import Complex.
From Verif Require Import Cx Sums DFT PyBase ProfileModel SlmModel LibModel DmdModel SimModel SimSpec DmdSpec AmpFacts AmpFacts3 DmdThms FloatModel FloatSpec FloatFacts FloatFacts2 FloatFacts3 FlSimSpec NormFacts FlSimFacts FftFacts2 FlHoloModel FlHoloSpec FlHoloFacts FlHoloFacts2.
From Verif Require Import FringeSpec FringeErr FringeErr2.
Open Scope R_scope.

Lemma window_same h s w W i j : window_reads h s w W -> match window_of w W with None => RtoC 1 | Some f => f i j end = W i j.
Proof. intros HW. destruct w; cbn [window_of]; [reflexivity|]. symmetry. apply HW. Qed.

Lemma hologram_rounded a u eta u' eta' v B B' q o F e dd h d input target w E T W kw ru b :
  arithmetic u eta B (rnd a) -> arithmetic u' eta' B' (dbl a) -> (2 ^ 22 <= B)%Z -> (2 ^ 22 <= B')%Z -> library a -> FringeSpec.accurate a v -> accurate_polar q v o ->
  0 <= u <= / 2 ^ 24 -> u <= v -> 0 <= u' <= v -> v <= / 2 ^ 16 -> 0 <= eta <= v -> eta' <= v -> 0 <= o ->
  let s := d_slm d in let ny := s_Ny s in let nx := s_Nx s in let S := spectrum_of ny nx T in let S1 := windowed d T W in
  let K := contrast ny nx E S S1 b in
  full_input h s input E -> full_target h s target T -> window_reads h s w W ->
  (forall i j, in_array d i j -> b <= Cmod (E i j)) -> 0 < b -> (forall i j, in_array d i j -> Cmod (W i j) <= 1) ->
  (exists i j, in_array d i j /\ S1 i j <> RtoC 0) ->
  (forall i j, in_array d i j -> representable (rnd a) (T i j)) -> accurate_forward a e dd ny nx (F ny nx) -> 0 <= e ->
  e * K <= 1 / 17 -> holo_no_underflow v b eta o dd ny nx E S1 -> no_underflow eta v (pixel_size s) (d_p d) ->
  eta_no_underflow v eta' (pixel_size s) (scaling_factor s) (INR nx * INR ny) b ny nx S1 ->
  (Z.of_nat ny <= 2 ^ 20)%Z -> (Z.of_nat nx <= 2 ^ 20)%Z -> 0 < pixel_size s -> 0 < scaling_factor s -> 0 < d_p d -> Rabs (d_theta d) <= 4 ->
  let S' := fl_spectrum a F ny nx T (window_of w W) in
  let bound := fun i j => 16 * v * (phase_size (d_p d) (pixel_size s) (mirror_x s j) (mirror_y s i) + 12) + 4 * (e * K) in
  exists g f ef y,
    calculate_dmd_state h d input target MIdeal w kw ru = (with_state d (DFloat ny nx g), Ok (Fin ef)) /\
    calculate_dmd_state h d input target MSimple w kw ru = (with_state d (DBool ny nx f), Ok (Fin ef)) /\
    fl_holo_eta a ny nx (pixel_size s) (scaling_factor s) (fl_holo_max a q ny nx S' E) = Some y /\ Rabs (y - ef) <= (2 * (e * K) + 40 * v) * ef /\
    forall i j, in_array d i j -> exists r x t, g i j = Fin r /\
      fl_holo_level a q (d_neg d) ny nx (pixel_size s) (d_p d) (d_theta d) S' E i j = Some x /\ Rabs (x - r) <= bound i j /\
      fl_holo_mirror a q (d_neg d) ny nx (pixel_size s) (d_p d) (d_theta d) S' E i j = Some t /\ (t <> f i j -> Rabs (r - 1 / 2) <= bound i j).
Proof.
  intros H H' HB HB' HL HA HQ Hu Huv Hu' Hv He He' Ho s ny nx S S1 K FI FT WR Eb Hb W1 NZ TR AF Pe HK HN UN UE Hy Hx Hps Hsf Hp Ht S' bound.
  destruct NZ as (i0 & j0 & [Hi0 Hj0] & NZ). assert (Hny : (0 < ny)%nat) by (fold s ny in Hi0; lia). assert (Hnx : (0 < nx)%nat) by (fold s nx in Hj0; lia).
  assert (Hp0 : d_p d <> 0) by lra.
  destruct (hologram_spec h d input target w E T W kw ru FI FT WR Hp0 Hny Hnx ltac:(fold s; lra)) as (M & HM & H1 & (i1 & j1 & A1 & B1) & (g & G & V1) & (f & F1 & V2) & _).
  { intros i j Hij Z. exfalso. specialize (Eb i j Hij). rewrite Z, Cmod_0 in Eb. lra. }
  { exists i0, j0. split; [split; assumption|exact NZ]. }
  fold S1 in H1, B1, V1, V2. cbv zeta in *. fold s in G, F1. fold ny nx in G, F1.
  assert (Hv0 : 0 <= v <= / 2 ^ 16) by lra. assert (Huv' : 0 <= u <= v) by lra.
  (* the spectrum is below M times the beam *)
  assert (SM : forall i j, (i < ny)%nat -> (j < nx)%nat -> Cmod (S1 i j) <= M * Cmod (E i j)).
  { intros i j Hi Hj. assert (P : 0 < Cmod (E i j)) by (specialize (Eb i j (conj Hi Hj)); lra). assert (A := proj2 (H1 i j (conj Hi Hj))).
    replace (Cmod (S1 i j)) with (Cmod (S1 i j) / Cmod (E i j) / M * (M * Cmod (E i j))) by (field; lra). rewrite <- (Rmult_1_l (M * Cmod (E i j))) at 2. apply Rmult_le_compat_r; [apply Rmult_le_pos; lra|exact A]. }
  assert (SM1 : exists i j, (i < ny)%nat /\ (j < nx)%nat /\ Cmod (S1 i j) = M * Cmod (E i j)).
  { exists i1, j1. split; [apply A1|]. split; [apply A1|]. assert (P : 0 < Cmod (E i1 j1)) by (specialize (Eb i1 j1 A1); lra).
    replace (Cmod (S1 i1 j1)) with (Cmod (S1 i1 j1) / Cmod (E i1 j1) / M * (M * Cmod (E i1 j1))) by (field; lra). rewrite B1. ring. }
  assert (NE : 0 < norm ny nx E). { eapply Rlt_le_trans; [|apply (entry_norm ny nx E i0 j0 Hi0 Hj0)]. specialize (Eb i0 j0 (conj Hi0 Hj0)). lra. }
  assert (NS1 : 0 < norm ny nx S1). { eapply Rlt_le_trans; [apply (Cmod_pos_neq _ NZ)|apply (entry_norm ny nx S1 i0 j0 Hi0 Hj0)]. }
  assert (mM : norm ny nx S1 / norm ny nx E <= M).
  { apply Rmult_le_reg_r with (norm ny nx E); [exact NE|]. unfold Rdiv. rewrite Rmult_assoc, Rinv_l, Rmult_1_r by lra. apply norm_below; [lra|exact SM]. }
  set (m := norm ny nx S1 / norm ny nx E) in *. assert (Pm : 0 < m) by (apply Rdiv_lt_0_compat; assumption).
  destruct HN as (N1 & N2 & N3 & N4 & N5). fold m in N2, N3, N4, N5.
  assert (bm : b * m <= b * M) by (apply Rmult_le_compat_l; lra). assert (vbm : v * (b * m) <= v * (b * M)) by (apply Rmult_le_compat_l; lra).
  assert (vm : v * m <= v * M) by (apply Rmult_le_compat_l; lra).
  assert (KS : norm ny nx S = K * (b * m)). { unfold K, contrast, m. field. lra. }
  assert (K0 : 0 <= K). { unfold K, contrast. apply Rmult_le_pos; (apply Rmult_le_pos; [apply norm_ge_0|left; apply Rinv_0_lt_compat; lra]). }
  assert (eK0 : 0 <= e * K) by (apply Rmult_le_pos; assumption).
  set (k := 1.01 * (e * K) + 9 * v). assert (V' : v <= 1 / 60000) by lra. assert (Hk : 0 <= k <= 1 / 16) by (unfold k; lra).
  assert (HD : forall i j, (i < ny)%nat -> (j < nx)%nat -> Cmod (S' i j - S1 i j)%C <= k * (M * Cmod (E i j))).
  { intros i j Hi Hj.
    assert (SN := spectrum_near a u eta v B e dd F ny nx T (window_of w W) H Huv' ltac:(lra) (proj1 He) Hny Hnx AF (fun i j Hi Hj => TR i j (conj Hi Hj))). cbv beta zeta in SN.
    specialize (SN ltac:(intros i2 j2 Hi2 Hj2; rewrite (window_same h s w W i2 j2 WR); apply W1; split; assumption) i j Hi Hj). rewrite (window_same h s w W i j WR) in SN.
    fold S in SN. fold S' in SN. change (S i j * W i j)%C with (S1 i j) in SN. eapply Rle_trans; [exact SN|]. rewrite KS.
    specialize (Eb i j (conj Hi Hj)). specialize (SM i j Hi Hj). set (X := M * Cmod (E i j)) in *. assert (bX : b * M <= X) by (unfold X; rewrite (Rmult_comm b); apply Rmult_le_compat_l; lra).
    assert (X0 : 0 <= X) by (unfold X; apply Rmult_le_pos; [lra|apply Cmod_ge_0]).
    assert (T1 : e * (K * (b * m)) <= e * K * X). { rewrite <- Rmult_assoc. apply Rmult_le_compat_l; lra. }
    assert (T2 : v * (b * m) <= v * X) by (apply Rmult_le_compat_l; lra). assert (T3 : v * Cmod (S1 i j) <= v * X) by (apply Rmult_le_compat_l; lra).
    assert (vX : 0 <= v * X) by (apply Rmult_le_pos; lra). assert (eX : 0 <= e * K * X) by (apply Rmult_le_pos; lra).
    set (sg := e * (K * (b * m)) + dd) in *. assert (T4 : sg <= e * K * X + v * X) by (unfold sg; lra).
    assert (T5 : sg * (1 + 6 * v) <= (e * K * X + v * X) * (1 + 6 * v)) by (apply Rmult_le_compat_r; lra).
    assert (T6 : (e * K * X + v * X) * (6 * v) <= (e * K * X + v * X) * (6 / 60000)) by (apply Rmult_le_compat_l; lra).
    unfold k. clearbody sg X. lra. }
  assert (AR := array_near a u eta v o B q H HB Huv' Hv0 (proj1 He) HQ k M b Hk HM Hb Ho N1 ltac:(lra) ltac:(lra) ny nx S1 S' E (fun i j Hi Hj => Eb i j (conj Hi Hj)) SM SM1 HD ltac:(lra)).
  destruct AR as (M' & A' & EM & DM & PM & AA). rewrite EM.
  (* the efficiency *)
  destruct UE as (E1 & E2 & E3).
  assert (MK : M * b <= norm ny nx S1).
  { destruct SM1 as (i2 & j2 & Hi2 & Hj2 & X). eapply Rle_trans; [|apply (entry_norm ny nx S1 i2 j2 Hi2 Hj2)]. rewrite X. apply Rmult_le_compat_l; [lra|]. apply Eb. split; assumption. }
  destruct (eta_near a u' eta' v B' ny nx (pixel_size s) (scaling_factor s) M M' (1.01 * k + 7 * v) b (norm ny nx S1) H' Hu' Hv0 Hny Hnx Hps Hsf HM Hb MK ltac:(lra) DM E1 E2 E3) as (y & Ey & Dy).
  set (e0 := INR nx * INR ny * pixel_size s ^ 2 / scaling_factor s / M) in *.
  assert (Ee0 : eta_scale s / M = e0) by (unfold e0, eta_scale, Rdiv; fold s ny nx; reflexivity).
  rewrite Ee0 in G, F1. exists g, f, e0, y. do 3 (split; [assumption|]). split.
  { eapply Rle_trans; [exact Dy|]. apply Rmult_le_compat_r.
    - unfold e0. assert (0 < INR nx) by (apply lt_0_INR, Hnx). assert (0 < INR ny) by (apply lt_0_INR, Hny). assert (0 < pixel_size s ^ 2) by (apply pow_lt, Hps).
      apply Rmult_le_pos; [|left; apply Rinv_0_lt_compat, HM]. apply Rmult_le_pos; [|left; apply Rinv_0_lt_compat, Hsf]. apply Rmult_le_pos; [apply Rmult_le_pos|]; lra.
    - unfold k. lra. }
  intros i j [Hi Hj]. destruct (AA i j Hi Hj) as (A2 & A3 & A4). specialize (V1 i j (conj Hi Hj)). specialize (V2 i j (conj Hi Hj)).
  set (A := Cmod (S1 i j) / Cmod (E i j) / M) in *. assert (HA1 := H1 i j (conj Hi Hj)). fold A in HA1.
  set (lev := A * (cos (carrier d i j - signed (d_neg d) (phase_of (S1 i j) - carg (E i j))) / 2 + 1 / 2)) in *.
  set (po := fl_phase_out q (S' i j)). set (pi := f_angle q (E i j)).
  assert (NEij : E i j <> RtoC 0). { intros Z. specialize (Eb i j (conj Hi Hj)). rewrite Z, Cmod_0 in Eb. lra. }
  assert (S4 : Rabs pi <= 4) by (apply (pol_size _ _ _ HQ), NEij).
  assert (S5 : Rabs po <= 4). { unfold po, fl_phase_out. destruct (C_dec0 (S' i j)) as [Z|Z]; [rewrite Rabs_R0; lra|]. apply (pol_size _ _ _ HQ), Z. }
  destruct UN as (U1 & U2 & U3 & U4).
  assert (N := ideal_near a u eta u' eta' v B B' H H' HB Hu Huv Hu' Hv He He' HL HA (d_neg d) (A' i j) pi po
    (INR j - INR nx / 2) (INR ny / 2 - INR i) (pixel_size s) (d_p d) (d_theta d) Hps Hp Ht U1 U2 U3 U4 S4 S5 ltac:(apply Rabs_le; lra)).
  assert (LV := FlHoloFacts.level_near v o q Hv0 HQ k M b HM Hb (carrier d i j) (d_neg d) A (A' i j) (S1 i j) (S' i j) (E i j) (Eb i j (conj Hi Hj)) eq_refl HA1 (HD i j Hi Hj) A4).
  fold po pi lev in LV.
  assert (CW : carrier d i j = wave_number (d_p d) * (cos (d_theta d) * ((INR j - INR nx / 2) * pixel_size s) + sin (d_theta d) * ((INR ny / 2 - INR i) * pixel_size s))) by exact (carrier_wave d i j).
  rewrite <- CW in N. clear CW.
  set (ph := phase_size (d_p d) (pixel_size s) ((INR j - INR nx / 2) * pixel_size s) ((INR ny / 2 - INR i) * pixel_size s)) in *.
  unfold fl_holo_level, fl_holo_mirror. rewrite A2. rewrite (grid_value a u eta u' eta' B B' H H' HB HB') by (try assumption; fold s ny nx in Hi, Hj; lia).
  fold po pi. exists lev. eexists. eexists. split; [exact V1|]. split; [reflexivity|].
  match goal with |- Rabs (?X - _) <= _ /\ _ => set (x := X) in * end.
  assert (D : Rabs (x - lev) <= bound i j).
  { set (mid := A' i j * (cos (carrier d i j - signed (d_neg d) (po - pi)) / 2 + 1 / 2)) in *. replace (x - lev) with ((x - mid) + (mid - lev)) by ring. eapply Rle_trans; [apply Rabs_triang|].
    unfold bound. change (phase_size (d_p d) (pixel_size s) (mirror_x s j) (mirror_y s i)) with ph. unfold k in LV. clearbody ph mid lev. fold x in N. clearbody x. lra. }
  split; [exact D|]. split; [reflexivity|]. intros Df. unfold fl_simple in Df. fold x in Df. assert (Z12 : rnd a (1 / 2) = 1 / 2) by (apply (fl_12 _ _ _ _ H); lia). rewrite Z12 in Df.
  apply Rabs_le_inv in D. apply Rabs_le. destruct (Rlt_dec (1 / 2) x) as [L|L].
  - assert (f i j = false) by (destruct (f i j); [contradiction Df; reflexivity|reflexivity]). assert (~ 1 / 2 < lev) by (intros X; apply V2 in X; congruence). lra.
  - assert (X : f i j = true) by (destruct (f i j); [reflexivity|contradiction Df; reflexivity]). apply V2 in X. lra.
Qed.
