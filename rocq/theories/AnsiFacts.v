(** ANSI index conversion in binary64. *)
From Coq Require Import Reals Lra Psatz ZArith Arith List Bool Lia.
From Flocq Require Import Core.
From Verif Require Import Cx Sums PyBase ProfileModel ZernSpec AnalysisModel.
Open Scope R_scope.

Local Instance exp_valid : Valid_exp (FLT_exp (-1074) 53). Proof. apply FLT_exp_valid. reflexivity. Qed.
Lemma b64_id (m e : Z) : (Z.abs m <= 2 ^ 53)%Z -> (-1074 <= e)%Z -> b64 (IZR m * bpow radix2 e) = IZR m * bpow radix2 e.
Proof.
  intros Hm He. unfold b64. apply round_generic; [apply valid_rnd_N|].
  destruct (Z.eq_dec (Z.abs m) (2 ^ 53)) as [E|E].
  - replace (IZR m * bpow radix2 e) with (IZR (Z.sgn m) * bpow radix2 (e + 53)).
    + apply generic_format_FLT. exists (Float radix2 (Z.sgn m) (e + 53)); [reflexivity|cbn [Fnum]; apply Z.le_lt_trans with 1%Z; [lia|reflexivity]|cbn [Fexp]; lia].
    + rewrite bpow_plus. replace (IZR m) with (IZR (Z.sgn m) * IZR (2 ^ 53)) by (rewrite <- mult_IZR; f_equal; lia). change (2 ^ 53)%Z with (radix2 ^ 53)%Z. rewrite IZR_Zpower by lia. ring.
  - apply generic_format_FLT. exists (Float radix2 m e); [reflexivity|cbn [Fnum]; change (Zpower radix2 53) with (2 ^ 53)%Z; lia|cbn [Fexp]; lia].
Qed.
Lemma b64_le x y : x <= y -> b64 x <= b64 y.
Proof. apply round_le; [exact exp_valid|apply valid_rnd_N]. Qed.
Lemma b64_int m : (Z.abs m <= 2 ^ 53)%Z -> b64 (IZR m) = IZR m.
Proof. intros H. pose proof (b64_id m 0 H) as E. cbn [bpow] in E. rewrite Rmult_1_r in E. apply E. lia. Qed.

Lemma bp26 : bpow radix2 (-26) * IZR (2 ^ 26) = 1.
Proof. change (2 ^ 26)%Z with (radix2 ^ 26)%Z. rewrite IZR_Zpower by lia. rewrite <- bpow_plus. reflexivity. Qed.
Lemma bp27 : bpow radix2 (-27) * IZR (2 ^ 27) = 1.
Proof. change (2 ^ 27)%Z with (radix2 ^ 27)%Z. rewrite IZR_Zpower by lia. rewrite <- bpow_plus. reflexivity. Qed.
Lemma b64_eps26 k : (Z.abs k < 2 ^ 27)%Z -> b64 (IZR k + bpow radix2 (-26)) = IZR k + bpow radix2 (-26).
Proof.
  intros H. replace (IZR k + bpow radix2 (-26)) with (IZR (k * 2 ^ 26 + 1) * bpow radix2 (-26)) by (rewrite plus_IZR, mult_IZR; pose proof bp26; nra). apply b64_id; lia.
Qed.
Lemma b64_eps27 k : (Z.abs k < 2 ^ 26)%Z -> b64 (IZR k + bpow radix2 (-27)) = IZR k + bpow radix2 (-27).
Proof.
  intros H. replace (IZR k + bpow radix2 (-27)) with (IZR (k * 2 ^ 27 + 1) * bpow radix2 (-27)) by (rewrite plus_IZR, mult_IZR; pose proof bp27; nra). apply b64_id; lia.
Qed.
(** If (2n+1)^2 + 8 <= 9 + 8j <= (2n+3)^2 and 9 + 8j <= 2^53, the computed order is n. *)
Lemma ansi_order j n : (0 <= n)%Z -> ((2 * n + 1) ^ 2 + 8 <= 9 + 8 * j)%Z -> (9 + 8 * j <= (2 * n + 3) ^ 2)%Z -> (9 + 8 * j <= 2 ^ 53)%Z ->
  Zceil (b64 (b64 (-3 + b64 (sqrt (b64 (IZR (9 + 8 * j))))) / 2)) = n.
Proof.
  intros Hn L U B. assert (Hn' : (n < 2 ^ 26)%Z) by nia.
  rewrite (b64_int (9 + 8 * j)) by lia. set (x := IZR (9 + 8 * j)).
  assert (Lx : (2 * IZR n + 1) ^ 2 + 8 <= x). { apply IZR_le in L. replace ((2 * n + 1) ^ 2 + 8)%Z with ((2 * n + 1) * (2 * n + 1) + 8)%Z in L by ring. fold x in L. rewrite !plus_IZR, !mult_IZR, !plus_IZR, !mult_IZR in L. lra. }
  assert (Ux : x <= (2 * IZR n + 3) ^ 2). { apply IZR_le in U. replace ((2 * n + 3) ^ 2)%Z with ((2 * n + 3) * (2 * n + 3))%Z in U by ring. fold x in U. rewrite mult_IZR, !plus_IZR, !mult_IZR in U. lra. }
  assert (Rn : 0 <= IZR n) by (apply (IZR_le 0), Hn). assert (Rn' : IZR n <= IZR (2 ^ 26) - 1) by (rewrite <- minus_IZR; apply IZR_le; lia).
  set (d := bpow radix2 (-26)). assert (Hd : d * IZR (2 ^ 26) = 1) by apply bp26. assert (Hd0 : 0 < d) by apply bpow_gt_0.
  assert (P26 : IZR (2 ^ 26) = 67108864) by reflexivity. rewrite P26 in *.
  (* the square root *)
  assert (S1 : IZR (2 * n + 1) + d <= sqrt x).
  { apply Rsqr_incr_0; [|rewrite plus_IZR, mult_IZR; lra|apply sqrt_pos]. rewrite Rsqr_sqrt by nra. unfold Rsqr. rewrite plus_IZR, mult_IZR. nra. }
  assert (S2 : sqrt x <= IZR (2 * n + 3)).
  { apply Rsqr_incr_0; [|apply sqrt_pos|rewrite plus_IZR, mult_IZR; lra]. rewrite Rsqr_sqrt by nra. unfold Rsqr. rewrite plus_IZR, mult_IZR. nra. }
  apply b64_le in S1. unfold d in S1. rewrite b64_eps26 in S1 by lia. fold d in S1. apply b64_le in S2. rewrite b64_int in S2 by lia.
  set (s := b64 (sqrt x)) in *.
  (* minus three *)
  assert (T1 : IZR (2 * n - 2) + d <= -3 + s). { replace (IZR (2 * n - 2)) with (IZR (2 * n + 1) - 3) by (rewrite <- minus_IZR; f_equal; lia). lra. }
  assert (T2 : -3 + s <= IZR (2 * n)). { replace (IZR (2 * n)) with (IZR (2 * n + 3) - 3) by (rewrite <- minus_IZR; f_equal; lia). lra. }
  apply b64_le in T1. unfold d in T1. rewrite b64_eps26 in T1 by lia. fold d in T1. apply b64_le in T2. rewrite b64_int in T2 by lia.
  set (t := b64 (-3 + s)) in *.
  (* half *)
  set (d2 := bpow radix2 (-27)). assert (Hd2 : d2 * IZR (2 ^ 27) = 1) by apply bp27. assert (Hd20 : 0 < d2) by apply bpow_gt_0.
  assert (D : d = 2 * d2). { assert (P27 : IZR (2 ^ 27) = 134217728) by reflexivity. rewrite P27 in Hd2. nra. }
  assert (U1 : IZR (n - 1) + d2 <= t / 2). { replace (IZR (2 * n - 2)) with (2 * IZR (n - 1)) in T1 by (rewrite <- mult_IZR; f_equal; lia). lra. }
  assert (U2 : t / 2 <= IZR n). { rewrite mult_IZR in T2. lra. }
  apply b64_le in U1. unfold d2 in U1. rewrite b64_eps27 in U1 by lia. fold d2 in U1. apply b64_le in U2. rewrite b64_int in U2 by lia.
  apply Zceil_imp. split; [lra|exact U2].
Qed.
Lemma ansi_exact j n m : zvalid n m -> (2 * j = n * (n + 2) + m)%Z -> (9 + 8 * j <= 2 ^ 53)%Z -> ansi_j_to_n_m j = Ok (n, m).
Proof.
  intros [V E] J B. assert (Hj : (0 <= j)%Z) by nia. unfold ansi_j_to_n_m. rewrite ansi_order with (n := n); [|lia|nia|nia|exact B].
  destruct (Z.leb_spec (2 ^ 64) (9 + 8 * j)); [lia|]. destruct (Z.ltb_spec (9 + 8 * j) (- 2 ^ 63)); [lia|]. cbn [orb]. destruct (Z.ltb_spec (9 + 8 * j) 0); [lia|]. do 2 f_equal. lia.
Qed.
(** Every index has such a pair. *)
Lemma ansi_pair_exists j : (0 <= j)%Z -> exists n m, zvalid n m /\ (2 * j = n * (n + 2) + m)%Z.
Proof.
  intros Hj. pattern j. apply natlike_ind; [| |exact Hj].
  - exists 0%Z, 0%Z. split; [split; [lia|reflexivity]|lia].
  - intros k Hk (n & m & [V E] & J). destruct (Z.eq_dec m n) as [->|Hm].
    + exists (n + 1)%Z, (- n - 1)%Z. split; [split; [lia|]|lia]. replace (n + 1 - (- n - 1))%Z with (2 * (n + 1))%Z by lia. rewrite Z.even_mul. reflexivity.
    + exists n, (m + 2)%Z. split; [split|lia].
      * apply Z.even_spec in E. destruct E as [q Hq]. lia.
      * replace (n - (m + 2))%Z with (n - m - 2)%Z by lia. rewrite Z.even_sub, E. reflexivity.
Qed.
Lemma ansi_pair_unique j n m n' m' : zvalid n m -> (2 * j = n * (n + 2) + m)%Z -> zvalid n' m' -> (2 * j = n' * (n' + 2) + m')%Z -> n = n' /\ m = m'.
Proof. intros [V _] J [V' _] J'. assert (n = n') by nia. subst. split; [reflexivity|lia]. Qed.
Lemma ansi_total j : (0 <= j)%Z -> (9 + 8 * j <= 2 ^ 53)%Z -> exists n m, ansi_j_to_n_m j = Ok (n, m) /\ zvalid n m /\ (2 * j = n * (n + 2) + m)%Z.
Proof. intros Hj B. destruct (ansi_pair_exists j Hj) as (n & m & V & J). exists n, m. split; [apply ansi_exact; assumption|]. split; assumption. Qed.
Lemma ansi_surjective n m : zvalid n m -> exists j, (0 <= j)%Z /\ (2 * j = n * (n + 2) + m)%Z.
Proof.
  intros [V E]. apply Z.even_spec in E. destruct E as [q Hq]. exists ((n * (n + 2) + m) / 2)%Z.
  assert (X : exists t, (n * (n + 2) + m = t * 2)%Z). { destruct (Z.Even_or_Odd n) as [[a Ha]|[a Ha]]; subst n; [exists (2 * a * a + 3 * a - q)%Z; lia|exists (2 * a * a + 5 * a + 2 - q)%Z; lia]. }
  destruct X as [t Ht]. rewrite Ht, Z.div_mul by lia. split; [nia|lia].
Qed.
Lemma ansi_injective j j' r : (0 <= j)%Z -> (0 <= j')%Z -> (9 + 8 * j <= 2 ^ 53)%Z -> (9 + 8 * j' <= 2 ^ 53)%Z -> ansi_j_to_n_m j = Ok r -> ansi_j_to_n_m j' = Ok r -> j = j'.
Proof.
  intros Hj Hj' B B' E E'. destruct (ansi_total j Hj B) as (n & m & E1 & _ & J). destruct (ansi_total j' Hj' B') as (n' & m' & E1' & _ & J'). rewrite E1 in E. rewrite E1' in E'. injection E as <-. injection E' as -> ->. lia.
Qed.
Lemma b64_nearest x e (n : Z) : (-1074 <= e)%Z -> bpow radix2 (e + 52) <= x < bpow radix2 (e + 53) -> Rabs (x * bpow radix2 (- e) - IZR n) < / 2 -> b64 x = IZR n * bpow radix2 e.
Proof.
  intros He Hx Hn. unfold b64, round, scaled_mantissa, Generic_fmt.cexp.
  assert (M : mag radix2 x = (e + 53)%Z :> Z). { apply mag_unique_pos. replace (e + 53 - 1)%Z with (e + 52)%Z by ring. exact Hx. }
  rewrite M. unfold FLT_exp. replace (Z.max (e + 53 - 53) (-1074)) with e by lia. unfold F2R. cbn [Fnum Fexp]. rewrite (Znearest_imp _ _ n); [reflexivity|exact Hn].
Qed.
Lemma bpZ (k : Z) : (0 <= k)%Z -> bpow radix2 k = IZR (2 ^ k).
Proof. intros H. change (2 ^ k)%Z with (radix2 ^ k)%Z. rewrite IZR_Zpower by exact H. reflexivity. Qed.
(** Beyond 2^53 the conversion is eventually wrong. *)
Lemma ansi_wrong : ansi_j_to_n_m (2 ^ 53 - 2 ^ 26) = Ok (2 ^ 27 - 2, 2 ^ 27)%Z.
Proof.
  unfold ansi_j_to_n_m. change (9 + 8 * (2 ^ 53 - 2 ^ 26))%Z with 72057593501057033%Z. change ((2 ^ 64 <=? 72057593501057033)%Z || (72057593501057033 <? - 2 ^ 63)%Z)%bool with false. cbn match. change (72057593501057033 <? 0)%Z with false. cbn match.
  assert (A : b64 (IZR 72057593501057033) = IZR 72057593501057032).
  { rewrite (b64_nearest _ 3 9007199187632129).
    - rewrite bpZ by lia. change (2 ^ 3)%Z with 8%Z. rewrite <- mult_IZR. reflexivity.
    - lia.
    - rewrite !bpZ by lia. split; [apply IZR_le; vm_compute; discriminate|apply IZR_lt; vm_compute; reflexivity].
    - replace (bpow radix2 (- (3))) with (/ 8) by reflexivity. rewrite Rabs_pos_eq; lra. }
  rewrite A. set (y := sqrt (IZR 72057593501057032)).
  assert (Y2 : y * y = IZR 72057593501057032) by (apply sqrt_sqrt; lra). assert (Y0 : 0 <= y) by apply sqrt_pos.
  assert (L : 268435455 < y) by (apply Rsqr_incrst_0; [unfold Rsqr; lra|lra|exact Y0]).
  assert (U : y < 268435455 + / 67108864) by (apply Rsqr_incrst_0; [unfold Rsqr; lra|exact Y0|lra]).
  assert (S : b64 y = IZR 268435455).
  { rewrite (b64_nearest y (-25) (268435455 * 2 ^ 25)).
    - rewrite mult_IZR, <- (bpZ 25) by lia. rewrite Rmult_assoc, <- bpow_plus. change (bpow radix2 (25 + -25)) with 1. ring.
    - lia.
    - change (-25 + 52)%Z with 27%Z. change (-25 + 53)%Z with 28%Z. rewrite !bpZ by lia. change (2 ^ 27)%Z with 134217728%Z. change (2 ^ 28)%Z with 268435456%Z. lra.
    - change (- -25)%Z with 25%Z. rewrite bpZ by lia. rewrite mult_IZR. change (2 ^ 25)%Z with 33554432%Z. rewrite Rabs_pos_eq; lra. }
  rewrite S. replace (-3 + 268435455) with (IZR 268435452) by lra. rewrite b64_int by (vm_compute; discriminate). replace (IZR 268435452 / 2) with (IZR 134217726) by lra. rewrite b64_int by (vm_compute; discriminate). rewrite Zceil_IZR. reflexivity.
Qed.
Lemma ansi_negative j : (- 2 ^ 59 <= j <= -2)%Z -> ansi_j_to_n_m j = Err ValueError.
Proof.
  intros H. unfold ansi_j_to_n_m. destruct (Z.leb_spec (2 ^ 64) (9 + 8 * j)); [lia|]. destruct (Z.ltb_spec (9 + 8 * j) (- 2 ^ 63)); [lia|]. cbn [orb]. destruct (Z.ltb_spec (9 + 8 * j) 0); [reflexivity|lia].
Qed.
Lemma ansi_domain j : match ansi_j_to_n_m j with
  | Ok _ => (-1 <= j <= 2 ^ 61 - 2)%Z
  | Err ValueError => (- 2 ^ 60 - 1 <= j <= -2)%Z
  | Err TypeError => (2 ^ 61 - 1 <= j \/ j <= - 2 ^ 60 - 2)%Z
  | Err _ => False
  end.
Proof.
  unfold ansi_j_to_n_m. cbv zeta. destruct (Z.leb_spec (2 ^ 64) (9 + 8 * j)), (Z.ltb_spec (9 + 8 * j) (- 2 ^ 63)); cbn [orb]; try lia.
  destruct (Z.ltb_spec (9 + 8 * j) 0); lia.
Qed.
