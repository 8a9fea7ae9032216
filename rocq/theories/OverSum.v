(** Sums of products of sampled Hermite functions (C116). *)
From Coq Require Import Reals Lra Psatz ZArith Arith List Bool Lia.
From Coquelicot Require Import Coquelicot.
From Verif Require Import Cx Sums ModeSpec ModeFacts ModeThms GaussInt ErfInt GaussSum GaussSum2 HermSpec HermSum HermSum2 OverlapSpec.
Open Scope R_scope.

Definition tl (p q : nat) : R -> R := beyond p q.
Definition val (p q : nat) : R := if (p =? q)%nat then sqrt PI * 2 ^ p * INR (fact p) else 0.
Lemma height_H n t : height n t = Rabs (hf n t).
Proof. unfold height, hf. rewrite <- H_hermite, Rabs_mult, (Rabs_pos_eq (exp _)) by (left; apply exp_pos). reflexivity. Qed.
Lemma g_sqrt2 t : g (sqrt 2 * t) = exp (- t ^ 2) * exp (- t ^ 2).
Proof. unfold g. rewrite <- exp_plus. f_equal. replace ((sqrt 2 * t) ^ 2) with (sqrt 2 * sqrt 2 * t ^ 2) by ring. rewrite sqrt2_sq. ring. Qed.
Lemma hf_prod p q t : H p (sqrt 2 * t) * H q (sqrt 2 * t) * g (sqrt 2 * t) = hf p t * hf q t.
Proof. rewrite g_sqrt2. unfold hf. ring. Qed.
Lemma heights p q t : Rabs (H p (sqrt 2 * t) * H q (sqrt 2 * t) * g (sqrt 2 * t)) = height p t * height q t.
Proof. rewrite hf_prod, Rabs_mult, !height_H. reflexivity. Qed.
(** An antiderivative whose distance from its limits is bounded. *)
Definition anti (p q : nat) (V : R) (T : R -> R) : Prop := exists J K L, (forall x, is_derive J x (H p x * H q x * g x)) /\ L - K = V /\
  (forall t, 0 <= t -> Rabs (L - J (sqrt 2 * t)) <= T t) /\ (forall t, t <= 0 -> Rabs (J (sqrt 2 * t) - K) <= T t).
Lemma anti_all p : forall q, anti p q (val p q) (fun t => sqrt 2 * beyond p q t).
Proof.
  assert (S0 := sqrt2_pos). assert (S2 := sqrt2_sq). assert (SP := sqrtPI_pos).
  assert (Z : forall p, anti (S p) 0 0 (fun t => height p t * height 0 t)).
  { clear p. intros p. exists (fun x => - (H p x * g x)), 0, 0. split; [|split; [ring|split]].
    - intros x. evar_last; [apply (is_derive_opp (fun x => H p x * g x)), Hg_derive|]. unfold opp; cbn -[H g]. req. rewrite H_0. ring.
    - intros t _. rewrite <- (heights p 0). right. f_equal. rewrite H_0. ring.
    - intros t _. rewrite <- (heights p 0). rewrite <- Rabs_Ropp. right. f_equal. rewrite H_0. ring. }
  induction p as [|p IH]; intros [|q].
  - exists I, (- (sqrt PI / 2)), (sqrt PI / 2). unfold val. cbn [Nat.eqb beyond pow fact INR]. split; [|split; [field|split]].
    + intros x. rewrite H_0. replace (1 * 1 * g x) with (g x) by ring. apply I_derive.
    + intros t Ht. assert (P : 0 <= sqrt 2 * t) by (apply Rmult_le_pos; lra). assert (Q := I_tail _ P). assert (W := I_le (sqrt 2 * t)). apply Rabs_le_between in W. rewrite Rabs_pos_eq by lra. eapply Rle_trans; [exact Q|].
      right. change (exp (- (sqrt 2 * t) ^ 2)) with (g (sqrt 2 * t)). rewrite g_sqrt2, <- exp_plus. replace (- t ^ 2 + - t ^ 2) with (- 2 * t ^ 2) by ring. set (e := exp _). replace (sqrt 2 * (sqrt 2 / sqrt PI * e)) with (sqrt 2 * sqrt 2 / sqrt PI * e) by (field; lra). rewrite S2. reflexivity.
    + intros t Ht. assert (P : 0 <= sqrt 2 * - t) by (apply Rmult_le_pos; lra). assert (Q := I_tail _ P). replace (sqrt 2 * - t) with (- (sqrt 2 * t)) in Q by ring. rewrite I_odd in Q. assert (W := I_le (sqrt 2 * t)). apply Rabs_le_between in W. rewrite Rabs_pos_eq by lra.
      replace (I (sqrt 2 * t) - - (sqrt PI / 2)) with (sqrt PI / 2 - - I (sqrt 2 * t)) by ring. eapply Rle_trans; [exact Q|].
      right. replace (- (- (sqrt 2 * t)) ^ 2) with (- (sqrt 2 * t) ^ 2) by ring. change (exp (- (sqrt 2 * t) ^ 2)) with (g (sqrt 2 * t)). rewrite g_sqrt2, <- exp_plus. replace (- t ^ 2 + - t ^ 2) with (- 2 * t ^ 2) by ring. set (e := exp _). replace (sqrt 2 * (sqrt 2 / sqrt PI * e)) with (sqrt 2 * sqrt 2 / sqrt PI * e) by (field; lra). rewrite S2. reflexivity.
  - destruct (Z q) as (J & K & L & D & V & U & W). exists J, K, L. unfold val. cbn [Nat.eqb beyond]. split; [|split; [exact V|split]].
    + intros x. rewrite (Rmult_comm (H 0 x)). apply D.
    + intros t Ht. eapply Rle_trans; [apply U, Ht|]. right. field. lra.
    + intros t Ht. eapply Rle_trans; [apply W, Ht|]. right. field. lra.
  - destruct (Z p) as (J & K & L & D & V & U & W). exists J, K, L. unfold val. cbn [Nat.eqb beyond]. split; [exact D|split; [exact V|split]].
    + intros t Ht. eapply Rle_trans; [apply U, Ht|]. right. field. lra.
    + intros t Ht. eapply Rle_trans; [apply W, Ht|]. right. field. lra.
  - destruct (IH q) as (J & K & L & D & V & U & W). assert (P0 := pos_INR p). set (c := 2 * (INR p + 1)). assert (Hc : 0 < c) by (unfold c; lra).
    exists (fun x => c * J x - H q x * g x * H (S p) x), (c * K), (c * L). split; [|split; [|split]].
    + intros x. evar_last.
      * apply (is_derive_minus (V := R_NormedModule)); [apply (is_derive_scal J x c); apply D|]. apply (is_derive_mult (fun t => H q t * g t) (H (S p))); [apply Hg_derive|apply H_derive_S|intros; apply Rmult_comm].
      * unfold minus, plus, opp, mult; cbn -[H g]. req. fold c. ring.
    + rewrite <- Rmult_minus_distr_l, V. unfold val. cbn [Nat.eqb]. destruct (p =? q)%nat; [|ring]. unfold c. rewrite fact_simpl, mult_INR, S_INR. cbn [pow]. ring.
    + intros t Ht. assert (Q := U t Ht). replace (c * L - (c * J (sqrt 2 * t) - H q (sqrt 2 * t) * g (sqrt 2 * t) * H (S p) (sqrt 2 * t))) with (H (S p) (sqrt 2 * t) * H q (sqrt 2 * t) * g (sqrt 2 * t) + c * (L - J (sqrt 2 * t))) by ring.
      eapply Rle_trans; [apply Rabs_triang|]. rewrite heights, Rabs_mult, (Rabs_pos_eq c) by lra. cbn [beyond]. fold c. assert (c * Rabs (L - J (sqrt 2 * t)) <= c * (sqrt 2 * beyond p q t)) by (apply Rmult_le_compat_l; lra).
      replace (sqrt 2 * (height (S p) t * height q t / sqrt 2 + c * beyond p q t)) with (height (S p) t * height q t + c * (sqrt 2 * beyond p q t)) by (field; lra). lra.
    + intros t Ht. assert (Q := W t Ht). replace (c * J (sqrt 2 * t) - H q (sqrt 2 * t) * g (sqrt 2 * t) * H (S p) (sqrt 2 * t) - c * K) with (- (H (S p) (sqrt 2 * t) * H q (sqrt 2 * t) * g (sqrt 2 * t)) + c * (J (sqrt 2 * t) - K)) by ring.
      eapply Rle_trans; [apply Rabs_triang|]. rewrite Rabs_Ropp, heights, Rabs_mult, (Rabs_pos_eq c) by lra. cbn [beyond]. fold c. assert (c * Rabs (J (sqrt 2 * t) - K) <= c * (sqrt 2 * beyond p q t)) by (apply Rmult_le_compat_l; lra).
      replace (sqrt 2 * (height (S p) t * height q t / sqrt 2 + c * beyond p q t)) with (height (S p) t * height q t + c * (sqrt 2 * beyond p q t)) by (field; lra). lra.
Qed.
(** *** The sampled sum *)
Lemma product_sum p q A n N : 0 <= n -> A <= 0 -> 0 <= A + INR N * n -> let B := A + INR N * n in
  Rabs (n * rsum N (fun j => hf p (A + INR j * n) * hf q (A + INR j * n)) - val p q / sqrt 2) <=
  (B - A) * n ^ 2 / 12 * bend p q + n / 2 * (height p A * height q A + height p B * height q B) + (beyond p q A + beyond p q B).
Proof.
  intros Hn HA HB B. assert (S0 := sqrt2_pos). assert (S2 := sqrt2_sq). destruct (anti_all p q) as (J & K & L & D & V & U & W).
  set (F := fun t => hf p t * hf q t). set (F1 := fun t => hd p t * hf q t + hf p t * hd q t). set (F2 := fun t => (hdd p t * hf q t + hd p t * hd q t) + (hd p t * hd q t + hf p t * hdd q t)).
  assert (T := trap_all F F1 F2 (fun t => / sqrt 2 * J (sqrt 2 * t)) (bend p q) A n N).
  assert (T' : Rabs (n * rsum N (fun j => F (A + INR j * n)) + n * (F (A + INR N * n) - F A) / 2 - (/ sqrt 2 * J (sqrt 2 * (A + INR N * n)) - / sqrt 2 * J (sqrt 2 * A))) <= INR N * (n ^ 3 / 12 * bend p q)).
  { apply T; [| | | |exact Hn].
    - intros x. evar_last; [apply (is_derive_mult _ _ _ _ _ (hf_derive p x) (hf_derive q x)); intros; apply Rmult_comm|]. reflexivity.
    - intros x. evar_last; [apply (is_derive_plus (V := R_NormedModule))|].
      + apply (is_derive_mult _ _ _ _ _ (hd_derive p x) (hf_derive q x)); intros; apply Rmult_comm.
      + apply (is_derive_mult _ _ _ _ _ (hf_derive p x) (hd_derive q x)); intros; apply Rmult_comm.
      + reflexivity.
    - intros x. evar_last; [apply (is_derive_scal (fun t => J (sqrt 2 * t)) x (/ sqrt 2)); apply (is_derive_comp J (fun t => sqrt 2 * t)); [apply D|auto_derive; [trivial|reflexivity]]|].
      unfold scal, mult; cbn -[hf H g]. req. rewrite hf_prod. unfold mult; cbn -[hf]. unfold F. field. lra.
    - intros x. unfold F2, bend. assert (M : forall a b x y, Rabs x <= a -> Rabs y <= b -> Rabs (x * y) <= a * b) by (intros; rewrite Rabs_mult; apply Rmult_le_compat; try apply Rabs_pos; assumption).
      assert (B1 := M _ _ _ _ (hdd_bound p x) (hf_bound q x)). assert (B2 := M _ _ _ _ (hd_bound p x) (hd_bound q x)). assert (B3 := M _ _ _ _ (hf_bound p x) (hdd_bound q x)).
      eapply Rle_trans; [apply Rabs_triang|]. eapply Rle_trans; [apply Rplus_le_compat; apply Rabs_triang|]. lra. }
  fold B in T'. assert (UB := U B HB). assert (WA := W A HA). fold B.
  set (Sn := n * rsum N (fun j => F (A + INR j * n))) in *. change (Rabs (Sn - val p q / sqrt 2) <= (B - A) * n ^ 2 / 12 * bend p q + n / 2 * (height p A * height q A + height p B * height q B) + (beyond p q A + beyond p q B)).
  set (u := L - J (sqrt 2 * B)) in *. set (v := J (sqrt 2 * A) - K) in *.
  match type of T' with Rabs ?z <= _ => set (d := z) in * end.
  assert (Ed : Sn - val p q / sqrt 2 = d + (- (n / 2 * (F B - F A)) + (- (/ sqrt 2 * u) - / sqrt 2 * v))).
  { unfold d, u, v. rewrite <- V. field. lra. }
  rewrite Ed. eapply Rle_trans; [apply Rabs_triang|].
  assert (EN : INR N * (n ^ 3 / 12 * bend p q) = (B - A) * n ^ 2 / 12 * bend p q) by (unfold B; field). rewrite EN in T'.
  assert (I2 : 0 < / sqrt 2) by (apply Rinv_0_lt_compat; lra).
  assert (Q1 : Rabs (- (n / 2 * (F B - F A))) <= n / 2 * (height p A * height q A + height p B * height q B)).
  { rewrite Rabs_Ropp, Rabs_mult, (Rabs_pos_eq (n / 2)) by lra. apply Rmult_le_compat_l; [lra|]. unfold Rminus. eapply Rle_trans; [apply Rabs_triang|]. rewrite Rabs_Ropp. unfold F. rewrite !Rabs_mult, <- !height_H. lra. }
  assert (Q2 : Rabs (- (/ sqrt 2 * u) - / sqrt 2 * v) <= beyond p q A + beyond p q B).
  { unfold Rminus. eapply Rle_trans; [apply Rabs_triang|]. rewrite !Rabs_Ropp, !Rabs_mult, (Rabs_pos_eq (/ sqrt 2)) by lra.
    assert (/ sqrt 2 * Rabs u <= / sqrt 2 * (sqrt 2 * beyond p q B)) by (apply Rmult_le_compat_l; lra). assert (/ sqrt 2 * Rabs v <= / sqrt 2 * (sqrt 2 * beyond p q A)) by (apply Rmult_le_compat_l; lra).
    rewrite <- Rmult_assoc, Rinv_l, Rmult_1_l in * by lra. lra. }
  assert (Q3 := Rabs_triang (- (n / 2 * (F B - F A))) (- (/ sqrt 2 * u) - / sqrt 2 * v)). lra.
Qed.
