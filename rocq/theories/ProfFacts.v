(** Proofs about profile expressions (C22-C26). *)
From Coq Require Import Reals Lra Psatz ZArith Arith List Bool Lia.
From Coquelicot Require Import Complex.
From Verif Require Import Cx PyBase ProfileModel ProfSpec.
Import ListNotations.
Open Scope R_scope.

(** ** Heaps *)
Lemma func_agree h h' p : (forall l, In l (locs p) -> h_val h l = h_val h' l) -> same_value h p h' p.
Proof.
  unfold same_value. induction p; cbn [locs func]; intros H x y;
  try reflexivity;
  try (rewrite IHp by assumption; reflexivity);
  try (rewrite IHp1, IHp2 by (intros; apply H, in_or_app; auto); reflexivity);
  try (destruct (Req_EM_T _ _); [reflexivity|]; apply IHp; exact H);
  try (apply IHp; exact H);
  try (unfold getR; rewrite !H by (cbn; tauto); reflexivity).
Qed.
Lemma same_heap_value h h' p : same_heap h h' -> same_value h p h' p.
Proof. intros [_ H]. apply func_agree. auto. Qed.
Lemma alloc_keeps h v : keeps h (fst (h_alloc v h)).
Proof.
  intros q Hq. unfold h_alloc. cbn [fst]. split.
  - intros l Hl. cbn. specialize (Hq l Hl). lia.
  - apply func_agree. intros l Hl. cbn. destruct (Nat.eqb_spec l (h_next h)); [specialize (Hq l Hl); lia|reflexivity].
Qed.
Lemma keeps_refl h : keeps h h. Proof. intros q Hq. split; [exact Hq|]. intros x y. reflexivity. Qed.
Lemma keeps_trans h1 h2 h3 : keeps h1 h2 -> keeps h2 h3 -> keeps h1 h3.
Proof.
  intros A B q Hq. destruct (A q Hq) as [L E]. destruct (B q L) as [L' E']. split; [exact L'|]. intros x y. rewrite E. apply E'.
Qed.

(** ** Arithmetic *)
Lemma RtoC_neq0 r : r <> 0 <-> RtoC r <> RtoC 0.
Proof. split; intros H E; apply H; [injection E; auto|rewrite E; reflexivity]. Qed.
Lemma bin_val_arith o a b : (o = Odiv -> to_c b <> RtoC 0) ->
  exists v, bin_val o a b = Ok v /\ to_c v = arith o (to_c a) (to_c b) /\ is_complex v = (is_complex a || is_complex b)%bool.
Proof.
  intros H. destruct a as [a|a], b as [b|b], o; cbn [bin_val bin_r bin_c to_c] in *; try (eexists; split; [reflexivity|]; split; [cbn [to_c arith]; try reflexivity|reflexivity]);
  try (rewrite ?RtoC_plus, ?RtoC_minus, ?RtoC_mult; reflexivity).
  - destruct (Req_EM_T b 0) as [->|N]; [destruct (H eq_refl); reflexivity|]. eexists. split; [reflexivity|]. split; [|reflexivity]. cbn. apply RtoC_div, N.
  - destruct (C_dec0 b); [destruct (H eq_refl); assumption|]. eexists. split; [reflexivity|]. split; reflexivity.
  - destruct (C_dec0 (RtoC b)); [destruct (H eq_refl); assumption|]. eexists. split; [reflexivity|]. split; reflexivity.
  - destruct (C_dec0 b); [destruct (H eq_refl); assumption|]. eexists. split; [reflexivity|]. split; reflexivity.
Qed.
Lemma gives_bin h o p q x y a ka b kb : gives h p x y a ka -> gives h q x y b kb -> (o = Odiv -> b <> RtoC 0) ->
  gives h (PBin o p q) x y (arith o a b) (ka || kb).
Proof.
  intros (va & Ea & <- & <-) (vb & Eb & <- & <-) Hd. unfold gives. cbn [func]. rewrite Ea, Eb. cbn [rbind]. apply bin_val_arith, Hd.
Qed.
Lemma gives_const h v x y : gives (fst (h_alloc v h)) (PConst (h_next h)) x y (to_c v) (is_complex v).
Proof. exists v. cbn [func h_alloc fst h_val]. rewrite Nat.eqb_refl. auto. Qed.
Lemma keeps_gives h h' p x y a k : keeps h h' -> lives h p -> gives h p x y a k -> gives h' p x y a k.
Proof. intros K L (v & E & Hv). exists v. destruct (K p L) as [_ S]. rewrite <- S. auto. Qed.
Lemma binop_profiles o h p q x y a ka b kb : gives h p x y a ka -> gives h q x y b kb -> (o = Odiv -> b <> RtoC 0) ->
  exists r, p_binop o h p (OProf q) = (h, Ok r) /\ gives h r x y (arith o a b) (ka || kb).
Proof. intros Ha Hb Hd. exists (PBin o p q). split; [reflexivity|]. apply gives_bin; assumption. Qed.
Lemma binop_number o h p q z k : number q = Some (z, k) -> lives h p -> (o = Odiv -> z <> RtoC 0) ->
  exists h' r, p_binop o h p q = (h', Ok r) /\ lives h' r /\ keeps h h' /\
    forall x y a ka, gives h p x y a ka -> gives h' r x y (arith o a z) (ka || k).
Proof.
  intros Hn Hp Hd.
  assert (G : forall v, to_c v = z -> is_complex v = k -> p_binop o h p q = (let (h1, c) := new_const h v in (h1, Ok (PBin o p c))) ->
    exists h' r, p_binop o h p q = (h', Ok r) /\ lives h' r /\ keeps h h' /\ forall x y a ka, gives h p x y a ka -> gives h' r x y (arith o a z) (ka || k)).
  { intros v <- <- ->. unfold new_const. destruct (h_alloc v h) as [h1 l] eqn:E. exists h1, (PBin o p (PConst l)).
    assert (Hh : h1 = fst (h_alloc v h)) by (rewrite E; reflexivity). assert (Hl : l = h_next h) by (unfold h_alloc in E; injection E; auto).
    assert (K : keeps h h1) by (rewrite Hh; apply alloc_keeps).
    split; [reflexivity|]. split; [|split; [exact K|]].
    - intros l' Hl'. cbn [locs] in Hl'. apply in_app_or in Hl'. destruct Hl' as [Hl'|[Hl'|[]]]; [apply (proj1 (K p Hp) l' Hl')|]. subst l' l h1. cbn. lia.
    - intros x y a ka Ha. apply gives_bin; [apply (keeps_gives h); assumption| |exact Hd]. subst l h1. apply gives_const. }
  destruct q as [q|r|w|]; cbn [number] in Hn; try discriminate; injection Hn as <- <-; [apply (G (VR r))|apply (G (VC w))]; reflexivity.
Qed.
Lemma binop_other o h p : p_binop o h p OOther = (h, Err NotImplementedError) /\ p_pow p OOther = Err NotImplementedError.
Proof. split; reflexivity. Qed.
Lemma neg_spec h p : lives h p -> exists h' r, p_neg h p = (h', Ok r) /\ lives h' r /\ keeps h h' /\
  forall x y a k, gives h p x y a k -> gives h' r x y (- a)%C k.
Proof.
  intros Hp. destruct (binop_number Omul h p (OReal (-1)) _ _ eq_refl Hp ltac:(discriminate)) as (h' & r & E & L & K & G).
  exists h', r. split; [exact E|]. split; [exact L|]. split; [exact K|]. intros x y a k Ha. specialize (G x y a k Ha). rewrite orb_false_r in G.
  replace (- a)%C with (arith Omul a (RtoC (-1))); [exact G|]. cbn [arith]. apply C_eq; cbn; lra.
Qed.

(** ** Powers *)
Lemma cexp_plus a b : cexp (a + b)%C = (cexp a * cexp b)%C.
Proof.
  unfold cexp, Cplus, Cmult. cbn [fst snd]. rewrite exp_plus, cos_plus, sin_plus. f_equal; ring.
Qed.
Lemma cexp_0 : cexp (RtoC 0) = RtoC 1.
Proof. unfold cexp. cbn [fst snd RtoC]. rewrite exp_0, cos_0, sin_0. apply C_eq; cbn; lra. Qed.
Lemma cexp_clog z : z <> RtoC 0 -> cexp (clog z) = z.
Proof.
  intros H. unfold clog, cexp. cbn [fst snd]. rewrite exp_ln by (apply Cmod_gt_0, H).
  rewrite (polar z) at 5. unfold cis, RtoC, Cmult. cbn [fst snd]. f_equal; ring.
Qed.
Lemma cexp_nat z n : cexp (RtoC (INR n) * z)%C = cmul_n (cexp z) n.
Proof.
  induction n as [|n IH]; [cbn [INR cmul_n]; rewrite Cmult_0_l; apply cexp_0|].
  rewrite S_INR, RtoC_plus. replace ((RtoC (INR n) + RtoC 1) * z)%C with (z + RtoC (INR n) * z)%C by ring.
  rewrite cexp_plus, IH. reflexivity.
Qed.
Lemma cexp_neg_nat z n : cexp (RtoC (- INR n) * z)%C = (/ cmul_n (cexp z) n)%C.
Proof.
  assert (E : (cexp (RtoC (- INR n) * z)%C * cexp (RtoC (INR n) * z)%C)%C = RtoC 1).
  { rewrite <- cexp_plus. rewrite <- cexp_0. f_equal. rewrite RtoC_opp. ring. }
  rewrite <- cexp_nat. set (u := cexp (RtoC (INR n) * z)%C) in *. assert (N : u <> RtoC 0).
  { intros Hu. rewrite Hu, Cmult_0_r in E. injection E. lra. }
  transitivity (cexp (RtoC (- INR n) * z)%C * u * / u)%C; [field; exact N|]. rewrite E. field. exact N.
Qed.
Lemma cpow_spec z w v : cpow z w = Some v -> (z <> RtoC 0 -> v = cexp (w * clog z)%C) /\ (z = RtoC 0 -> (w = RtoC 0 /\ v = RtoC 1) \/ (0 < fst w /\ v = RtoC 0)).
Proof.
  unfold cpow, clog. destruct (C_dec0 z) as [Hz|Hz].
  - destruct (C_dec0 w) as [Hw|Hw]; [intros E; injection E as <-; split; intros; [contradiction|left; auto]|].
    destruct (Rlt_dec 0 (fst w)); [|discriminate]. intros E; injection E as <-. split; intros; [contradiction|right; auto].
  - intros E; injection E as <-. split; intros; [reflexivity|contradiction].
Qed.
Lemma clog_pos x : 0 < x -> clog (RtoC x) = RtoC (ln x).
Proof. intros H. unfold clog. rewrite Cmod_R, Rabs_pos_eq, carg_pos_real by lra. reflexivity. Qed.
Lemma cmul_n_R r n : cmul_n (RtoC r) n = RtoC (r ^ n).
Proof. induction n as [|n IH]; [reflexivity|]. cbn [cmul_n pow]. rewrite IH, RtoC_mult. reflexivity. Qed.
Lemma rpow_spec x y v : rpow x y = Some v -> (x <> 0 -> RtoC v = cexp (RtoC y * clog (RtoC x))%C) /\ (x = 0 -> (y = 0 /\ v = 1) \/ (0 < y /\ v = 0)).
Proof.
  unfold rpow. destruct (Req_EM_T y 0) as [->|Hy].
  { intros E; injection E as <-. split; intros; [|left; auto]. rewrite Cmult_0_l, cexp_0. reflexivity. }
  destruct (Rlt_dec 0 x) as [Hx|Hx].
  { intros E; injection E as <-. split; intros; [|lra]. rewrite clog_pos by exact Hx. rewrite <- RtoC_mult. unfold cexp, Rpower, RtoC. cbn [fst snd].
    rewrite cos_0, sin_0. f_equal; ring. }
  destruct (Req_EM_T x 0) as [->|Hx0].
  { destruct (Rlt_dec 0 y); [|discriminate]. intros E; injection E as <-. split; intros; [lra|right; auto]. }
  destruct (Req_EM_T y (IZR (Int_part y))) as [Hi|]; [|discriminate]. intros E; injection E as <-. split; intros; [|lra].
  rewrite Hi at 2. set (z := Int_part y). assert (Hc : cexp (clog (RtoC x)) = RtoC x) by (apply cexp_clog; rewrite <- RtoC_neq0; exact Hx0).
  destruct z as [|q|q]; cbn [powerRZ].
  - rewrite Cmult_0_l, cexp_0. reflexivity.
  - rewrite <- INR_IPR || idtac. replace (IZR (Z.pos q)) with (INR (Pos.to_nat q)) by (rewrite INR_IZR_INZ, positive_nat_Z; reflexivity).
    rewrite cexp_nat, Hc, cmul_n_R. reflexivity.
  - replace (IZR (Z.neg q)) with (- INR (Pos.to_nat q)) by (rewrite INR_IZR_INZ, positive_nat_Z, <- opp_IZR; reflexivity).
    rewrite cexp_neg_nat, Hc, cmul_n_R, RtoC_inv; [reflexivity|]. apply pow_nonzero, Hx0.
Qed.
Lemma pow_val_spec a b v : pow_val a b = Ok v -> pow_result (to_c a) (to_c b) (to_c v) /\ is_complex v = (is_complex a || is_complex b)%bool.
Proof.
  unfold pow_result. destruct a as [a|a], b as [b|b]; cbn [pow_val to_c is_complex orb].
  - destruct (rpow a b) as [r|] eqn:E; [|discriminate]. intros H; injection H as <-. destruct (rpow_spec _ _ _ E) as [A B]. cbn [to_c is_complex]. split; [split|reflexivity].
    + rewrite <- RtoC_neq0. exact A.
    + intros H. injection H as H. destruct (B H) as [[-> ->]|[P ->]]; [left|right]; split; auto.
  - destruct (cpow (RtoC a) b) as [r|] eqn:E; [|discriminate]. intros H; injection H as <-. split; [exact (cpow_spec _ _ _ E)|reflexivity].
  - destruct (cpow a (RtoC b)) as [r|] eqn:E; [|discriminate]. intros H; injection H as <-. split; [exact (cpow_spec _ _ _ E)|reflexivity].
  - destruct (cpow a b) as [r|] eqn:E; [|discriminate]. intros H; injection H as <-. split; [exact (cpow_spec _ _ _ E)|reflexivity].
Qed.
(** Nonnegative integer powers are always defined. *)
Lemma cpow_nat z n : cpow z (RtoC (INR n)) = Some (cmul_n z n).
Proof.
  unfold cpow. destruct (C_dec0 z) as [->|Hz].
  - destruct n as [|n].
    + destruct (C_dec0 (RtoC (INR 0))); [reflexivity|]. destruct n; reflexivity.
    + destruct (C_dec0 _) as [E|_]; [apply RtoC_inj in E; assert (P := lt_0_INR (S n) ltac:(lia)); lra|]. cbn [RtoC fst].
      destruct (Rlt_dec _ _) as [_|E]; [|destruct E; apply lt_0_INR; lia]. f_equal. cbn [cmul_n]. rewrite Cmult_0_l. reflexivity.
  - f_equal. change (ln (Cmod z), carg z) with (clog z). rewrite cexp_nat, cexp_clog by exact Hz. reflexivity.
Qed.
Lemma rpow_nat x n : rpow x (INR n) = Some (x ^ n).
Proof.
  unfold rpow. destruct (Req_EM_T (INR n) 0) as [E|E].
  { apply (INR_eq n 0) in E. subst n. reflexivity. }
  assert (0 < INR n) by (assert (P := pos_INR n); lra). destruct (Rlt_dec 0 x); [rewrite Rpower_pow by assumption; reflexivity|].
  destruct (Req_EM_T x 0) as [->|].
  - destruct (Rlt_dec 0 (INR n)); [|contradiction]. rewrite pow_i; [reflexivity|]. destruct n; [cbn in E; lra|lia].
  - replace (Int_part (INR n)) with (Z.of_nat n).
    + destruct (Req_EM_T _ _) as [_|F]; [rewrite <- pow_powerRZ; reflexivity|destruct F; apply INR_IZR_INZ].
    + rewrite INR_IZR_INZ. unfold Int_part. rewrite <- (tech_up (IZR (Z.of_nat n)) (Z.of_nat n + 1)); [lia| |]; rewrite plus_IZR; lra.
Qed.
Lemma pow_profiles h p q x y a ka b kb z k : gives h p x y a ka -> gives h q x y b kb -> gives h (PPow p q) x y z k -> pow_result a b z /\ k = (ka || kb)%bool.
Proof.
  intros (va & Ea & <- & <-) (vb & Eb & <- & <-) (v & E & <- & <-). cbn [func] in E. rewrite Ea, Eb in E. cbn [rbind] in E. apply pow_val_spec, E.
Qed.
Lemma pow_number h p q w kw r x y a ka z k : number q = Some (w, kw) -> p_pow p q = Ok r -> gives h p x y a ka -> gives h r x y z k -> pow_result a w z /\ k = (ka || kw)%bool.
Proof.
  intros Hn Hr (va & Ea & <- & <-) (v & E & <- & <-). destruct q as [q|c|c|]; cbn [number] in Hn; try discriminate; injection Hn as <- <-; injection Hr as <-; cbn [func] in E; rewrite Ea in E; cbn [rbind] in E.
  - apply pow_val_spec in E. exact E.
  - destruct (cpow (to_c va) c) as [u|] eqn:F; [|discriminate]. injection E as <-. split; [exact (cpow_spec _ _ _ F)|]. symmetry. apply orb_true_r.
Qed.
Lemma pow_integer h p x y a ka n : gives h p x y a ka -> exists r, p_pow p (OReal (INR n)) = Ok r /\ gives h r x y (cmul_n a n) ka.
Proof.
  intros (va & Ea & <- & <-). exists (PPowR p (INR n)). split; [reflexivity|]. unfold gives. cbn [func]. rewrite Ea. cbn [rbind].
  destruct va as [a|a]; cbn [pow_val to_c is_complex].
  - rewrite rpow_nat. eexists. split; [reflexivity|]. split; [|reflexivity]. cbn [to_c]. rewrite cmul_n_R. reflexivity.
  - rewrite cpow_nat. eexists. split; [reflexivity|]. split; reflexivity.
Qed.

(** ** Element types and errors *)
Lemma kind_of h p : forall x y v, func h p x y = Ok v -> is_complex v = complex_leaf h p.
Proof.
  induction p; cbn [func complex_leaf]; intros x y v H.
  - discriminate.
  - injection H as <-. reflexivity.
  - destruct (Req_EM_T _ _); [discriminate|]. injection H as <-. reflexivity.
  - destruct (Req_EM_T _ _); [discriminate|]. injection H as <-. reflexivity.
  - destruct (Req_EM_T _ _); [discriminate|]. destruct (sg_value _ _ _ _ _ _ _); [|discriminate]. injection H as <-. reflexivity.
  - destruct (Req_EM_T _ _); [discriminate|]. injection H as <-. reflexivity.
  - injection H as <-. reflexivity.
  - injection H as <-. reflexivity.
  - destruct (func h p1 x y) as [a|] eqn:E1; [|discriminate]. destruct (func h p2 x y) as [b|] eqn:E2; [|discriminate]. cbn [rbind] in H.
    rewrite <- (IHp1 _ _ _ E1), <- (IHp2 _ _ _ E2). destruct a, b, o; cbn [bin_val bin_r bin_c] in H; try (injection H as <-; reflexivity);
      try (destruct (Req_EM_T _ _); [discriminate|injection H as <-; reflexivity]); destruct (C_dec0 _); try discriminate; injection H as <-; reflexivity.
  - destruct (func h p1 x y) as [a|] eqn:E1; [|discriminate]. destruct (func h p2 x y) as [b|] eqn:E2; [|discriminate]. cbn [rbind] in H.
    rewrite <- (IHp1 _ _ _ E1), <- (IHp2 _ _ _ E2). apply pow_val_spec, H.
  - destruct (func h p x y) as [a|] eqn:E1; [|discriminate]. cbn [rbind] in H. rewrite <- (IHp _ _ _ E1). apply pow_val_spec in H. destruct H as [_ ->]. cbn. apply orb_false_r.
  - destruct (func h p x y) as [a|] eqn:E1; [|discriminate]. cbn [rbind] in H. destruct (cpow _ _); [|discriminate]. injection H as <-. reflexivity.
  - exact (IHp _ _ _ H).
  - exact (IHp _ _ _ H).
  - destruct (Req_EM_T m 0); [discriminate|]. exact (IHp _ _ _ H).
  - destruct (Req_EM_T m 0); [discriminate|]. exact (IHp _ _ _ H).
  - destruct (func h p x y) as [a|] eqn:E1; [|discriminate]. cbn [rbind] in H. injection H as <-. reflexivity.
Qed.
Lemma bin_err o a b e : bin_val o a b = Err e -> e = EUnmodelled.
Proof. destruct a, b, o; cbn [bin_val bin_r bin_c]; try discriminate; try (destruct (Req_EM_T _ _)); try (destruct (C_dec0 _)); congruence. Qed.
Lemma pow_err a b e : pow_val a b = Err e -> e = EUnmodelled.
Proof. destruct a, b; cbn [pow_val]; try (destruct (rpow _ _)); try (destruct (cpow _ _)); cbn; congruence. Qed.
Lemma errors_of h p : forall x y e, func h p x y = Err e -> e = EUnmodelled \/ (e = NotImplementedError /\ has_base p = true).
Proof.
  induction p; cbn [func has_base]; intros x y e H.
  - injection H as <-. auto.
  - discriminate.
  - destruct (Req_EM_T _ _); [injection H as <-; auto|discriminate].
  - destruct (Req_EM_T _ _); [injection H as <-; auto|discriminate].
  - destruct (Req_EM_T _ _); [injection H as <-; auto|]. destruct (sg_value _ _ _ _ _ _ _); [discriminate|injection H as <-; auto].
  - destruct (Req_EM_T _ _); [injection H as <-; auto|discriminate].
  - discriminate.
  - discriminate.
  - destruct (func h p1 x y) as [a|] eqn:E1; cbn [rbind] in H; [|injection H as <-; destruct (IHp1 _ _ _ E1) as [|[? ->]]; auto].
    destruct (func h p2 x y) as [b|] eqn:E2; cbn [rbind] in H; [|injection H as <-; destruct (IHp2 _ _ _ E2) as [|[? ->]]; rewrite ?orb_true_r; auto].
    left. exact (bin_err _ _ _ _ H).
  - destruct (func h p1 x y) as [a|] eqn:E1; cbn [rbind] in H; [|injection H as <-; destruct (IHp1 _ _ _ E1) as [|[? ->]]; auto].
    destruct (func h p2 x y) as [b|] eqn:E2; cbn [rbind] in H; [|injection H as <-; destruct (IHp2 _ _ _ E2) as [|[? ->]]; rewrite ?orb_true_r; auto].
    left. exact (pow_err _ _ _ H).
  - destruct (func h p x y) as [a|] eqn:E1; cbn [rbind] in H; [|injection H as <-; exact (IHp _ _ _ E1)]. left. exact (pow_err _ _ _ H).
  - destruct (func h p x y) as [a|] eqn:E1; cbn [rbind] in H; [|injection H as <-; exact (IHp _ _ _ E1)]. destruct (cpow _ _); [discriminate|]. injection H as <-. auto.
  - exact (IHp _ _ _ H).
  - exact (IHp _ _ _ H).
  - destruct (Req_EM_T m 0); [injection H as <-; auto|]. exact (IHp _ _ _ H).
  - destruct (Req_EM_T m 0); [injection H as <-; auto|]. exact (IHp _ _ _ H).
  - destruct (func h p x y) as [a|] eqn:E1; cbn [rbind] in H; [discriminate|]. injection H as <-. exact (IHp _ _ _ E1).
Qed.
Lemma regular_defined h p : regular h p -> forall x y, exists v, func h p x y = Ok v.
Proof.
  induction p; cbn [regular func]; intros H x y; try contradiction; eauto.
  - destruct (Req_EM_T _ _); [contradiction|]. eauto.
  - destruct (Req_EM_T _ _); [contradiction|]. eauto.
  - destruct H as [Hw Hq]. destruct (Req_EM_T _ _); [contradiction|]. unfold sg_value, rpow. 
    destruct (Req_EM_T (getR h p) 0); [eexists; reflexivity|]. destruct (Rlt_dec 0 _); [eexists; reflexivity|].
    destruct (Req_EM_T _ 0); [destruct (Rlt_dec 0 _); [eexists; reflexivity|contradiction]|].
    exfalso. match goal with H1 : ~ 0 < ?u, H2 : ?u <> 0 |- _ => assert (0 <= u) by (apply Rplus_le_le_0_compat; apply pow2_ge_0); lra end.
  - destruct (Req_EM_T _ _); [contradiction|]. eauto.
  - destruct H as (Ho & H1 & H2). destruct (IHp1 H1 x y) as (a & ->), (IHp2 H2 x y) as (b & ->). cbn [rbind].
    destruct (bin_val_arith o a b ltac:(intros; contradiction)) as (v & E & _). eauto.
  - destruct H as [Hm H]. destruct (Req_EM_T _ _); [contradiction|]. auto.
  - destruct H as [Hm H]. destruct (Req_EM_T _ _); [contradiction|]. auto.
  - destruct (IHp H x y) as (a & ->). cbn [rbind]. eauto.
Qed.
