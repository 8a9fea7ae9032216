(** Calls with keyword arguments: proofs. *)
From Coq Require Import String Reals Lra ZArith Arith List Bool Lia.
From Coquelicot Require Import Complex.
From Verif Require Import Cx PyBase ProfileModel SlmModel LibModel DmdModel KwModel KwSpec.
Import ListNotations.
Open Scope string_scope.

(** *** dictionaries *)
Lemma find_without_same n k : find n (without n k) = None.
Proof.
  induction k as [|[a v] k IH]; [reflexivity|]. unfold without. cbn [filter fst]. destruct (String.eqb_spec a n); cbn [negb]; [exact IH|].
  cbn [find]. rewrite (proj2 (String.eqb_neq a n)) by assumption. exact IH.
Qed.
Lemma find_without n m k : m <> n -> find m (without n k) = find m k.
Proof.
  intros H. induction k as [|[a v] k IH]; [reflexivity|]. unfold without. cbn [filter fst find]. destruct (String.eqb_spec a n) as [->|N]; cbn [negb].
  - rewrite (proj2 (String.eqb_neq n m)) by congruence. exact IH.
  - cbn [find]. destruct (String.eqb a m); [reflexivity|]. exact IH.
Qed.
Lemma without_absent n k : find n k = None -> without n k = k.
Proof.
  induction k as [|[a v] k IH]; [reflexivity|]. unfold without. cbn [filter fst find]. destruct (String.eqb a n) eqn:E; [discriminate|].
  cbn [negb]. intros H. f_equal. exact (IH H).
Qed.
Lemma agree_without names n k1 k2 : agree names k1 k2 -> agree names (without n k1) (without n k2).
Proof.
  intros H m I. destruct (String.eqb_spec m n) as [->|N]; [now rewrite !find_without_same|]. rewrite !find_without by assumption. apply H, I.
Qed.
Lemma clash_agree names params k1 k2 : incl params names -> agree names k1 k2 -> clash params k1 = clash params k2.
Proof.
  intros I H. induction params as [|n ps IH]; [reflexivity|]. cbn [clash existsb]. rewrite (H n) by (apply I; left; reflexivity).
  unfold clash in IH. rewrite IH; [reflexivity|]. intros x Hx. apply I. right. exact Hx.
Qed.
Lemma clash_none params k : none_given params k -> clash params k = false.
Proof.
  intros H. induction params as [|n ps IH]; [reflexivity|]. cbn [clash existsb]. rewrite (H n) by (left; reflexivity). cbn [orb].
  apply IH. intros x Hx. apply H. right. exact Hx.
Qed.
Lemma clash_some params n k : In n params -> given n k -> clash params k = true.
Proof.
  intros I [v H]. unfold clash. apply existsb_exists. exists n. rewrite H. auto.
Qed.

(** *** binding *)
Lemma bind_agree names params : forall pos k1 k2, incl (map fst params) names -> agree names k1 k2 ->
  match bind params pos k1, bind params pos k2 with
  | Ok (a1, r1), Ok (a2, r2) => a1 = a2 /\ agree names r1 r2
  | Err e1, Err e2 => e1 = e2
  | _, _ => False
  end.
Proof.
  induction params as [|[n dv] ps IH]; intros pos k1 k2 I H; cbn [bind].
  - destruct pos; auto.
  - assert (Hn : find n k1 = find n k2) by (apply H, I; left; reflexivity).
    assert (I' : incl (map fst ps) names) by (intros x Hx; apply I; right; exact Hx).
    destruct pos as [|v vs].
    + rewrite Hn. destruct (find n k2) as [v|].
      * specialize (IH [] (without n k1) (without n k2) I' (agree_without _ n _ _ H)).
        destruct (bind ps [] (without n k1)) as [[a1 r1]|], (bind ps [] (without n k2)) as [[a2 r2]|]; cbn [rbind]; try contradiction; auto.
        destruct IH as [-> IH]. auto.
      * destruct dv as [v|]; [|reflexivity]. specialize (IH [] k1 k2 I' H).
        destruct (bind ps [] k1) as [[a1 r1]|], (bind ps [] k2) as [[a2 r2]|]; cbn [rbind]; try contradiction; auto.
        destruct IH as [-> IH]. auto.
    + rewrite Hn. destruct (find n k2); [reflexivity|]. specialize (IH vs k1 k2 I' H).
      destruct (bind ps vs k1) as [[a1 r1]|], (bind ps vs k2) as [[a2 r2]|]; cbn [rbind]; try contradiction; auto.
      destruct IH as [-> IH]. auto.
Qed.
Lemma bind_method_agree names params pos k1 k2 : In "self" names -> incl (map fst params) names -> agree names k1 k2 ->
  match bind_method params pos k1, bind_method params pos k2 with
  | Ok (a1, r1), Ok (a2, r2) => a1 = a2 /\ agree names r1 r2
  | Err e1, Err e2 => e1 = e2
  | _, _ => False
  end.
Proof.
  intros S I H. unfold bind_method. rewrite (H "self" S). destruct (find "self" k2); [reflexivity|]. now apply bind_agree.
Qed.
(** Positional arguments only, none of the names in the dictionary: the dictionary passes through. *)
Lemma bind_positional params : forall pos k, length pos = length params -> none_given (map fst params) k -> bind params pos k = Ok (pos, k).
Proof.
  induction params as [|[n dv] ps IH]; intros [|v vs] k L H; try discriminate; [reflexivity|]. cbn [bind].
  rewrite (H n) by (left; reflexivity). rewrite IH; [reflexivity|now injection L|]. intros x Hx. apply H. right. exact Hx.
Qed.
Lemma bind_too_many params : forall pos k, (length params < length pos)%nat -> bind params pos k = Err TypeError.
Proof.
  induction params as [|[n dv] ps IH]; intros [|v vs] k L; cbn [length] in L; try lia; [reflexivity|]. cbn [bind].
  destruct (find n k); [reflexivity|]. rewrite IH by lia. reflexivity.
Qed.
(** Passing an argument by position or by name. *)
Lemma find_cons_other n m v (k : dict) : m <> n -> find m ((n, v) :: k) = find m k.
Proof. intros H. cbn [find]. rewrite (proj2 (String.eqb_neq n m)) by congruence. reflexivity. Qed.
Lemma bind_absent params n v : forall k, ~ In n (map fst params) -> forall pos, bind params pos ((n, v) :: k) = rmap (fun ar => (fst ar, (n, v) :: snd ar)) (bind params pos k).
Proof.
  induction params as [|[m dv] ps IH]; intros k H pos; cbn [bind map fst In] in *.
  - destruct pos; reflexivity.
  - assert (N : m <> n) by (intros ->; apply H; left; reflexivity). assert (H' : ~ In n (map fst ps)) by (intros X; apply H; right; exact X).
    rewrite find_cons_other by exact N. destruct pos as [|w vs].
    + destruct (find m k) as [w|].
      * unfold without. cbn [filter fst]. rewrite (proj2 (String.eqb_neq n m)) by congruence. cbn [negb]. fold (without m k).
        rewrite IH by exact H'. destruct (bind ps [] (without m k)) as [[a r]|]; reflexivity.
      * destruct dv as [w|]; [|reflexivity]. rewrite IH by exact H'. destruct (bind ps [] k) as [[a r]|]; reflexivity.
    + destruct (find m k); [reflexivity|]. rewrite IH by exact H'. destruct (bind ps vs k) as [[a r]|]; reflexivity.
Qed.
Lemma bind_moves params : forall pos n dv v k, NoDup (map fst params) -> nth_error params (length pos) = Some (n, dv) -> find n k = None ->
  bind params (pos ++ [v]) k = bind params pos ((n, v) :: k).
Proof.
  induction params as [|[m dm] ps IH]; intros pos n dv v k ND E F; [destruct pos; discriminate|].
  apply NoDup_cons_iff in ND. cbn [fst] in ND. destruct ND as [NI ND]. destruct pos as [|w vs]; cbn [length nth_error app] in *.
  - injection E as -> ->. cbn [bind]. rewrite F. cbn [find]. rewrite String.eqb_refl. unfold without. cbn [filter fst].
    rewrite String.eqb_refl. cbn [negb]. fold (without n k). rewrite (without_absent n k F). reflexivity.
  - assert (N : m <> n). { intros ->. apply NI. apply nth_error_In in E. apply (in_map fst) in E. exact E. }
    cbn [bind]. rewrite find_cons_other by exact N. destruct (find m k); [reflexivity|]. rewrite (IH _ _ _ _ _ ND E F). reflexivity.
Qed.
Lemma bind_method_moves params pos n dv v k : NoDup (map fst params) -> nth_error params (length pos) = Some (n, dv) -> find n k = None -> n <> "self" ->
  bind_method params (pos ++ [v]) k = bind_method params pos ((n, v) :: k).
Proof.
  intros ND E F S. unfold bind_method. rewrite find_cons_other by congruence. destruct (find "self" k); [reflexivity|]. now apply (bind_moves _ _ _ dv).
Qed.

(** *** options *)
Lemma get_real_spec k n o : as_number k n o -> get_real k n = Ok o.
Proof. unfold as_number, get_real. destruct (find n k) as [v|]; [|intros ->; reflexivity]. intros (r & -> & ->). reflexivity. Qed.
Lemma get_int_spec k n o : as_integer k n o -> get_int k n = Ok o.
Proof. unfold as_integer, get_int. destruct (find n k) as [v|]; [|intros ->; reflexivity]. intros (r & -> & ->). reflexivity. Qed.
Lemma get_obj_spec k n o : as_object k n o -> get_obj k n = o.
Proof. unfold as_object, get_obj. destruct (find n k) as [v|]; [|intros ->; reflexivity]. intros (r & -> & ->). reflexivity. Qed.
Lemma options_ok m k kw : carries k kw -> exists kw', options m k = Ok kw' /\
  match m with MRandom => k_r kw' = k_r kw | MIfta => k_N kw' = k_N kw /\ k_s kw' = k_s kw /\ k_window kw' = k_window kw /\ k_input kw' = k_input kw | _ => True end.
Proof.
  intros (H1 & H2 & H3 & H4 & H5). destruct m; cbn [options]; try (eexists; split; [reflexivity|exact Logic.I]).
  - rewrite (get_real_spec _ _ _ H1). cbn [rbind]. eexists. split; reflexivity.
  - rewrite (get_int_spec _ _ _ H2), (get_real_spec _ _ _ H3). cbn [rbind]. eexists. split; [reflexivity|].
    cbn [k_N k_s k_window k_input]. rewrite (get_obj_spec _ _ _ H4), (get_obj_spec _ _ _ H5). auto.
Qed.
Lemma options_agree m k1 k2 : agree (option_names m) k1 k2 -> options m k1 = options m k2.
Proof.
  intros H. destruct m; cbn [options option_names] in *; try reflexivity; unfold get_real, get_int, get_obj.
  - rewrite (H "r") by (cbn; auto). reflexivity.
  - rewrite (H "N"), (H "s"), (H "signal_window"), (H "input_profile") by (cbn; auto). reflexivity.
Qed.
Lemma loptions_agree m k1 k2 : agree (loption_names m) k1 k2 -> loptions m k1 = loptions m k2.
Proof.
  intros H. destruct m; cbn [loptions loption_names] in *; try reflexivity; unfold get_real, get_int, get_obj.
  - rewrite (H "N") by (cbn; auto). reflexivity.
  - rewrite (H "N"), (H "signal_window"), (H "mixing_factor") by (cbn; auto). reflexivity.
Qed.
Lemma agree_incl a b k1 k2 : incl a b -> agree b k1 k2 -> agree a k1 k2.
Proof. intros I H n Hn. apply H, I, Hn. Qed.
Lemma none_incl a b k : incl a b -> none_given b k -> none_given a k.
Proof. intros I H n Hn. apply H, I, Hn. Qed.
(** The library function depends on the options of its method only. *)
Lemma grating_options m neg amp pin pout x y p th kw kw' inp win u :
  match m with MRandom => k_r kw' = k_r kw | MIfta => k_N kw' = k_N kw /\ k_s kw' = k_s kw | _ => True end ->
  calculate_dmd_grating m neg amp pin pout x y p th kw' inp win u = calculate_dmd_grating m neg amp pin pout x y p th kw inp win u.
Proof. destruct m; cbn [calculate_dmd_grating]; try reflexivity; [intros ->; reflexivity|intros [-> ->]; reflexivity]. Qed.
Lemma grating_no_arrays m neg amp pin pout x y p th kw inp win inp' win' u : m <> MIfta ->
  calculate_dmd_grating m neg amp pin pout x y p th kw inp win u = calculate_dmd_grating m neg amp pin pout x y p th kw inp' win' u.
Proof. destruct m; cbn [calculate_dmd_grating]; congruence. Qed.

Lemma method_named v s m : spells v s -> named s m -> method_of v = m.
Proof.
  unfold spells, method_of, is_str. intros -> [[-> ->]|[[-> ->]|[[-> ->]|[[-> ->]|[H ->]]]]]; try reflexivity.
  cbn [In] in H. destruct (String.eqb_spec s "ideal"); [subst; tauto|]. destruct (String.eqb_spec s "simple"); [subst; tauto|].
  destruct (String.eqb_spec s "random"); [subst; tauto|]. destruct (String.eqb_spec s "ifta"); [subst; tauto|]. reflexivity.
Qed.
Lemma lmethod_named v s m : spells v s -> lnamed s m -> lmethod_of v = m.
Proof.
  unfold spells, lmethod_of, is_str. intros -> [[-> ->]|[[-> ->]|[H ->]]]; try reflexivity.
  cbn [In] in H. destruct (String.eqb_spec s "gs"); [subst; tauto|]. destruct (String.eqb_spec s "mraf"); [subst; tauto|]. reflexivity.
Qed.
Lemma is_ifta v s : spells v s -> is_str v "ifta" = match method_of v with MIfta => true | _ => false end.
Proof.
  unfold spells, method_of, is_str. intros ->. destruct (String.eqb_spec s "ideal") as [->|]; [reflexivity|]. destruct (String.eqb_spec s "simple") as [->|]; [reflexivity|].
  destruct (String.eqb_spec s "random") as [->|]; [reflexivity|]. destruct (String.eqb s "ifta"); reflexivity.
Qed.
Lemma is_mraf v s : spells v s -> is_str v "mraf" = match lmethod_of v with MMraf => true | _ => false end.
Proof. unfold spells, lmethod_of, is_str. intros ->. destruct (String.eqb_spec s "gs") as [->|]; [reflexivity|]. destruct (String.eqb s "mraf"); reflexivity. Qed.
