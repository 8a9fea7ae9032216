(** Calls with keyword arguments: the methods. *)
From Coq Require Import String Reals Lra ZArith Arith List Bool Lia.
From Coquelicot Require Import Complex.
From Verif Require Import Cx PyBase ProfileModel SlmModel LibModel DmdModel KwModel KwSpec KwFacts.
Import ListNotations.
Open Scope string_scope.

Ltac in_list := intros ?x ?Hx; cbn in *; tauto.
(** *** agreement with the functions of DmdModel.v *)
Lemma py_grating_is h d A B D v a b c s m k kw u : v_obj A = Ok a -> v_obj B = Ok b -> v_obj D = Ok c -> spells v s -> named s m ->
  none_given grating_reserved k -> carries k kw -> py_grating h d A B D v (Ok tt) k u = grating_of h d a b c m kw u.
Proof.
  intros HA HB HD Hs Hm Hn Hk. unfold py_grating, grating_of, conv_r. rewrite HA, HB, HD, (method_named _ _ _ Hs Hm). cbn [rbind].
  destruct (profile_to_tensor_r h (d_slm d) a true) as [ta|]; [|reflexivity]. destruct (profile_to_tensor_r h (d_slm d) b true) as [tb|]; [|reflexivity].
  destruct (profile_to_tensor_r h (d_slm d) c true) as [tc|]; [|reflexivity]. cbn [rbind].
  destruct (fourier_plane_grid (d_slm d)) as [x y]. rewrite (clash_none lib_grating_params k) by (apply (none_incl _ grating_reserved); [in_list|exact Hn]).
  cbn [rbind]. destruct (options_ok m k kw Hk) as (kw' & -> & P). cbn [rbind].
  assert (E : calculate_dmd_grating m (d_neg d) (tmap Fin ta) tb tc x y (d_p d) (d_theta d) kw' (raw_tensor (k_input kw')) (raw_tensor (k_window kw')) u
            = calculate_dmd_grating m (d_neg d) (tmap Fin ta) tb tc x y (d_p d) (d_theta d) kw (raw_tensor (k_input kw)) (raw_tensor (k_window kw)) u).
  { rewrite (grating_options m _ _ _ _ _ _ _ _ kw kw') by (destruct m; tauto).
    destruct m; try (apply grating_no_arrays; discriminate). destruct P as (_ & _ & -> & ->). reflexivity. }
  rewrite E. reflexivity.
Qed.
Lemma bind_method_positional params pos k : length pos = length params -> none_given ("self" :: map fst params) k -> bind_method params pos k = Ok (pos, k).
Proof.
  intros L H. unfold bind_method. rewrite (H "self") by (left; reflexivity). apply bind_positional; [exact L|]. intros n Hn. apply H. right. exact Hn.
Qed.
Lemma grating_call h d A B D v a b c s m k kw u : v_obj A = Ok a -> v_obj B = Ok b -> v_obj D = Ok c -> spells v s -> named s m ->
  none_given grating_reserved k -> carries k kw -> py_set_dmd_grating_state h d [A; B; D; v] k u = set_dmd_grating_state h d a b c m kw u.
Proof.
  intros HA HB HD Hs Hm Hn Hk. unfold py_set_dmd_grating_state, set_dmd_grating_state.
  rewrite (bind_method_positional sig_grating [A; B; D; v] k eq_refl) by (apply (none_incl _ grating_reserved); [in_list|exact Hn]).
  rewrite (py_grating_is h d A B D v a b c s m k kw u) by assumption. reflexivity.
Qed.
Lemma patch_call h d I J E A B D v ci cj dm a b c s m k kw u : v_num I = Ok ci -> v_num J = Ok cj -> v_num E = Ok dm ->
  v_obj A = Ok a -> v_obj B = Ok b -> v_obj D = Ok c -> spells v s -> named s m ->
  none_given patch_reserved k -> carries k kw -> py_circular_patch h d [I; J; A; B; D; E; v] k u = circular_patch h d ci cj a b c dm m kw u.
Proof.
  intros HI HJ HE HA HB HD Hs Hm Hn Hk. unfold py_circular_patch, circular_patch.
  rewrite (bind_method_positional sig_patch [I; J; A; B; D; E; v] k eq_refl) by (apply (none_incl _ patch_reserved); [in_list|exact Hn]).
  rewrite HI, HJ, HE. cbn [rbind rmap].
  rewrite (py_grating_is h d A B D v a b c s m k kw u); try assumption; [|apply (none_incl _ patch_reserved); [in_list|exact Hn]].
  destruct (grating_of h d a b c m kw u); reflexivity.
Qed.
Lemma calc_call h d I T w v i t win s m k kw u : v_obj I = Ok i -> v_obj T = Ok t ->
  (v_none w = true /\ win = None \/ v_none w = false /\ exists a, v_obj w = Ok a /\ win = Some a) -> spells v s -> named s m ->
  none_given calc_reserved k -> carries k kw -> py_calculate_dmd_state h d [I; T; v; w] k u = calculate_dmd_state h d i t m win kw u.
Proof.
  intros HI HT Hw Hs Hm Hn Hk. unfold py_calculate_dmd_state, calculate_dmd_state.
  rewrite (bind_method_positional sig_calc [I; T; v; w] k eq_refl) by (apply (none_incl _ calc_reserved); [in_list|exact Hn]).
  unfold conv_c. rewrite HI, HT, (is_ifta v s Hs), (method_named _ _ _ Hs Hm). cbn [rbind].
  destruct (profile_to_tensor_c h (d_slm d) i true) as [ti|]; [|reflexivity]. destruct (profile_to_tensor_c h (d_slm d) t false) as [tt0|]; [|reflexivity]. cbn [rbind].
  assert (W : (if v_none w then Ok None else let! w0 := let! a := v_obj w in profile_to_tensor_c h (d_slm d) a true in Ok (Some w0))
            = match win with None => Ok None | Some w0 => let! w1 := profile_to_tensor_c h (d_slm d) w0 true in Ok (Some w1) end).
  { destruct Hw as [[-> ->]|[-> (a & -> & ->)]]; reflexivity. }
  rewrite W. clear W. destruct (match win with None => _ | Some _ => _ end) as [tw|]; [|reflexivity]. cbn [rbind].
  destruct (calc_amp_phase ti tt0 tw) as [[[[amp pin] pout] one]|]; [|reflexivity]. cbn [rbind].
  destruct (fourier_plane_grid (d_slm d)) as [x y].
  assert (C : clash lib_grating_params k = false) by (apply clash_none, (none_incl _ calc_reserved); [in_list|exact Hn]).
  rewrite C. destruct (options_ok m k kw Hk) as (kw' & -> & P). cbn [rbind].
  destruct Hk as (_ & _ & _ & K & _). unfold as_object in K.
  assert (G : forall inp win inp' win', (m = MIfta -> inp = inp' /\ win = win') ->
     calculate_dmd_grating m (d_neg d) amp pin pout x y (d_p d) (d_theta d) kw' inp win u = calculate_dmd_grating m (d_neg d) amp pin pout x y (d_p d) (d_theta d) kw inp' win' u).
  { intros. rewrite (grating_options m _ _ _ _ _ _ _ _ kw kw') by (destruct m; tauto). destruct m; try (apply grating_no_arrays; discriminate). destruct (H eq_refl) as [-> ->]. reflexivity. }
  destruct m; cbn [rbind]; try (rewrite (G _ _ (raw_tensor (k_input kw)) (raw_tensor (k_window kw))) by discriminate; reflexivity).
  destruct (find "signal_window" k) as [sw|].
  - destruct K as (a & -> & ->). cbn [rbind]. destruct (profile_to_tensor_c h (d_slm d) a false) as [ta|]; [|reflexivity]. cbn [rbind option_map fst snd].
    rewrite (G _ _ (Some ti) (Some ta)) by auto. reflexivity.
  - rewrite K. reflexivity.
Qed.
Lemma loptions_ok m k kw : lcarries k kw -> exists kw', loptions m k = Ok kw' /\
  match m with MGs => lk_N kw' = lk_N kw | MMraf => lk_N kw' = lk_N kw /\ lk_mix kw' = lk_mix kw | _ => True end.
Proof.
  intros (H1 & H2 & H3). destruct m; cbn [loptions]; try (eexists; split; [reflexivity|exact Logic.I]).
  - rewrite (get_int_spec _ _ _ H1). cbn [rbind]. eexists. split; reflexivity.
  - rewrite (get_int_spec _ _ _ H1), (get_real_spec _ _ _ H3). cbn [rbind]. eexists. split; [reflexivity|]. auto.
Qed.
Lemma holo_call h l I T v i t s m k kw u : v_obj I = Ok i -> v_obj T = Ok t -> spells v s -> lnamed s m ->
  none_given holo_reserved k -> lcarries k kw -> py_calculate_hologram h l [I; T; v] k u = calculate_hologram h l i t m kw u.
Proof.
  intros HI HT Hs Hm Hn Hk. unfold py_calculate_hologram, calculate_hologram.
  rewrite (bind_method_positional sig_holo [I; T; v] k eq_refl) by (apply (none_incl _ holo_reserved); [in_list|exact Hn]).
  unfold conv_c, conv_r. rewrite HI, HT, (is_mraf v s Hs), (lmethod_named _ _ _ Hs Hm). cbn [rbind].
  destruct (profile_to_tensor_c h (l_slm l) i true) as [ti|]; [|reflexivity]. destruct (profile_to_tensor_r h (l_slm l) t false) as [tt0|]; [|reflexivity]. cbn [rbind].
  assert (C : clash lib_holo_params k = false) by (apply clash_none, (none_incl _ holo_reserved); [in_list|exact Hn]).
  rewrite C. destruct (loptions_ok m k kw Hk) as (kw' & -> & P). cbn [rbind]. destruct Hk as (_ & K & _). unfold as_object in K.
  destruct m; cbn [rbind].
  - cbn [calculate_lcos_hologram]. rewrite P. reflexivity.
  - destruct (find "signal_window" k) as [sw|]; [|rewrite K; reflexivity]. destruct K as (a & -> & ->). cbn [rbind].
    destruct (profile_to_tensor_c h (l_slm l) a false) as [ta|]; [|reflexivity]. cbn [rbind calculate_lcos_hologram].
    destruct P as [-> ->]. reflexivity.
  - reflexivity.
Qed.

(** *** only the known names matter *)
Lemma py_grating_agree h d A B D v bf k1 k2 u : agree (option_names (method_of v) ++ lib_grating_params) k1 k2 ->
  py_grating h d A B D v bf k1 u = py_grating h d A B D v bf k2 u.
Proof.
  intros H. unfold py_grating. rewrite (clash_agree (option_names (method_of v) ++ lib_grating_params) lib_grating_params k1 k2); [|apply incl_appr, incl_refl|exact H].
  rewrite (options_agree _ k1 k2) by (apply (agree_incl _ (option_names (method_of v) ++ lib_grating_params)); [apply incl_appl, incl_refl|exact H]). reflexivity.
Qed.
Lemma all_options m : incl (option_names m ++ lib_grating_params) dmd_names.
Proof. destruct m; in_list. Qed.
Lemma grating_known h d pos k1 k2 u : agree dmd_names k1 k2 -> py_set_dmd_grating_state h d pos k1 u = py_set_dmd_grating_state h d pos k2 u.
Proof.
  intros H. unfold py_set_dmd_grating_state.
  assert (B := bind_method_agree dmd_names sig_grating pos k1 k2 ltac:(cbn; tauto) ltac:(in_list) H).
  destruct (bind_method sig_grating pos k1) as [[a1 r1]|], (bind_method sig_grating pos k2) as [[a2 r2]|]; try contradiction; [|congruence].
  destruct B as [-> B]. do 5 (destruct a2 as [|? a2]; try reflexivity).
  rewrite (py_grating_agree _ _ _ _ _ _ _ r1 r2) by (apply (agree_incl _ dmd_names); [apply all_options|exact B]). reflexivity.
Qed.
Lemma patch_known h d pos k1 k2 u : agree dmd_names k1 k2 -> py_circular_patch h d pos k1 u = py_circular_patch h d pos k2 u.
Proof.
  intros H. unfold py_circular_patch.
  assert (B := bind_method_agree dmd_names sig_patch pos k1 k2 ltac:(cbn; tauto) ltac:(in_list) H).
  destruct (bind_method sig_patch pos k1) as [[a1 r1]|], (bind_method sig_patch pos k2) as [[a2 r2]|]; try contradiction; [|congruence].
  destruct B as [-> B]. do 8 (destruct a2 as [|? a2]; try reflexivity).
  rewrite (py_grating_agree _ _ _ _ _ _ _ r1 r2) by (apply (agree_incl _ dmd_names); [apply all_options|exact B]). reflexivity.
Qed.
Lemma calc_known h d pos k1 k2 u : agree dmd_names k1 k2 -> py_calculate_dmd_state h d pos k1 u = py_calculate_dmd_state h d pos k2 u.
Proof.
  intros H. unfold py_calculate_dmd_state.
  assert (B := bind_method_agree dmd_names sig_calc pos k1 k2 ltac:(cbn; tauto) ltac:(in_list) H).
  destruct (bind_method sig_calc pos k1) as [[a1 r1]|], (bind_method sig_calc pos k2) as [[a2 r2]|]; try contradiction; [|congruence].
  destruct B as [-> B]. do 5 (destruct a2 as [|? a2]; try reflexivity).
  rewrite (B "signal_window") by (cbn; tauto). rewrite (clash_agree dmd_names lib_grating_params r1 r2) by (in_list || exact B).
  rewrite (options_agree _ r1 r2) by (apply (agree_incl _ dmd_names); [destruct (method_of p1); in_list|exact B]). reflexivity.
Qed.
Lemma holo_known h l pos k1 k2 u : agree lcos_names k1 k2 -> py_calculate_hologram h l pos k1 u = py_calculate_hologram h l pos k2 u.
Proof.
  intros H. unfold py_calculate_hologram.
  assert (B := bind_method_agree lcos_names sig_holo pos k1 k2 ltac:(cbn; tauto) ltac:(in_list) H).
  destruct (bind_method sig_holo pos k1) as [[a1 r1]|], (bind_method sig_holo pos k2) as [[a2 r2]|]; try contradiction; [|congruence].
  destruct B as [-> B]. do 4 (destruct a2 as [|? a2]; try reflexivity).
  rewrite (B "signal_window") by (cbn; tauto). rewrite (clash_agree lcos_names lib_holo_params r1 r2) by (in_list || exact B).
  rewrite (loptions_agree _ r1 r2) by (apply (agree_incl _ lcos_names); [destruct (lmethod_of p1); in_list|exact B]). reflexivity.
Qed.
Lemma agree_cons names n v k : ~ In n names -> agree names ((n, v) :: k) k.
Proof. intros H m Hm. apply find_cons_other. intros ->. contradiction. Qed.
(** Order of the keywords. *)
Lemma find_in n v (k : dict) : NoDup (map fst k) -> (find n k = Some v <-> In (n, v) k).
Proof.
  induction k as [|[a w] k IH]; cbn [map fst find In]; [split; [discriminate|tauto]|]. intros ND. apply NoDup_cons_iff in ND. destruct ND as [NI ND].
  destruct (String.eqb_spec a n) as [->|N].
  - split; [intros H; injection H as ->; auto|]. intros [H|H]; [congruence|]. exfalso. apply NI. apply (in_map fst) in H. exact H.
  - rewrite IH by exact ND. split; [auto|]. intros [H|H]; [congruence|exact H].
Qed.
Lemma agree_same names k1 k2 : NoDup (map fst k1) -> NoDup (map fst k2) -> (forall e, In e k1 <-> In e k2) -> agree names k1 k2.
Proof.
  intros N1 N2 H n _. destruct (find n k1) as [v|] eqn:E.
  - symmetry. apply find_in; [exact N2|]. apply H, find_in; assumption.
  - destruct (find n k2) as [v|] eqn:E2; [|reflexivity]. apply find_in in E2; [|exact N2]. apply H in E2. apply find_in in E2; [|exact N1]. congruence.
Qed.
(** One option less per method. *)
Lemma grating_unused h d A B D v k1 k2 u : agree (option_names (method_of v) ++ grating_reserved) k1 k2 -> none_given grating_reserved k2 ->
  py_set_dmd_grating_state h d [A; B; D; v] k1 u = py_set_dmd_grating_state h d [A; B; D; v] k2 u.
Proof.
  intros H N. assert (N1 : none_given grating_reserved k1) by (intros n Hn; rewrite H; [apply N, Hn|apply in_or_app; right; exact Hn]).
  unfold py_set_dmd_grating_state.
  rewrite !(bind_method_positional sig_grating [A; B; D; v] _ eq_refl) by (apply (none_incl _ grating_reserved); [in_list|assumption]).
  rewrite (py_grating_agree _ _ _ _ _ _ _ k1 k2); [reflexivity|]. apply (agree_incl _ (option_names (method_of v) ++ grating_reserved)); [|exact H].
  intros x Hx. apply in_app_or in Hx. apply in_or_app. destruct Hx as [Hx|Hx]; [left; exact Hx|right]. cbn in *. tauto.
Qed.

(** *** TypeError *)
Lemma grating_type_error h d A B D v a b c k n u : v_obj A = Ok a -> v_obj B = Ok b -> v_obj D = Ok c ->
  (exists ta tb tc, profile_to_tensor_r h (d_slm d) a true = Ok ta /\ profile_to_tensor_r h (d_slm d) b true = Ok tb /\ profile_to_tensor_r h (d_slm d) c true = Ok tc) ->
  In n grating_reserved -> given n k -> py_set_dmd_grating_state h d [A; B; D; v] k u = (d, Err TypeError).
Proof.
  intros HA HB HD (ta & tb & tc & Ta & Tb & Tc) Hn Hg. unfold py_set_dmd_grating_state.
  unfold bind_method. destruct (find "self" k) eqn:Fs; [reflexivity|]. unfold sig_grating. cbn [bind].
  destruct (find "amp" k) eqn:F1; [reflexivity|]. destruct (find "phase_in" k) eqn:F2; [reflexivity|]. destruct (find "phase_out" k) eqn:F3; [reflexivity|].
  destruct (find "method" k) eqn:F4; [reflexivity|]. cbn [rbind]. unfold py_grating, conv_r. rewrite HA, HB, HD. cbn [rbind]. rewrite Ta, Tb, Tc. cbn [rbind].
  destruct (fourier_plane_grid (d_slm d)) as [x y]. rewrite (clash_some lib_grating_params n k); [reflexivity| |exact Hg].
  destruct Hg as [w Hg]. destruct Hn as [<-|[<-|[<-|[<-|[<-|Hn]]]]]; [rewrite Hg in Fs|rewrite Hg in F1|rewrite Hg in F2|rewrite Hg in F3|rewrite Hg in F4|]; try discriminate. cbn in *. tauto.
Qed.
Lemma too_many h d l pos k u :
  ((4 < length pos)%nat -> py_set_dmd_grating_state h d pos k u = (d, Err TypeError) /\ py_calculate_dmd_state h d pos k u = (d, Err TypeError)) /\
  ((7 < length pos)%nat -> py_circular_patch h d pos k u = (d, Err TypeError)) /\
  ((3 < length pos)%nat -> py_calculate_hologram h l pos k u = (l, Err TypeError)).
Proof.
  unfold py_set_dmd_grating_state, py_calculate_dmd_state, py_circular_patch, py_calculate_hologram, bind_method.
  destruct (find "self" k); [auto|].
  split; [|split]; intros H; rewrite !bind_too_many by exact H; auto.
Qed.
Lemma given_twice h d l k u n v1 v2 v3 :
  (In n ["input_profile"; "target_profile"; "method"] -> given n k -> py_calculate_dmd_state h d [v1; v2; v3] k u = (d, Err TypeError)) /\
  (In n ["input_profile"; "target_amp_profile"; "method"] -> given n k -> py_calculate_hologram h l [v1; v2; v3] k u = (l, Err TypeError)).
Proof.
  unfold py_calculate_dmd_state, py_calculate_hologram, bind_method, sig_calc, sig_holo. split; intros Hn [w Hg];
    (destruct (find "self" k); [reflexivity|]); cbn [bind].
  - destruct (find "input_profile" k) eqn:F1; [reflexivity|]. destruct (find "target_profile" k) eqn:F2; [reflexivity|].
    destruct (find "method" k) eqn:F3; [reflexivity|]. destruct Hn as [<-|[<-|[<-|[]]]]; [rewrite Hg in F1|rewrite Hg in F2|rewrite Hg in F3]; discriminate.
  - destruct (find "input_profile" k) eqn:F1; [reflexivity|]. destruct (find "target_amp_profile" k) eqn:F2; [reflexivity|].
    destruct (find "method" k) eqn:F3; [reflexivity|]. destruct Hn as [<-|[<-|[<-|[]]]]; [rewrite Hg in F1|rewrite Hg in F2|rewrite Hg in F3]; discriminate.
Qed.
(** *** by position or by name *)
Lemma nodup_sigs : NoDup (map fst sig_grating) /\ NoDup (map fst sig_patch) /\ NoDup (map fst sig_calc) /\ NoDup (map fst sig_holo).
Proof. repeat split; cbn; repeat (constructor; [cbn; intuition discriminate|]); constructor. Qed.
Lemma by_name h d l k u pos v n dv : find n k = None ->
  (nth_error sig_grating (length pos) = Some (n, dv) -> py_set_dmd_grating_state h d (pos ++ [v]) k u = py_set_dmd_grating_state h d pos ((n, v) :: k) u) /\
  (nth_error sig_patch (length pos) = Some (n, dv) -> py_circular_patch h d (pos ++ [v]) k u = py_circular_patch h d pos ((n, v) :: k) u) /\
  (nth_error sig_calc (length pos) = Some (n, dv) -> py_calculate_dmd_state h d (pos ++ [v]) k u = py_calculate_dmd_state h d pos ((n, v) :: k) u) /\
  (nth_error sig_holo (length pos) = Some (n, dv) -> py_calculate_hologram h l (pos ++ [v]) k u = py_calculate_hologram h l pos ((n, v) :: k) u).
Proof.
  intros F. destruct nodup_sigs as (N1 & N2 & N3 & N4).
  assert (S : forall sg, ~ In "self" (map fst sg) -> nth_error sg (length pos) = Some (n, dv) -> n <> "self").
  { intros sg Hs E ->. apply Hs. apply nth_error_In in E. apply (in_map fst) in E. exact E. }
  repeat split; intros E.
  - unfold py_set_dmd_grating_state. rewrite (bind_method_moves _ _ n dv); auto. refine (S _ _ E); cbn; intuition discriminate.
  - unfold py_circular_patch. rewrite (bind_method_moves _ _ n dv); auto. refine (S _ _ E); cbn; intuition discriminate.
  - unfold py_calculate_dmd_state. rewrite (bind_method_moves _ _ n dv); auto. refine (S _ _ E); cbn; intuition discriminate.
  - unfold py_calculate_hologram. rewrite (bind_method_moves _ _ n dv); auto. refine (S _ _ E); cbn; intuition discriminate.
Qed.
(** *** defaults *)
Lemma defaults h d l I T i t u : v_obj I = Ok i -> v_obj T = Ok t ->
  py_set_dmd_grating_state h d [] [] u = set_dmd_grating_state h d (AConstR (T0 1)) (AConstR (T0 0)) (AConstR (T0 0)) MRandom no_kwargs u /\
  py_calculate_dmd_state h d [I; T] [] u = calculate_dmd_state h d i t MRandom None no_kwargs u /\
  py_calculate_hologram h l [I; T] [] u = calculate_hologram h l i t MGs {| lk_N := None; lk_window := None; lk_mix := None |} u.
Proof.
  intros HI HT.
  assert (C : carries [] no_kwargs) by (repeat split). assert (C' : lcarries [] {| lk_N := None; lk_window := None; lk_mix := None |}) by (repeat split).
  assert (N : forall names, none_given names []) by (intros names n _; reflexivity).
  assert (M : named "random" MRandom) by (right; right; left; auto). assert (M' : lnamed "gs" MGs) by (left; auto).
  split; [|split].
  - rewrite <- (grating_call h d (py_int 1) (py_int 0) (py_int 0) (py_string "random") _ _ _ "random" MRandom [] no_kwargs u eq_refl eq_refl eq_refl eq_refl M (N _) C). reflexivity.
  - rewrite <- (calc_call h d I T py_none (py_string "random") i t None "random" MRandom [] no_kwargs u HI HT (or_introl (conj eq_refl eq_refl)) eq_refl M (N _) C). reflexivity.
  - rewrite <- (holo_call h l I T (py_string "gs") i t "gs" MGs [] _ u HI HT eq_refl M' (N _) C'). reflexivity.
Qed.
