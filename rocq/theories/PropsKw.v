(** C149: how the methods take their arguments.  C150: unknown options. *)
From Coq Require Import String Reals Lra ZArith Arith List Bool Lia.
From Coquelicot Require Import Complex.
From Verif Require Import Cx PyBase ProfileModel SlmModel LibModel DmdModel SimExamples KwModel KwSpec KwFacts KwFacts2.
Import ListNotations.
Open Scope string_scope.
Open Scope R_scope.

(** ** C149 *)
(** With all parameters given and no option of a parameter's name, the call is the function of DmdModel.v with the options the dictionary carries. *)
Theorem C149_set_dmd_grating_state : forall h d A B D v a b c s m k kw u, v_obj A = Ok a -> v_obj B = Ok b -> v_obj D = Ok c -> spells v s -> named s m ->
  none_given grating_reserved k -> carries k kw -> py_set_dmd_grating_state h d [A; B; D; v] k u = set_dmd_grating_state h d a b c m kw u.
Proof. exact grating_call. Qed.
Print Assumptions C149_set_dmd_grating_state.
Theorem C149_circular_patch : forall h d I J E A B D v ci cj dm a b c s m k kw u, v_num I = Ok ci -> v_num J = Ok cj -> v_num E = Ok dm ->
  v_obj A = Ok a -> v_obj B = Ok b -> v_obj D = Ok c -> spells v s -> named s m ->
  none_given patch_reserved k -> carries k kw -> py_circular_patch h d [I; J; A; B; D; E; v] k u = circular_patch h d ci cj a b c dm m kw u.
Proof. exact patch_call. Qed.
Print Assumptions C149_circular_patch.
Theorem C149_calculate_dmd_state : forall h d I T w v i t win s m k kw u, v_obj I = Ok i -> v_obj T = Ok t ->
  (v_none w = true /\ win = None \/ v_none w = false /\ exists a, v_obj w = Ok a /\ win = Some a) -> spells v s -> named s m ->
  none_given calc_reserved k -> carries k kw -> py_calculate_dmd_state h d [I; T; v; w] k u = calculate_dmd_state h d i t m win kw u.
Proof. exact calc_call. Qed.
Print Assumptions C149_calculate_dmd_state.
Theorem C149_calculate_hologram : forall h l I T v i t s m k kw u, v_obj I = Ok i -> v_obj T = Ok t -> spells v s -> lnamed s m ->
  none_given holo_reserved k -> lcarries k kw -> py_calculate_hologram h l [I; T; v] k u = calculate_hologram h l i t m kw u.
Proof. exact holo_call. Qed.
Print Assumptions C149_calculate_hologram.
(** An argument may be given by position or by name. *)
Theorem C149_by_name : forall h d l k u pos v n dv, find n k = None ->
  (nth_error sig_grating (length pos) = Some (n, dv) -> py_set_dmd_grating_state h d (pos ++ [v]) k u = py_set_dmd_grating_state h d pos ((n, v) :: k) u) /\
  (nth_error sig_patch (length pos) = Some (n, dv) -> py_circular_patch h d (pos ++ [v]) k u = py_circular_patch h d pos ((n, v) :: k) u) /\
  (nth_error sig_calc (length pos) = Some (n, dv) -> py_calculate_dmd_state h d (pos ++ [v]) k u = py_calculate_dmd_state h d pos ((n, v) :: k) u) /\
  (nth_error sig_holo (length pos) = Some (n, dv) -> py_calculate_hologram h l (pos ++ [v]) k u = py_calculate_hologram h l pos ((n, v) :: k) u).
Proof. exact by_name. Qed.
Print Assumptions C149_by_name.
(** The order of the keyword arguments does not matter. *)
Theorem C149_order : forall h d l pos k1 k2 u, NoDup (map fst k1) -> NoDup (map fst k2) -> (forall e, In e k1 <-> In e k2) ->
  py_set_dmd_grating_state h d pos k1 u = py_set_dmd_grating_state h d pos k2 u /\ py_circular_patch h d pos k1 u = py_circular_patch h d pos k2 u /\
  py_calculate_dmd_state h d pos k1 u = py_calculate_dmd_state h d pos k2 u /\ py_calculate_hologram h l pos k1 u = py_calculate_hologram h l pos k2 u.
Proof.
  intros h d l pos k1 k2 u N1 N2 H. split; [|split; [|split]];
    [apply grating_known|apply patch_known|apply calc_known|apply holo_known]; apply agree_same; assumption.
Qed.
Print Assumptions C149_order.
(** Options of other methods have no effect. *)
Theorem C149_unused : forall h d A B D v k1 k2 u, agree (option_names (method_of v) ++ grating_reserved) k1 k2 -> none_given grating_reserved k2 ->
  py_set_dmd_grating_state h d [A; B; D; v] k1 u = py_set_dmd_grating_state h d [A; B; D; v] k2 u.
Proof. exact grating_unused. Qed.
Print Assumptions C149_unused.
(** Too many arguments, an argument given twice, and an option named like a parameter of the library function raise TypeError and change nothing. *)
Theorem C149_too_many : forall h d l pos k u,
  ((4 < length pos)%nat -> py_set_dmd_grating_state h d pos k u = (d, Err TypeError) /\ py_calculate_dmd_state h d pos k u = (d, Err TypeError)) /\
  ((7 < length pos)%nat -> py_circular_patch h d pos k u = (d, Err TypeError)) /\
  ((3 < length pos)%nat -> py_calculate_hologram h l pos k u = (l, Err TypeError)).
Proof. exact too_many. Qed.
Print Assumptions C149_too_many.
Theorem C149_given_twice : forall h d l k u n v1 v2 v3,
  (In n ["input_profile"; "target_profile"; "method"] -> given n k -> py_calculate_dmd_state h d [v1; v2; v3] k u = (d, Err TypeError)) /\
  (In n ["input_profile"; "target_amp_profile"; "method"] -> given n k -> py_calculate_hologram h l [v1; v2; v3] k u = (l, Err TypeError)).
Proof. exact given_twice. Qed.
Print Assumptions C149_given_twice.
Theorem C149_reserved : forall h d A B D v a b c k n u, v_obj A = Ok a -> v_obj B = Ok b -> v_obj D = Ok c ->
  (exists ta tb tc, profile_to_tensor_r h (d_slm d) a true = Ok ta /\ profile_to_tensor_r h (d_slm d) b true = Ok tb /\ profile_to_tensor_r h (d_slm d) c true = Ok tc) ->
  In n grating_reserved -> given n k -> py_set_dmd_grating_state h d [A; B; D; v] k u = (d, Err TypeError).
Proof. exact grating_type_error. Qed.
Print Assumptions C149_reserved.
(** The defaults. *)
Theorem C149_defaults : forall h d l I T i t u, v_obj I = Ok i -> v_obj T = Ok t ->
  py_set_dmd_grating_state h d [] [] u = set_dmd_grating_state h d (AConstR (T0 1)) (AConstR (T0 0)) (AConstR (T0 0)) MRandom no_kwargs u /\
  py_calculate_dmd_state h d [I; T] [] u = calculate_dmd_state h d i t MRandom None no_kwargs u /\
  py_calculate_hologram h l [I; T] [] u = calculate_hologram h l i t MGs {| lk_N := None; lk_window := None; lk_mix := None |} u.
Proof. exact defaults. Qed.
Print Assumptions C149_defaults.
(** calculate_dmd_state(input, target, "ifta", N=3, signal_window=input): the hypotheses hold. *)
Definition a_field : pyval :=
  {| v_none := false; v_str := None; v_num := Err TypeError; v_int := Err TypeError; v_real := Err TypeError; v_obj := Ok ex_input |}.
Definition a_dict : dict := [("N", py_int 3); ("signal_window", a_field)].
Example C149_case : spells (py_string "ifta") "ifta" /\ named "ifta" MIfta /\ none_given calc_reserved a_dict /\ none_given grating_reserved a_dict /\
  carries a_dict {| k_r := None; k_N := Some 3%Z; k_s := None; k_window := Some ex_input; k_input := None |} /\ NoDup (map fst a_dict) /\
  py_calculate_dmd_state ex_heap ex_dmd [a_field; a_field] (("method", py_string "ifta") :: a_dict) (fun _ _ => 0) =
  calculate_dmd_state ex_heap ex_dmd ex_input ex_input MIfta None {| k_r := None; k_N := Some 3%Z; k_s := None; k_window := Some ex_input; k_input := None |} (fun _ _ => 0).
Proof.
  assert (N : none_given calc_reserved a_dict). { intros n Hn. cbn in Hn. repeat (destruct Hn as [<-|Hn]; [reflexivity|]). contradiction. }
  assert (K : carries a_dict {| k_r := None; k_N := Some 3%Z; k_s := None; k_window := Some ex_input; k_input := None |}).
  { split; [reflexivity|]. split; [exists 3%Z; split; reflexivity|]. split; [reflexivity|]. split; [exists ex_input; split; reflexivity|reflexivity]. }
  assert (M : named "ifta" MIfta) by (right; right; right; left; split; reflexivity).
  split; [reflexivity|]. split; [exact M|]. split; [exact N|]. split; [intros n Hn; apply N; cbn in *; tauto|]. split; [exact K|]. split.
  - cbn. repeat (constructor; [cbn; intuition discriminate|]). constructor.
  - rewrite <- (calc_call ex_heap ex_dmd a_field a_field py_none (py_string "ifta") ex_input ex_input None "ifta" MIfta a_dict _ (fun _ _ => 0) eq_refl eq_refl (or_introl (conj eq_refl eq_refl)) eq_refl M N K).
    reflexivity.
Qed.

(** ** C150 *)
(** An option that no method has is ignored in silence: whatever its value, the call does what it does without. *)
Theorem C150_unknown_option_ignored : forall h d l pos k n v u,
  (~ In n dmd_names -> py_set_dmd_grating_state h d pos ((n, v) :: k) u = py_set_dmd_grating_state h d pos k u /\
     py_circular_patch h d pos ((n, v) :: k) u = py_circular_patch h d pos k u /\ py_calculate_dmd_state h d pos ((n, v) :: k) u = py_calculate_dmd_state h d pos k u) /\
  (~ In n lcos_names -> py_calculate_hologram h l pos ((n, v) :: k) u = py_calculate_hologram h l pos k u).
Proof.
  intros. split; intros H; [split; [|split]|]; [apply grating_known|apply patch_known|apply calc_known|apply holo_known]; apply agree_cons; exact H.
Qed.
Print Assumptions C150_unknown_option_ignored.
(** calculate_hologram(input, target, n=5): "n" for "N" is accepted, and the default of 200 iterations is run. *)
Theorem C150_refuted : exists h l pos n v u l', ~ In n lcos_names /\ py_calculate_hologram h l pos [(n, v)] u = (l', Ok tt) /\
  py_calculate_hologram h l pos [] u = (l', Ok tt).
Proof.
  set (l := lcos_new (d_slm ex_dmd)). destruct (py_calculate_hologram ex_heap l [a_field; a_field] [] (fun _ _ => 0)) as [l' o] eqn:E.
  assert (o = Ok tt) as -> by (injection E; intros <- _; reflexivity).
  exists ex_heap, l, [a_field; a_field], "n", (py_int 5), (fun _ _ => 0), l'.
  assert (N : ~ In "n" lcos_names) by (cbn; intuition discriminate). split; [exact N|].
  rewrite (proj2 (C150_unknown_option_ignored ex_heap ex_dmd l [a_field; a_field] [] "n" (py_int 5) (fun _ _ => 0)) N). auto.
Qed.
Print Assumptions C150_refuted.
