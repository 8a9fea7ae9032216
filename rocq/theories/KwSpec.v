(** Vocabulary for calls with keyword arguments. *)
From Coq Require Import Reals ZArith List Bool String.
From Coquelicot Require Import Complex.
From Verif Require Import Cx PyBase ProfileModel SlmModel LibModel DmdModel KwModel.
Import ListNotations.
Open Scope string_scope.

Definition given (n : string) (k : dict) : Prop := exists v, find n k = Some v.
(** The dictionary gives the option n the value o. *)
Definition as_number (k : dict) (n : string) (o : option R) : Prop :=
  match find n k with None => o = None | Some v => exists r, v_real v = Ok r /\ o = Some r end.
Definition as_integer (k : dict) (n : string) (o : option Z) : Prop :=
  match find n k with None => o = None | Some v => exists z, v_int v = Ok z /\ o = Some z end.
Definition as_object (k : dict) (n : string) (o : option parg) : Prop :=
  match find n k with None => o = None | Some v => exists a, v_obj v = Ok a /\ o = Some a end.
Definition carries (k : dict) (kw : kwargs) : Prop :=
  as_number k "r" (k_r kw) /\ as_integer k "N" (k_N kw) /\ as_number k "s" (k_s kw) /\ as_object k "signal_window" (k_window kw) /\
  as_object k "input_profile" (k_input kw).
Definition lcarries (k : dict) (kw : lkwargs) : Prop :=
  as_integer k "N" (lk_N kw) /\ as_object k "signal_window" (lk_window kw) /\ as_number k "mixing_factor" (lk_mix kw).
(** Names of parameters of the methods and of the library functions they call. *)
Definition grating_reserved : list string :=
  ["self"; "amp"; "phase_in"; "phase_out"; "method"; "x"; "y"; "p"; "theta"; "negative_order"].
Definition patch_reserved : list string := "i" :: "j" :: "d" :: grating_reserved.
Definition calc_reserved : list string := "input_profile" :: "target_profile" :: "window" :: grating_reserved.
Definition holo_reserved : list string := ["self"; "input_profile"; "target_amp_profile"; "method"].
Definition none_given (names : list string) (k : dict) : Prop := forall n, In n names -> find n k = None.
(** The options of each method. *)
Definition option_names (m : method) : list string :=
  match m with MRandom => ["r"] | MIfta => ["N"; "s"; "signal_window"; "input_profile"] | _ => [] end.
Definition loption_names (m : lmethod) : list string :=
  match m with MGs => ["N"] | MMraf => ["N"; "signal_window"; "mixing_factor"] | MLUnknown => [] end.
Definition dmd_names : list string := ["i"; "j"; "d"; "input_profile"; "target_profile"; "window"; "r"; "N"; "s"; "signal_window"] ++ grating_reserved.
Definition lcos_names : list string := ["N"; "signal_window"; "mixing_factor"] ++ holo_reserved.
Definition agree (names : list string) (k1 k2 : dict) : Prop := forall n, In n names -> find n k1 = find n k2.
(** The names the user would write. *)
Definition named (s : string) (m : method) : Prop :=
  (s = "ideal" /\ m = MIdeal) \/ (s = "simple" /\ m = MSimple) \/ (s = "random" /\ m = MRandom) \/ (s = "ifta" /\ m = MIfta) \/
  (~ In s ["ideal"; "simple"; "random"; "ifta"] /\ m = MUnknown).
Definition lnamed (s : string) (m : lmethod) : Prop :=
  (s = "gs" /\ m = MGs) \/ (s = "mraf" /\ m = MMraf) \/ (~ In s ["gs"; "mraf"] /\ m = MLUnknown).
(** The object is a string. *)
Definition spells (v : pyval) (s : string) : Prop := v_str v = Some s.
