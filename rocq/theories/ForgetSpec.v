(** What a device remembers of its past.  Calls on an LCOS modulator, and "same device up to what is displayed". *)
From Coq Require Import Reals List.
From Coquelicot Require Import Complex.
From Verif Require Import Cx PyBase ProfileModel SlmModel LibModel DmdModel DmdSpec.
Import ListNotations.

(** Calls on an LCOS modulator. *)
Inductive lcall := LReset | LHolo (h : heap) (input target : parg) (m : lmethod) (kw : lkwargs) (u : nat -> nat -> R).
Definition do_lcall (l : lcos) (c : lcall) : lcos * res unit :=
  match c with
  | LReset => (reset_slm_state l, Ok tt)
  | LHolo h i t m kw u => calculate_hologram h l i t m kw u
  end.
(** A history: the calls with their outcomes (exceptions are caught by the caller). *)
Fixpoint do_lcalls (l : lcos) (cs : list lcall) : lcos * list (lcall * res unit) :=
  match cs with
  | [] => (l, [])
  | c :: r => let (l1, o) := do_lcall l c in let (l2, os) := do_lcalls l1 r in (l2, (c, o) :: os)
  end.
(** Two DMDs of the same geometry, grating and order, possibly showing different things. *)
Definition same_settings (d1 d2 : dmd) : Prop :=
  d_slm d1 = d_slm d2 /\ d_p d1 = d_p d2 /\ d_theta d1 = d_theta d2 /\ d_neg d1 = d_neg d2.
(** The calls that write every mirror. *)
Definition writes_all (c : call) : Prop :=
  match c with COn | COff | CGrating _ _ _ _ _ _ _ | CCalc _ _ _ _ _ _ _ => True | CPatch _ _ _ _ _ _ _ _ _ _ | CPack => False end.
