(** Vocabulary for sharing of arrays. *)
From Coq Require Import Reals ZArith Arith List Bool.
From Verif Require Import PyBase ProfileModel SlmModel LibModel DmdModel DmdSpec StoreModel.
Import ListNotations.
Open Scope R_scope.

(** The device behind a name, its pattern, and the pattern a variable of the user refers to. *)
Definition device_of (st : store) (k : nat) : option dmd := match panels st k with Some p => seen st p | None => None end.
Definition shown (st : store) (k : nat) : option dstate := option_map d_state (device_of st k).
Definition held (st : store) (v : nat) : option dstate := match vars st v with Some n => nth_error (arrays st) n | None => None end.
(** The history of one device by itself, its pattern being a value: its creation and the calls of its methods. *)
Definition alone (k : nat) (d : option dmd) (a : action) : option dmd :=
  let call n c := if Nat.eqb n k then option_map (fun d => fst (do_call d c)) d else d in
  match a with
  | ANew n wl fl per th Nx Ny ps neg => if Nat.eqb n k then Some (dmd_new wl fl per th Nx Ny ps neg) else d
  | AOn n => call n COn
  | AOff n => call n COff
  | AGrating n h amp pin pout m kw u => call n (CGrating h amp pin pout m kw u)
  | APatch n h ci cj amp pin pout diam m kw u => call n (CPatch h ci cj amp pin pout diam m kw u)
  | ACalc n h i t m w kw u => call n (CCalc h i t m w kw u)
  | AGet _ _ | ACopy _ _ | ASet _ _ | APoke _ _ _ _ => d
  end.
(** The program stores arrays into devices or writes into arrays itself. *)
Definition tampers (a : action) : bool := match a with ASet _ _ | APoke _ _ _ _ => true | _ => false end.
Definition patches (a : action) : bool := match a with APatch _ _ _ _ _ _ _ _ _ _ _ => true | _ => false end.
(** The variable v is assigned. *)
Definition assigns (v : nat) (a : action) : bool := match a with AGet w _ | ACopy w _ => Nat.eqb w v | _ => false end.
(** Device k gets a new array, or is replaced. *)
Definition renews (k : nat) (a : action) : bool :=
  match a with
  | ANew n _ _ _ _ _ _ _ _ | AOn n | AOff n | AGrating n _ _ _ _ _ _ _ | ACalc n _ _ _ _ _ _ _ | ASet n _ => Nat.eqb n k
  | _ => false
  end.
