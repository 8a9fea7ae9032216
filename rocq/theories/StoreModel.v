(** The attribute dmd_state is a reference to a mutable numpy array. The other files model it as a value; here the references are explicit, so that
    sharing between devices and variables of the user can be expressed. *)
From Coq Require Import Reals ZArith Arith List Bool.
From Coquelicot Require Import Complex.
From Verif Require Import Cx PyBase ProfileModel SlmModel LibModel DmdModel.
Import ListNotations.
Open Scope R_scope.

(** A DMD object: the fields of slm.py:194-203, dmd_state being the number of an array. *)
Record panel := { n_slm : slm; n_p : R; n_theta : R; n_neg : bool; n_ref : nat }.
(** All arrays ever allocated, the DMD objects and the variables of the user that hold arrays. *)
Record store := { arrays : list dstate; panels : nat -> option panel; vars : nat -> option nat }.
Definition set_nat {A} (f : nat -> option A) (k : nat) (a : A) : nat -> option A := fun l => if Nat.eqb l k then Some a else f l.
Fixpoint write (l : list dstate) (n : nat) (a : dstate) : list dstate :=
  match l, n with [], _ => [] | _ :: r, O => a :: r | b :: r, S m => b :: write r m a end.
(** What the methods of a DMD see of the object. *)
Definition seen (st : store) (p : panel) : option dmd :=
  match nth_error (arrays st) (n_ref p) with
  | Some a => Some {| d_slm := n_slm p; d_p := n_p p; d_theta := n_theta p; d_neg := n_neg p; d_state := a |}
  | None => None
  end.
(** self.dmd_state = (a new array): slm.py:198, 207, 211, 219, 370. *)
Definition rebind (st : store) (k : nat) (p : panel) (a : dstate) : store :=
  {| arrays := arrays st ++ [a]; vars := vars st;
     panels := set_nat (panels st) k {| n_slm := n_slm p; n_p := n_p p; n_theta := n_theta p; n_neg := n_neg p; n_ref := length (arrays st) |} |}.
(** self.dmd_state[mask] = ...: slm.py:268, into the array the attribute refers to. *)
Definition overwrite (st : store) (n : nat) (a : dstate) : store := {| arrays := write (arrays st) n a; panels := panels st; vars := vars st |}.

(** slm.py:355-373: the array calculate_dmd_state stores, and 1/eta. *)
Definition computed_pattern (h : heap) (d : dmd) (input target : parg) (m : method) (window : option parg) (kw : kwargs) (u : nat -> nat -> R)
  : res (dstate * xr) :=
  let s := d_slm d in
  let! input := profile_to_tensor_c h s input true in
  let! target := profile_to_tensor_c h s target false in
  let! window := match window with None => Ok None | Some w => let! w := profile_to_tensor_c h s w true in Ok (Some w) end in
  let! (amp, pin, pout, one) := calc_amp_phase input target window in
  let (x, y) := fourier_plane_grid s in
  let! (inp, win) := match m with
                     | MIfta => match k_window kw with
                                | None => Err KeyError
                                | Some w => let! w := profile_to_tensor_c h s w false in Ok (Some input, Some w)
                                end
                     | _ => Ok (raw_tensor (k_input kw), raw_tensor (k_window kw))
                     end in
  let! g := calculate_dmd_grating m (d_neg d) amp pin pout x y (d_p d) (d_theta d) kw inp win u in
  let! st := to_dstate g in
  Ok (st, one).

(** What a user's program does with DMDs and their arrays. *)
Inductive action :=
| ANew (k : nat) (wl fl periodicity theta : R) (Nx Ny : nat) (ps : R) (neg : bool)     (* dmd_k = DMD(...) *)
| AOn (k : nat) | AOff (k : nat)
| AGrating (k : nat) (h : heap) (amp pin pout : parg) (m : method) (kw : kwargs) (u : nat -> nat -> R)
| APatch (k : nat) (h : heap) (ci cj : R) (amp pin pout : parg) (diam : R) (m : method) (kw : kwargs) (u : nat -> nat -> R)
| ACalc (k : nat) (h : heap) (input target : parg) (m : method) (window : option parg) (kw : kwargs) (u : nat -> nat -> R)
| AGet (v k : nat)                                                                     (* v = dmd_k.dmd_state *)
| ACopy (v w : nat)                                                                    (* v = w.copy() *)
| ASet (k v : nat)                                                                     (* dmd_k.dmd_state = v *)
| APoke (v i j : nat) (b : bool).                                                      (* v[i, j] = b *)
(** v[i, j] = b; out of range: IndexError, nothing changes. *)
Definition poke (a : dstate) (i j : nat) (b : bool) : dstate :=
  match a with
  | DBool ny nx f => DBool ny nx (fun p q => if (Nat.eqb p i && Nat.eqb q j)%bool then b else f p q)
  | DFloat ny nx f => DFloat ny nx (fun p q => if (Nat.eqb p i && Nat.eqb q j)%bool then bool_to_xr b else f p q)
  end.
Definition in_range (a : dstate) (i j : nat) : bool := match a with DBool ny nx _ | DFloat ny nx _ => (Nat.ltb i ny && Nat.ltb j nx)%bool end.
Definition on_panel (st : store) (k : nat) (f : panel -> dmd -> store) : store :=
  match panels st k with Some p => match seen st p with Some d => f p d | None => st end | None => st end.
(** Exceptions are caught by the user's program; a name that is not bound leaves everything as it is. *)
Definition act (st : store) (a : action) : store :=
  match a with
  | ANew k wl fl per th Nx Ny ps neg =>                                                (* slm.py:194-203 *)
      let d := dmd_new wl fl per th Nx Ny ps neg in
      rebind st k {| n_slm := d_slm d; n_p := d_p d; n_theta := d_theta d; n_neg := d_neg d; n_ref := 0 |} (d_state d)
  | AOn k => on_panel st k (fun p d => rebind st k p (all_mirrors (d_slm d) true))     (* slm.py:209-211 *)
  | AOff k => on_panel st k (fun p d => rebind st k p (all_mirrors (d_slm d) false))   (* slm.py:205-207 *)
  | AGrating k h amp pin pout m kw u =>                                                (* slm.py:213-221 *)
      on_panel st k (fun p d => match grating_of h d amp pin pout m kw u with Ok a => rebind st k p a | Err _ => st end)
  | APatch k h ci cj amp pin pout diam m kw u =>                                       (* slm.py:230-268 *)
      on_panel st k (fun p d =>
        match grating_of h d amp pin pout m kw u with
        | Ok new =>
            let (ii, jj) := fourier_plane_pixel_grid (d_slm d) in
            let mask := fun i j => circular_mask ci cj diam (tget ii i j) (tget jj i j) in
            match masked_assign (d_state d) new mask (s_Ny (d_slm d)) (s_Nx (d_slm d)) with Some a => overwrite st (n_ref p) a | None => st end
        | Err _ => st
        end)
  | ACalc k h input target m w kw u =>                                                 (* slm.py:324-373 *)
      on_panel st k (fun p d => match computed_pattern h d input target m w kw u with Ok (a, _) => rebind st k p a | Err _ => st end)
  | AGet v k => match panels st k with Some p => {| arrays := arrays st; panels := panels st; vars := set_nat (vars st) v (n_ref p) |} | None => st end
  | ACopy v w =>
      match vars st w with
      | Some n => match nth_error (arrays st) n with
                  | Some a => {| arrays := arrays st ++ [a]; panels := panels st; vars := set_nat (vars st) v (length (arrays st)) |}
                  | None => st
                  end
      | None => st
      end
  | ASet k v =>
      match panels st k, vars st v with
      | Some p, Some n => {| arrays := arrays st; vars := vars st;
          panels := set_nat (panels st) k {| n_slm := n_slm p; n_p := n_p p; n_theta := n_theta p; n_neg := n_neg p; n_ref := n |} |}
      | _, _ => st
      end
  | APoke v i j b =>
      match vars st v with
      | Some n => match nth_error (arrays st) n with
                  | Some a => if in_range a i j then overwrite st n (poke a i j b) else st
                  | None => st
                  end
      | None => st
      end
  end.
Definition acts (st : store) (l : list action) : store := fold_left act l st.
Definition empty_store : store := {| arrays := []; panels := fun _ => None; vars := fun _ => None |}.
