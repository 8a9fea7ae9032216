(** set_dmd_grating_state and circular_patch for arrays of any rank (already real tensors; methods "ideal", "simple" and "random"; profile objects
    and conversions of the element type: DmdModel.v). [st] is the array in dmd_state. *)
From Coq Require Import Reals ZArith Arith List Bool.
From Verif Require Import Cx PyBase SlmModel LibModel DmdModel RankModel.
Import ListNotations.
Open Scope R_scope.

(** slm.py:214-221, 253-266. *)
Definition nd_grating_of (d : dmd) (amp pin pout : nd R) (m : method) (r : option R) (u : list nat -> R) : res ndstate :=
  let (x, y) := fourier_plane_grid (d_slm d) in
  nd_calculate_dmd_grating m (d_neg d) (nmap Fin amp) pin pout (nd_of x) (nd_of y) (d_p d) (d_theta d) r u.
Definition nd_set_grating (d : dmd) (st : ndstate) (amp pin pout : nd R) (m : method) (r : option R) (u : list nat -> R) : ndstate * res unit :=
  match nd_grating_of d amp pin pout m r u with Ok g => (g, Ok tt) | Err e => (st, Err e) end.
(** ** Boolean masks with two axes (numpy). *)
(** The True positions of the mask, in C order, and the number of a position among them. *)
Definition positions (ny nx : nat) (mask : nat -> nat -> bool) : list (nat * nat) :=
  filter (fun q => mask (fst q) (snd q)) (list_prod (seq 0 ny) (seq 0 nx)).
Fixpoint number (i j : nat) (l : list (nat * nat)) : nat :=
  match l with [] => O | q :: r => if (Nat.eqb (fst q) i && Nat.eqb (snd q) j)%bool then O else S (number i j r) end.
(** The mask indexes the first two axes, whatever the rank; their sizes must be those of the mask (IndexError).  Shapes and indices are written last
    axis first, so the first two axes are the last two entries. *)
Definition masked_axes (s : list nat) (ny nx : nat) : option (list nat) :=
  match rev s with a :: b :: t => if (Nat.eqb a ny && Nat.eqb b nx)%bool then Some (rev t) else None | _ => None end.
(** a[mask]: one entry, with the remaining axes, for every True position. *)
Definition nd_pick {A} (a : nd A) (ny nx : nat) (mask : nat -> nat -> bool) : res (nd A) :=
  match masked_axes (nsh a) ny nx with
  | None => Err ETensorFlow
  | Some t => let l := positions ny nx mask in
      Ok (Nd (t ++ [length l]) (fun ix => let q := nth (last ix O) l (O, O) in nel a (removelast ix ++ [snd q; fst q])))
  end.
(** May an array of shape v be written into a place of shape s?  Surplus leading axes must have size 1. *)
Fixpoint fits_into (v s : list nat) : bool :=
  match v, s with
  | [], _ => true
  | a :: v', [] => Nat.eqb a 1 && fits_into v' []
  | a :: v', b :: s' => (Nat.eqb a b || Nat.eqb a 1) && fits_into v' s'
  end.
(** a[mask] = v; a mask of the full rank takes one-dimensional values only (numpy: "requires a 0 or 1-dimensional input"). *)
Definition nd_put {A} (a v : nd A) (ny nx : nat) (mask : nat -> nat -> bool) : res (nd A) :=
  match masked_axes (nsh a) ny nx with
  | None => Err ETensorFlow
  | Some t =>
      let l := positions ny nx mask in
      if (match t with [] => Nat.leb (length (nsh v)) 1 | _ => true end) && fits_into (nsh v) (t ++ [length l]) then
        Ok (Nd (nsh a) (fun ix =>
          let i := last ix O in let j := last (removelast ix) O in
          if mask i j then nget v (removelast (removelast ix) ++ [number i j l]) else nel a ix))
      else Err ETensorFlow
  end.
(** slm.py:230-268; the new values are cast to the type of the array written to. *)
Definition nd_circular_patch (d : dmd) (st : ndstate) (ci cj : R) (amp pin pout : nd R) (diam : R) (m : method) (r : option R) (u : list nat -> R)
  : ndstate * res unit :=
  let s := d_slm d in
  match nd_grating_of d amp pin pout m r u with
  | Err e => (st, Err e)
  | Ok new =>
      let (ii, jj) := fourier_plane_pixel_grid s in
      let mask := fun i j => circular_mask ci cj diam (tget ii i j) (tget jj i j) in
      let ny := s_Ny s in let nx := s_Nx s in
      match st with
      | NBool a =>
          let new := match new with NBool t => t | NFloat t => nmap xr_to_bool t end in
          match (let! v := nd_pick new ny nx mask in nd_put a v ny nx mask) with Ok a' => (NBool a', Ok tt) | Err e => (st, Err e) end
      | NFloat a =>
          let new := match new with NBool t => nmap bool_to_xr t | NFloat t => t end in
          match (let! v := nd_pick new ny nx mask in nd_put a v ny nx mask) with Ok a' => (NFloat a', Ok tt) | Err e => (st, Err e) end
      end
  end.
