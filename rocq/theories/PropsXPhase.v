(** C167: gratings with phase maps that have missing samples. *)
From Coq Require Import Reals Lra ZArith Arith List Bool Lia.
From Verif Require Import Cx PyBase ProfileModel SlmModel LibModel DmdModel SimExamples DmdSpec DmdExamples XAmpModel XAmpSpec XPhaseModel XPhaseSpec XPhaseFacts.
Open Scope R_scope.

(** Compare with the same maps, the missing samples filled in any way: mirrors with both phases are the same, the others are off (NaN for grey levels). *)
Theorem C167_grating : forall d amp pin pout pin' pout' h kw u, filled pin pin' -> filled pout pout' -> forall m d1, m = MIdeal \/ m = MSimple \/ m = MRandom ->
  xset_grating h d amp (AConstR pin') (AConstR pout') m kw u = (d1, Ok tt) ->
  exists st, oset_grating d amp pin pout m kw u = (with_state d st, Ok tt) /\ state_shape st = state_shape (d_state d1) /\ is_bool_state st = is_bool_state (d_state d1) /\
  forall i j, (both pin pout i j -> cell_at st i j = cell_at (d_state d1) i j) /\ (~ both pin pout i j -> cell_at st i j = missing (is_bool_state (d_state d1))).
Proof. exact o_grating. Qed.
Print Assumptions C167_grating.
(** Patches: the same inside the disc, except that method "ideal" on binary mirrors switches the mirrors with missing samples on. *)
Theorem C167_patch : forall d amp pin pout pin' pout' h kw u, filled pin pin' -> filled pout pout' -> forall m ci cj diam d1, m = MIdeal \/ m = MSimple \/ m = MRandom ->
  xcircular_patch h d ci cj amp (AConstR pin') (AConstR pout') diam m kw u = (d1, Ok tt) ->
  exists st, ocircular_patch d ci cj amp pin pout diam m kw u = (with_state d st, Ok tt) /\ state_shape st = state_shape (d_state d) /\ is_bool_state st = is_bool_state (d_state d) /\
  forall i j, in_array d i j ->
    (Rabs diam / 2 <= pixel_distance ci cj i j -> cell_at st i j = cell_at (d_state d) i j) /\
    (pixel_distance ci cj i j < Rabs diam / 2 ->
      (both pin pout i j -> cell_at st i j = cell_at (d_state d1) i j) /\
      (~ both pin pout i j -> cell_at st i j = match m with MIdeal => if is_bool_state (d_state d) then CBool true else CFloat NaN | _ => if is_bool_state (d_state d) then CBool false else CFloat (Fin 0) end)).
Proof. exact o_patch. Qed.
Print Assumptions C167_patch.
(** Missing samples raise no exception and prevent none; after an exception the mirrors are as before. *)
Theorem C167_outcome : forall d amp pin pout pin' pout' h kw u m, filled pin pin' -> filled pout pout' -> m = MIdeal \/ m = MSimple \/ m = MRandom ->
  snd (oset_grating d amp pin pout m kw u) = snd (xset_grating h d amp (AConstR pin') (AConstR pout') m kw u) /\
  forall e, snd (oset_grating d amp pin pout m kw u) = Err e -> fst (oset_grating d amp pin pout m kw u) = d.
Proof. exact o_outcome. Qed.
Print Assumptions C167_outcome.
(** Method "ifta": one missing sample switches all mirrors off. *)
Theorem C167_ifta : forall d amp pin pout kw u F V i0 j0, let ny := s_Ny (d_slm d) in let nx := s_Nx (d_slm d) in fits d amp -> fits d pin -> fits d pout ->
  raw_tensor (k_input kw) = Some (T2 ny nx F) -> raw_tensor (k_window kw) = Some (T2 ny nx V) -> (1 <= dflt (k_N kw) 200)%Z -> (i0 < ny)%nat -> (j0 < nx)%nat -> ~ both pin pout i0 j0 ->
  exists f, oset_grating d amp pin pout MIfta kw u = (with_state d (DBool ny nx f), Ok tt) /\ forall i j, (i < ny)%nat -> (j < nx)%nat -> f i j = false.
Proof. exact o_ifta. Qed.
Print Assumptions C167_ifta.
(** Maps without missing samples: the gratings of C166, and with finite amplitudes those of the other properties, for every method. *)
Theorem C167_complete : forall d amp t1 t2 h kw u m, d_p d <> 0 -> oset_grating d amp (tmap Some t1) (tmap Some t2) m kw u = xset_grating h d amp (AConstR t1) (AConstR t2) m kw u.
Proof. exact o_complete. Qed.
Print Assumptions C167_complete.
(** A 2 x 4 phase map without its second column, on the example DMD. *)
Example C167_case : let pm := T2 2 4 (fun i j => if Nat.eqb j 1 then None else Some (INR i)) in fits ex4 pm /\ filled pm (T2 2 4 (fun i j => INR i)) /\ ~ both pm (T0 (Some 0)) 0 1 /\ both pm (T0 (Some 0)) 1 2 /\
  exists d1, xset_grating ex_heap ex4 (T0 (Fin 1)) (AConstR (T2 2 4 (fun i j => INR i))) (AConstR (T0 0)) MSimple no_kwargs (fun _ _ => 0) = (d1, Ok tt).
Proof. split; [right; reflexivity|exact o_case]. Qed.
