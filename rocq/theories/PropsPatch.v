(** Sequences of circular patches (C130). *)
From Coq Require Import Reals ZArith Arith List Bool Permutation.
From Coquelicot Require Import Complex.
From Verif Require Import Cx Sums PyBase ProfileModel SlmModel LibModel DmdModel SimModel SimSpec SimExamples DmdSpec DmdExamples PatchSpec PatchFacts.
Import ListNotations.
Open Scope R_scope.

(** After any sequence of patches, whatever raised, every mirror shows the last successful patch that covers it, or what it showed before. Every patch raises or not as if it were alone. *)
Theorem C130_last_patch_wins : forall d ps d' l, do_calls d (map lay ps) = (d', l) ->
  d' = with_state d (d_state d') /\ state_shape (d_state d') = state_shape (d_state d) /\ is_bool_state (d_state d') = is_bool_state (d_state d) /\
  map snd l = map (fun p => snd (do_call d (lay p))) ps /\
  forall i j o, in_array d i j -> topmost (laid ps (map snd l)) i j o ->
    match o with None => cell_at (d_state d') i j = cell_at (d_state d) i j
    | Some p => exists c, full_frame d p i j c /\ cell_at (d_state d') i j = cell_as (is_bool_state (d_state d)) c end.
Proof. exact patches. Qed.
Print Assumptions C130_last_patch_wins.
(** There always is an answer. *)
Theorem C130_topmost_exists : forall ps i j, exists o, topmost ps i j o.
Proof. exact topmost_exists. Qed.
Print Assumptions C130_topmost_exists.
(** Patches whose circles do not overlap can be laid in any order. *)
Theorem C130_any_order : forall d ps qs d1 l1 d2 l2, state_shape (d_state d) = (s_Ny (d_slm d), s_Nx (d_slm d)) -> ForallOrdPairs apart ps -> Permutation ps qs ->
  do_calls d (map lay ps) = (d1, l1) -> do_calls d (map lay qs) = (d2, l2) -> same_state (d_state d1) (d_state d2).
Proof. exact any_order. Qed.
Print Assumptions C130_any_order.
(** A patch that is covered completely by later ones leaves no trace. *)
Theorem C130_hidden_patch : forall d ps p qs d1 l1 d2 l2, state_shape (d_state d) = (s_Ny (d_slm d), s_Nx (d_slm d)) ->
  (forall i j, in_array d i j -> covers p i j -> exists q, In q qs /\ covers q i j /\ snd (do_call d (lay q)) = Ok tt) ->
  do_calls d (map lay (ps ++ p :: qs)) = (d1, l1) -> do_calls d (map lay (ps ++ qs)) = (d2, l2) -> same_state (d_state d1) (d_state d2).
Proof. exact hidden. Qed.
Print Assumptions C130_hidden_patch.
Theorem C130_repeated_patch : forall d p d1 l1 d2 l2, state_shape (d_state d) = (s_Ny (d_slm d), s_Nx (d_slm d)) ->
  do_calls d [lay p; lay p] = (d1, l1) -> do_calls d [lay p] = (d2, l2) -> same_state (d_state d1) (d_state d2).
Proof. exact twice. Qed.
Print Assumptions C130_repeated_patch.
Example C130_case : state_shape (d_state ex_dmd) = (s_Ny (d_slm ex_dmd), s_Nx (d_slm ex_dmd)) /\ ForallOrdPairs apart [patch_a; patch_b] /\
  snd (do_call ex_dmd (lay patch_a)) = Ok tt /\ snd (do_call ex_dmd (lay patch_b)) = Ok tt /\ covers patch_a 0 0 /\ covers patch_b 1 2 /\ in_array ex_dmd 0 0 /\ in_array ex_dmd 1 2.
Proof. exact patches_case. Qed.
