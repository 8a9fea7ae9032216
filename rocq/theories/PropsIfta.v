(** C88: what the IFTA signal window does for a beam of flat phase. *)
From Coq Require Import Reals Lra ZArith Arith List Bool Lia.
From Coquelicot Require Import Complex.
From Verif Require Import Cx Sums PyBase ProfileModel SlmModel LibModel DmdModel SimModel SimSpec SimExamples DmdSpec DmdExamples HoloSpec DmdFacts2 IftaSym.
Open Scope R_scope.

(** ** C88 *)
Theorem C88_only_the_symmetric_part_counts : forall h d input target w F A c T W V V' kw kw' wi wi' u, let s := d_slm d in
  full_input h s input F -> (forall i j, in_array d i j -> F i j = (RtoC (A i j) * cis c)%C) -> full_target h s target T -> window_reads h s w W -> d_p d <> 0 ->
  k_window kw = Some wi -> full_target h s wi V -> k_window kw' = Some wi' -> full_target h s wi' V' -> k_N kw = k_N kw' -> k_s kw = k_s kw' ->
  (forall u v, in_array d u v -> symmetric_part (s_Ny s) (s_Nx s) V u v = symmetric_part (s_Ny s) (s_Nx s) V' u v) ->
  let r := calculate_dmd_state h d input target MIfta w kw u in let r' := calculate_dmd_state h d input target MIfta w kw' u in
  snd r = snd r' /\ same_state (d_state (fst r)) (d_state (fst r')).
Proof. exact calc_sym. Qed.
Print Assumptions C88_only_the_symmetric_part_counts.
Theorem C88_only_the_symmetric_part_counts_for_gratings : forall h d amp pin pout P Pi Po F A c V V' kw kw' u, let s := d_slm d in
  reads h s amp P -> reads h s pin Pi -> reads h s pout Po -> d_p d <> 0 -> (forall i j, in_array d i j -> F i j = (RtoC (A i j) * cis c)%C) ->
  complex_array (k_input kw) (T2 (s_Ny s) (s_Nx s) F) -> complex_array (k_input kw') (T2 (s_Ny s) (s_Nx s) F) ->
  complex_array (k_window kw) (T2 (s_Ny s) (s_Nx s) V) -> complex_array (k_window kw') (T2 (s_Ny s) (s_Nx s) V') -> k_N kw = k_N kw' -> k_s kw = k_s kw' ->
  (forall u v, in_array d u v -> symmetric_part (s_Ny s) (s_Nx s) V u v = symmetric_part (s_Ny s) (s_Nx s) V' u v) ->
  let r := set_dmd_grating_state h d amp pin pout MIfta kw u in let r' := set_dmd_grating_state h d amp pin pout MIfta kw' u in
  snd r = Ok tt /\ snd r' = Ok tt /\ same_state (d_state (fst r)) (d_state (fst r')).
Proof. exact grating_sym. Qed.
Print Assumptions C88_only_the_symmetric_part_counts_for_gratings.
(** C39 says which runs the two calls perform; here is what such a run does. *)
Theorem C88_constant_symmetric_part_corrects_nothing : forall ny nx A c F, (forall i j, (i < ny)%nat -> (j < nx)%nat -> F i j = (RtoC (A i j) * cis c)%C) ->
  forall V a q N f, 0 <= a <= 1 -> (forall u v, (u < ny)%nat -> (v < nx)%nat -> symmetric_part ny nx V u v = RtoC a) ->
  ifta_run ny nx F V q N f -> forall i j, (i < ny)%nat -> (j < nx)%nat -> F i j <> RtoC 0 -> (f i j = true <-> 1 / 2 < q i j).
Proof. exact run_const. Qed.
Print Assumptions C88_constant_symmetric_part_corrects_nothing.
Theorem C88_image_before_binarisation : forall ny nx A c F, (forall i j, (i < ny)%nat -> (j < nx)%nat -> F i j = (RtoC (A i j) * cis c)%C) ->
  forall V q N f, (forall i j, (i < ny)%nat -> (j < nx)%nat -> A i j <> 0) -> ifta_run ny nx F V q N f ->
  exists G : nat -> nat -> nat -> R, (forall i j, (i < ny)%nat -> (j < nx)%nat -> G O i j = q i j) /\
    (forall k, (k < Z.to_nat N)%nat -> exists B : nat -> nat -> R,
       (forall i j, (i < ny)%nat -> (j < nx)%nat -> clipped (INR (k + 1) / (2 * IZR N)) (G k i j) (B i j)) /\
       forall u v, (u < ny)%nat -> (v < nx)%nat -> let shown := image_of ny nx (fun i j => (F i j * RtoC (B i j))%C) u v in
         image_of ny nx (fun i j => (F i j * RtoC (G (S k) i j))%C) u v
         = (shown + symmetric_part ny nx V u v * (image_of ny nx (fun i j => (F i j * RtoC (q i j))%C) u v - shown))%C) /\
    (forall i j, (i < ny)%nat -> (j < nx)%nat -> (f i j = true <-> 1 / 2 < G (Z.to_nat N) i j)).
Proof. exact run_image. Qed.
Print Assumptions C88_image_before_binarisation.
(** A window over one pixel of the first order, and half a window over that pixel and its opposite. *)
Definition one_sided (u v : nat) : C := if (Nat.eqb u 1 && Nat.eqb v 3)%bool then RtoC 1 else RtoC 0.
Definition two_sided (u v : nat) : C := if (Nat.eqb u 1 && (Nat.eqb v 3 || Nat.eqb v 1))%bool then RtoC (1 / 2) else RtoC 0.
Example C88_case : full_input ex_heap (d_slm ex4) (AConstC (T2 2 4 (fun i j => RtoC (INR (i + j) + 1)))) (fun i j => RtoC (INR (i + j) + 1)) /\
  (forall i j, RtoC (INR (i + j) + 1) = (RtoC (INR (i + j) + 1) * cis 0)%C) /\ full_target ex_heap (d_slm ex4) tg4 T4 /\ window_reads ex_heap (d_slm ex4) None (fun _ _ => RtoC 1) /\ d_p ex4 <> 0 /\
  full_target ex_heap (d_slm ex4) (AConstC (T2 2 4 one_sided)) one_sided /\ full_target ex_heap (d_slm ex4) (AConstC (T2 2 4 two_sided)) two_sided /\
  (forall u v, in_array ex4 u v -> symmetric_part 2 4 one_sided u v = symmetric_part 2 4 two_sided u v) /\ one_sided 1 3 <> two_sided 1 3.
Proof.
  destruct ex4_reads as (_ & HT & HW & Hp & _). split; [reflexivity|]. split; [intros i j; rewrite cis_0; ring|]. split; [exact HT|]. split; [exact HW|]. split; [exact Hp|]. split; [reflexivity|]. split; [reflexivity|]. split.
  - intros u v [Hu Hv]. cbn in Hu, Hv. unfold symmetric_part, reflect, one_sided, two_sided.
    destruct u as [|[|u]]; [| |lia]; destruct v as [|[|[|[|v]]]]; try lia; cbn; unfold cconj, RtoC, Cdiv, Cplus, Cinv, Cmult; cbn [fst snd]; f_equal; field.
  - unfold one_sided, two_sided. cbn. intros E. injection E. lra.
Qed.
