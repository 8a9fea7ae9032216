(** C166: gratings with amplitudes that are not finite. *)
From Coq Require Import Reals Lra ZArith Arith List Bool Lia.
From Verif Require Import Cx PyBase ProfileModel SlmModel LibModel DmdModel DmdSpec DmdExamples XAmpModel XAmpSpec XAmpFacts.
Open Scope R_scope.

(** Method "simple": infinite amplitudes open every mirror off the troughs, negative infinite ones and NaN none; the other mirrors do not notice. *)
Theorem C166_simple : forall h d a pin pout Pi Po, fits d a -> reads h (d_slm d) pin Pi -> reads h (d_slm d) pout Po -> d_p d <> 0 -> forall kw u,
  exists f, xset_grating h d a pin pout MSimple kw u = (with_state d (DBool (s_Ny (d_slm d)) (s_Nx (d_slm d)) f), Ok tt) /\
  forall i j, (i < s_Ny (d_slm d))%nat -> (j < s_Nx (d_slm d))%nat -> (f i j = true <-> lit (tget a i j) (height d Pi Po i j)).
Proof. exact x_simple. Qed.
Print Assumptions C166_simple.
(** Method "ideal": infinite grey levels off the troughs, NaN in them. *)
Theorem C166_ideal : forall h d a pin pout Pi Po, fits d a -> reads h (d_slm d) pin Pi -> reads h (d_slm d) pout Po -> d_p d <> 0 -> forall kw u,
  exists f, xset_grating h d a pin pout MIdeal kw u = (with_state d (DFloat (s_Ny (d_slm d)) (s_Nx (d_slm d)) f), Ok tt) /\
  forall i j, (i < s_Ny (d_slm d))%nat -> (j < s_Nx (d_slm d))%nat -> grey (tget a i j) (height d Pi Po i j) (f i j).
Proof. exact x_ideal. Qed.
Print Assumptions C166_ideal.
(** Method "random": amplitudes outside [-1, 1], infinite ones and NaN switch the mirror off whatever is drawn; those in [0, 1] give the documented duty. *)
Theorem C166_random : forall h d a pin pout Pi Po, fits d a -> reads h (d_slm d) pin Pi -> reads h (d_slm d) pout Po -> d_p d <> 0 -> forall kw u,
  exists f, xset_grating h d a pin pout MRandom kw u = (with_state d (DBool (s_Ny (d_slm d)) (s_Nx (d_slm d)) f), Ok tt) /\
  forall i j, (i < s_Ny (d_slm d))%nat -> (j < s_Nx (d_slm d))%nat ->
    ((forall r, tget a i j = Fin r -> r < -1 \/ 1 < r) -> f i j = false) /\
    (forall r, tget a i j = Fin r -> 0 <= r <= 1 -> exists q, folded (carrier d i j - signed (d_neg d) (Po i j - Pi i j)) q /\ (f i j = true <-> u i j < duty (dflt (k_r kw) 10) q r)).
Proof. exact x_random. Qed.
Print Assumptions C166_random.
(** Method "ifta": one amplitude that is NaN switches all mirrors off. *)
Theorem C166_ifta : forall h d a pin pout Pi Po, fits d a -> reads h (d_slm d) pin Pi -> reads h (d_slm d) pout Po -> d_p d <> 0 -> forall kw u F V i0 j0,
  raw_tensor (k_input kw) = Some (T2 (s_Ny (d_slm d)) (s_Nx (d_slm d)) F) -> raw_tensor (k_window kw) = Some (T2 (s_Ny (d_slm d)) (s_Nx (d_slm d)) V) -> (1 <= dflt (k_N kw) 200)%Z ->
  (i0 < s_Ny (d_slm d))%nat -> (j0 < s_Nx (d_slm d))%nat -> tget a i0 j0 = NaN ->
  exists f, xset_grating h d a pin pout MIfta kw u = (with_state d (DBool (s_Ny (d_slm d)) (s_Nx (d_slm d)) f), Ok tt) /\
  forall i j, (i < s_Ny (d_slm d))%nat -> (j < s_Nx (d_slm d))%nat -> f i j = false.
Proof. exact x_ifta. Qed.
Print Assumptions C166_ifta.
(** Patches on a panel of binary mirrors.  Method "simple" follows the rule above; with "ideal" every amplitude that is not finite switches the mirror on, NaN and minus infinity too. *)
Theorem C166_patch_simple : forall h d a pin pout Pi Po, fits d a -> reads h (d_slm d) pin Pi -> reads h (d_slm d) pout Po -> d_p d <> 0 -> forall ci cj diam g kw u,
  d_state d = DBool (s_Ny (d_slm d)) (s_Nx (d_slm d)) g ->
  exists f, xcircular_patch h d ci cj a pin pout diam MSimple kw u = (with_state d (DBool (s_Ny (d_slm d)) (s_Nx (d_slm d)) f), Ok tt) /\
  patched d ci cj diam g f (fun i j => lit (tget a i j) (height d Pi Po i j)).
Proof. exact x_patch_simple. Qed.
Print Assumptions C166_patch_simple.
Theorem C166_patch_ideal : forall h d a pin pout Pi Po, fits d a -> reads h (d_slm d) pin Pi -> reads h (d_slm d) pout Po -> d_p d <> 0 -> forall ci cj diam g kw u,
  d_state d = DBool (s_Ny (d_slm d)) (s_Nx (d_slm d)) g ->
  exists f, xcircular_patch h d ci cj a pin pout diam MIdeal kw u = (with_state d (DBool (s_Ny (d_slm d)) (s_Nx (d_slm d)) f), Ok tt) /\
  patched d ci cj diam g f (fun i j => cast_on (tget a i j) (height d Pi Po i j)).
Proof. exact x_patch_ideal. Qed.
Print Assumptions C166_patch_ideal.
(** With finite amplitudes this is set_dmd_grating_state of the other properties, for every method. *)
Theorem C166_finite : forall h d t pin pout m kw u, xset_grating h d (tmap Fin t) pin pout m kw u = set_dmd_grating_state h d (AConstR t) pin pout m kw u.
Proof. exact x_finite. Qed.
Print Assumptions C166_finite.
Theorem C166_patch_finite : forall h d ci cj t pin pout diam m kw u, xcircular_patch h d ci cj (tmap Fin t) pin pout diam m kw u = circular_patch h d ci cj (AConstR t) pin pout diam m kw u.
Proof. exact x_patch_finite. Qed.
Print Assumptions C166_patch_finite.
(** 4 x 2 mirrors, an infinite amplitude: mirror (0, 2) is on a ridge and (0, 3) in a trough. *)
Example C166_case : fits ex4 (T0 PInf) /\ d_state ex4 = DBool 2 4 (fun _ _ => false) /\ height ex4 (fun _ _ => 0) (fun _ _ => 0) 0 2 = 1 /\ height ex4 (fun _ _ => 0) (fun _ _ => 0) 0 3 = 0.
Proof. exact x_case. Qed.
Example C166_ifta_case : let kw := {| k_r := None; k_N := None; k_s := None; k_window := Some tg4; k_input := Some in4 |} in
  fits ex4 (T0 NaN) /\ raw_tensor (k_input kw) = Some (T2 2 4 F4) /\ raw_tensor (k_window kw) = Some (T2 2 4 T4) /\ (1 <= dflt (k_N kw) 200)%Z.
Proof. repeat split; [left; reflexivity|cbn; lia]. Qed.
