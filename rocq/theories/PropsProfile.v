(** C22-C26, C55: profile objects. *)
From Coq Require Import Reals Lra ZArith Arith List Bool Lia.
From Coquelicot Require Import Complex.
From Verif Require Import Cx Sums PyBase ProfileModel SlmModel SimSpec ProfSpec ProfFacts ProfFacts2 ProfFacts3 TensorThms.
Import ListNotations.
Open Scope R_scope.

(** A heap with a real constant 3 and the complex constant i. *)
Definition ex_h : heap := fst (h_alloc (VC Ci) (fst (h_alloc (VR 3) heap0))).
Definition ex_r : prof := PConst 0%nat.
Definition ex_c : prof := PConst 1%nat.
Example ex_r_gives : forall x y, gives ex_h ex_r x y (RtoC 3) false.
Proof. intros x y. exists (VR 3). repeat split. Qed.
Example ex_c_gives : forall x y, gives ex_h ex_c x y Ci true.
Proof. intros x y. exists (VC Ci). repeat split. Qed.
Example ex_lives : lives ex_h ex_r /\ lives ex_h ex_c.
Proof. split; intros l [<-|[]]; cbn; lia. Qed.

(** ** C22 *)
Theorem C22_profile_operands : forall o h p q x y a ka b kb, gives h p x y a ka -> gives h q x y b kb -> (o = Odiv -> b <> RtoC 0) ->
  exists r, p_binop o h p (OProf q) = (h, Ok r) /\ gives h r x y (arith o a b) (ka || kb).
Proof. exact binop_profiles. Qed.
Print Assumptions C22_profile_operands.
Example C22_profile_operands_case : gives ex_h ex_r 1 2 (RtoC 3) false /\ gives ex_h ex_c 1 2 Ci true /\ (Odiv = Odiv -> Ci <> RtoC 0).
Proof. split; [apply ex_r_gives|]. split; [apply ex_c_gives|]. intros _ H. injection H. lra. Qed.

Theorem C22_number_operands : forall o h p q z k, number q = Some (z, k) -> lives h p -> (o = Odiv -> z <> RtoC 0) ->
  exists h' r, p_binop o h p q = (h', Ok r) /\ lives h' r /\ keeps h h' /\
    forall x y a ka, gives h p x y a ka -> gives h' r x y (arith o a z) (ka || k).
Proof. exact binop_number. Qed.
Print Assumptions C22_number_operands.
Example C22_number_operands_case : number (OReal 5) = Some (RtoC 5, false) /\ number (OComplex Ci) = Some (Ci, true) /\ lives ex_h ex_c /\ (Odiv = Odiv -> RtoC 5 <> RtoC 0).
Proof. split; [reflexivity|]. split; [reflexivity|]. split; [apply ex_lives|]. intros _ H. injection H. lra. Qed.

Theorem C22_negation : forall h p, lives h p -> exists h' r, p_neg h p = (h', Ok r) /\ lives h' r /\ keeps h h' /\
  forall x y a k, gives h p x y a k -> gives h' r x y (- a)%C k.
Proof. exact neg_spec. Qed.
Print Assumptions C22_negation.

(** Anything that is neither a profile nor a number is rejected. *)
Theorem C22_other_operands : forall o h p, p_binop o h p OOther = (h, Err NotImplementedError) /\ p_pow p OOther = Err NotImplementedError.
Proof. exact binop_other. Qed.
Print Assumptions C22_other_operands.

(** Powers: whatever finite value is produced is the principal power; natural exponents are repeated multiplication;
    positive real bases and nonzero complex bases always have a value. *)
Theorem C22_power_number : forall h p q w kw r x y a ka z k, number q = Some (w, kw) -> p_pow p q = Ok r -> gives h p x y a ka -> gives h r x y z k ->
  pow_result a w z /\ k = (ka || kw)%bool.
Proof. exact pow_number. Qed.
Print Assumptions C22_power_number.
Theorem C22_power_profile : forall h p q r x y a ka b kb z k, p_pow p (OProf q) = Ok r -> gives h p x y a ka -> gives h q x y b kb -> gives h r x y z k ->
  pow_result a b z /\ k = (ka || kb)%bool.
Proof. intros h p q r x y a ka b kb z k E. injection E as <-. apply pow_profiles. Qed.
Print Assumptions C22_power_profile.
Theorem C22_power_integer : forall h p x y a ka n, gives h p x y a ka -> exists r, p_pow p (OReal (INR n)) = Ok r /\ gives h r x y (cmul_n a n) ka.
Proof. exact pow_integer. Qed.
Print Assumptions C22_power_integer.
Theorem C22_power_positive : forall h p q x y a b, 0 < a -> gives h p x y (RtoC a) false -> gives h q x y (RtoC b) false ->
  exists r, p_pow p (OProf q) = Ok r /\ gives h r x y (RtoC (Rpower a b)) false.
Proof. exact pow_positive. Qed.
Print Assumptions C22_power_positive.
Theorem C22_power_complex : forall h p q x y a b k, a <> RtoC 0 -> gives h p x y a true -> gives h q x y b k ->
  exists r, p_pow p (OProf q) = Ok r /\ gives h r x y (cexp (b * clog a)%C) true.
Proof. exact pow_complex. Qed.
Print Assumptions C22_power_complex.
Example C22_power_case : gives ex_h (PPowR ex_r (INR 2)) 0 0 (RtoC 9) false.
Proof.
  destruct (pow_integer ex_h ex_r 0 0 _ _ 2 (ex_r_gives 0 0)) as [r [E G]]. injection E as <-. replace (RtoC 9) with (cmul_n (RtoC 3) 2); [exact G|].
  apply C_eq; cbn; lra.
Qed.

(** ** C23 *)
Theorem C23_element_type : forall h p x y z k, gives h p x y z k -> k = complex_leaf h p.
Proof. intros h p x y z k [v [E [_ <-]]]. exact (kind_of h p x y v E). Qed.
Print Assumptions C23_element_type.
(** Real and complex operands never clash: the only Python error of an evaluation comes from a bare FunctionProfile
    (EUnmodelled = a non-finite sample, e.g. a division by zero). *)
Theorem C23_no_type_error : forall h p x y e, func h p x y = Err e -> e = EUnmodelled \/ (e = NotImplementedError /\ has_base p = true).
Proof. exact errors_of. Qed.
Print Assumptions C23_no_type_error.
Theorem C23_always_a_value : forall h p, regular h p -> forall x y, exists z, gives h p x y z (complex_leaf h p).
Proof. intros h p H x y. destruct (regular_defined h p H x y) as [v E]. exists (to_c v), v. split; [exact E|]. split; [reflexivity|]. exact (kind_of h p x y v E). Qed.
Print Assumptions C23_always_a_value.
Example C23_case : regular ex_h (PBin Omul (PAsC ex_r) (PBin Oadd ex_r ex_c)) /\ complex_leaf ex_h (PBin Oadd ex_r ex_c) = true /\ complex_leaf ex_h (PBin Oadd ex_r ex_r) = false.
Proof. cbn. repeat split; discriminate. Qed.

(** ** C24 *)
Theorem C24_formulas : forall h p x y,
  (forall dx dy, func h (p_shift p dx dy) x y = func h p (x - dx) (y - dy)) /\
  (forall t, func h (p_rotate p t) x y = func h p (cos t * x - sin t * y) (sin t * x + cos t * y)) /\
  (forall m, m <> 0 -> func h (p_rescale_x p m) x y = func h p (x / m) y) /\
  (forall m, m <> 0 -> func h (p_rescale_y p m) x y = func h p x (y / m)).
Proof. exact transform_formulas. Qed.
Print Assumptions C24_formulas.
(** Rotation in polar coordinates: the picture turns clockwise by t, distances are kept. *)
Theorem C24_rotation_polar : forall h p t r phi, func h (p_rotate p t) (r * cos phi) (r * sin phi) = func h p (r * cos (phi + t)) (r * sin (phi + t)).
Proof. exact rotate_polar. Qed.
Print Assumptions C24_rotation_polar.
Theorem C24_compose : forall h p,
  (forall a b c d, same_value h (p_shift (p_shift p a b) c d) h (p_shift p (a + c) (b + d))) /\
  (forall s t, same_value h (p_rotate (p_rotate p s) t) h (p_rotate p (s + t))) /\
  (forall m n, m <> 0 -> n <> 0 -> same_value h (p_rescale_x (p_rescale_x p m) n) h (p_rescale_x p (m * n))) /\
  (forall m n, m <> 0 -> n <> 0 -> same_value h (p_rescale_y (p_rescale_y p m) n) h (p_rescale_y p (m * n))) /\
  (forall m n, same_value h (p_rescale_x (p_rescale_y p m) n) h (p_rescale_y (p_rescale_x p n) m)).
Proof. exact transforms_compose. Qed.
Print Assumptions C24_compose.
Theorem C24_inverse : forall h p,
  (forall a b, same_value h (p_shift (p_shift p a b) (- a) (- b)) h p) /\
  (forall t, same_value h (p_rotate (p_rotate p t) (- t)) h p) /\
  (forall k, same_value h (p_rotate p (2 * PI * IZR k)) h p) /\
  (forall m, m <> 0 -> same_value h (p_rescale_x (p_rescale_x p m) (/ m)) h p) /\
  (forall m, m <> 0 -> same_value h (p_rescale_y (p_rescale_y p m) (/ m)) h p) /\
  same_value h (p_rotate p PI) h (p_rescale_x (p_rescale_y p (-1)) (-1)).
Proof. exact transforms_invert. Qed.
Print Assumptions C24_inverse.
Theorem C24_commute_arithmetic : forall t o h p q h' r, p_binop o h p q = (h', Ok r) ->
  exists r', p_binop o h (apply_t t p) (apply_operand t q) = (h', Ok r') /\ same_value h' (apply_t t r) h' r'.
Proof. exact transform_arith. Qed.
Print Assumptions C24_commute_arithmetic.
Theorem C24_commute_power : forall t h p q r, p_pow p q = Ok r ->
  exists r', p_pow (apply_t t p) (apply_operand t q) = Ok r' /\ same_value h (apply_t t r) h r'.
Proof. exact transform_pow. Qed.
Print Assumptions C24_commute_power.
Theorem C24_commute_as_complex : forall t h p, same_value h (apply_t t (p_as_complex p)) h (p_as_complex (apply_t t p)).
Proof. exact transform_as_complex. Qed.
Print Assumptions C24_commute_as_complex.
(** A window at the origin shifted to (2, 1) is 1 at (2, 1) and 0 at the origin. *)
Example C24_case : exists h p, circ_new heap0 0 0 1 = (h, p) /\ gives h (p_shift p 2 1) 2 1 (RtoC 1) false /\ gives h (p_shift p 2 1) 0 0 (RtoC 0) false.
Proof.
  eexists. eexists. split; [reflexivity|]. split; eexists; (split; [reflexivity|]); (split; [|reflexivity]); cbn -[pow]; unfold circ_value, Rleb, ind, getR; cbn -[pow]; f_equal.
  - destruct (Rle_dec _ _) as [_|n]; [reflexivity|]. exfalso. apply n. cbn. lra.
  - destruct (Rle_dec _ _) as [r|_]; [|reflexivity]. exfalso. cbn in r. lra.
Qed.

(** ** C25 *)
(** Any history of build steps and assignments to p leaves exactly the objects and values that the build steps alone would have
    produced, had p been constructed with the last assigned values. *)
Theorem C25_history_as_built : forall c h h1 p env l c', create h c = Ok (h1, p) -> final_call c l = Some c' ->
  exists h1', create h c' = Ok (h1', p) /\ run_hist p l (h1, env) = run_dops (builds l) (h1', env).
Proof. exact history_as_built. Qed.
Print Assumptions C25_history_as_built.
(** Two assignments with a derived object in between. *)
Example C25_history_case : create heap0 (NewHG 0 0 1 2 1 0) <> Err ValueError /\
  final_call (NewHG 0 0 1 2 1 0) [HSet Fa (VR 5); HBuild (DBin Oadd 0 (KReal 7)); HSet Fx0 (VR 3); HSet Fa (VR 6)] = Some (NewHG 3 0 6 2 1 0).
Proof. split; [discriminate|reflexivity]. Qed.
Theorem C25_assignment_succeeds : forall c f v c' h h1 p env ops, create h c = Ok (h1, p) -> with_field c f v = Some c' ->
  snd (set_attr (fst (run_dops ops (h1, env))) p f v) = Ok tt.
Proof. intros c f v c' h h1 p env ops C W. destruct (assign_as_built c f v c' h h1 p env ops C W) as [h1' [_ [_ [E _]]]]. exact E. Qed.
Print Assumptions C25_assignment_succeeds.
(** Objects that existed before p, and objects built later without p, keep their values. *)
Theorem C25_older_objects_unaffected : forall c h h1 p env ops f v q, create h c = Ok (h1, p) -> lives h q ->
  same_value h q (fst (set_attr (fst (run_dops ops (h1, env))) p f v)) q.
Proof. exact assign_frame_old. Qed.
Print Assumptions C25_older_objects_unaffected.
Theorem C25_later_objects_unaffected : forall h c h1 p env c2 h2 q ops f v, create h c = Ok (h1, p) -> create h1 c2 = Ok (h2, q) -> Forall (lives h) env ->
  let s := run_dops ops (h2, env ++ [q]) in forall r, In r (snd s) -> same_value (fst s) r (fst (set_attr (fst s) p f v)) r.
Proof. exact others_unaffected. Qed.
Print Assumptions C25_later_objects_unaffected.
Example C25_unaffected_case : exists h1 p h2 q, create ex_h (NewHG 0 0 1 2 1 0) = Ok (h1, p) /\ create h1 (NewRect 0 0 1 1) = Ok (h2, q) /\ Forall (lives ex_h) [ex_r; ex_c].
Proof. do 4 eexists. split; [reflexivity|]. split; [reflexivity|]. constructor; [apply ex_lives|]. constructor; [apply ex_lives|constructor]. Qed.
(** Orders and the Zernike radius cannot be assigned; the element type of a variable never changes. *)
Theorem C25_read_only : forall c h h1 p f v, create h c = Ok (h1, p) ->
  (f = Fn \/ f = Fm \/ f = Fradius) -> (match c with NewHG _ _ _ _ _ _ => f <> Fradius | NewZernike _ _ _ _ _ _ => True | _ => False end) ->
  set_attr h1 p f v = (h1, Err AttributeError).
Proof.
  intros c h h1 p f v C Hf Hc. apply set_readonly. destruct c; try contradiction; cbn [create] in C.
  - unfold hg_new in C. destruct (_ || _)%bool; [discriminate|]. cbn [alloc_reals] in C. injection C as <- <-. destruct Hf as [->|[->| ->]]; try reflexivity. contradiction Hc. reflexivity.
  - unfold zernike_new in C. destruct (negb _); [discriminate|]. destruct (negb _); [discriminate|]. destruct (zern_norm _ _ _); [|discriminate]. cbn [rbind h_alloc] in C. injection C as <- <-.
    destruct Hf as [->|[->| ->]]; reflexivity.
Qed.
Print Assumptions C25_read_only.
Theorem C25_element_type_fixed : forall h p f v q x y z k x' y' z' k', gives h q x y z k -> gives (fst (set_attr h p f v)) q x' y' z' k' -> k' = k.
Proof.
  intros h p f v q x y z k x' y' z' k' [u [E [_ <-]]] [u' [E' [_ <-]]]. rewrite (kind_of _ _ _ _ _ E), (kind_of _ _ _ _ _ E').
  clear E E'. induction q; cbn [complex_leaf]; try reflexivity; try assumption; try (rewrite IHq1, IHq2; reflexivity). apply set_kind.
Qed.
Print Assumptions C25_element_type_fixed.
(** LaguerreGaussian objects have no setters: an assignment is accepted and has no effect. *)
Theorem C25_laguerre_assignment_ignored : forall h x0 y0 a w l p h1 q f v, lg_new h x0 y0 a w l p = Ok (h1, q) -> set_attr h1 q f v = (h1, Ok tt).
Proof. exact lg_assign_ignored. Qed.
Print Assumptions C25_laguerre_assignment_ignored.

(** ** C26 *)
Theorem C26_phase_factor : forall h p x y r, gives h p x y (RtoC r) false -> gives h (p_as_complex p) x y (cis r) true /\ Cmod (cis r) = 1.
Proof. exact as_complex_real. Qed.
Print Assumptions C26_phase_factor.
Theorem C26_complex_argument : forall h p x y z k, gives h p x y z k -> gives h (p_as_complex p) x y (cexp (Ci * z)%C) true.
Proof. exact as_complex_value. Qed.
Print Assumptions C26_complex_argument.
Theorem C26_sum_is_product : forall h p q x y a ka b kb, gives h p x y a ka -> gives h q x y b kb ->
  exists z, gives h (p_as_complex (PBin Oadd p q)) x y z true /\ gives h (PBin Omul (p_as_complex p) (p_as_complex q)) x y z true.
Proof. exact as_complex_sum. Qed.
Print Assumptions C26_sum_is_product.
Theorem C26_inverse : forall h p, lives h p -> exists h' r, p_neg h p = (h', Ok r) /\ keeps h h' /\
  forall x y a k, gives h p x y a k -> gives h' (PBin Omul (p_as_complex p) (p_as_complex r)) x y (RtoC 1) true.
Proof. exact as_complex_inverse. Qed.
Print Assumptions C26_inverse.
Example C26_case : gives ex_h ex_r 0 0 (RtoC 3) false /\ lives ex_h ex_r.
Proof. split; [apply ex_r_gives|apply ex_lives]. Qed.

(** ** C55 *)
Definition grid_used (s : slm) (at_fourier : bool) := if at_fourier then fourier_plane_grid s else image_plane_grid s.
Theorem C55_samples_on_the_grid : forall h s p fp X Y (z : nat -> nat -> C) k, ~ Forall constant_leaf (leaves p) -> grid_is (grid_used s fp) (s_Ny s) (s_Nx s) X Y ->
  (forall i j, (i < s_Ny s)%nat -> (j < s_Nx s)%nat -> gives h p (X i j) (Y i j) (z i j) k) ->
  (exists t, profile_to_tensor_c h s (AProf p) fp = Ok t /\ teq t (T2 (s_Ny s) (s_Nx s) z)) /\
  (exists t, profile_to_tensor_r h s (AProf p) fp = Ok t /\ teq t (T2 (s_Ny s) (s_Nx s) (fun i j => fst (z i j)))).
Proof. exact to_tensor_full. Qed.
Print Assumptions C55_samples_on_the_grid.
Theorem C55_fails_on_a_failing_sample : forall h s p fp X Y, ~ Forall constant_leaf (leaves p) -> grid_is (grid_used s fp) (s_Ny s) (s_Nx s) X Y ->
  ((exists t, profile_to_tensor_c h s (AProf p) fp = Ok t) \/ (exists t, profile_to_tensor_r h s (AProf p) fp = Ok t)) ->
  forall i j, (i < s_Ny s)%nat -> (j < s_Nx s)%nat -> exists z k, gives h p (X i j) (Y i j) z k.
Proof. exact to_tensor_needs_samples. Qed.
Print Assumptions C55_fails_on_a_failing_sample.
Theorem C55_arrays_converted : forall h s fp (tr : tensor R) (tc : tensor C),
  profile_to_tensor_c h s (ATensorC tc) fp = Ok tc /\ profile_to_tensor_c h s (AConstC tc) fp = Ok tc /\
  profile_to_tensor_c h s (ATensorR tr) fp = Ok (tmap RtoC tr) /\ profile_to_tensor_c h s (AConstR tr) fp = Ok (tmap RtoC tr) /\
  profile_to_tensor_r h s (ATensorR tr) fp = Ok tr /\ profile_to_tensor_r h s (AConstR tr) fp = Ok tr /\
  profile_to_tensor_r h s (ATensorC tc) fp = Ok (tmap fst tc) /\
  profile_to_tensor_r h s (AConstC tc) fp = (match tc with T0 _ => Err TypeError | T2 _ _ _ => Ok (tmap fst tc) end).
Proof. exact to_tensor_arrays. Qed.
Print Assumptions C55_arrays_converted.
(** Expressions made of constants only give a rank-0 tensor, whatever the grid. *)
Theorem C55_constants_are_scalars : forall h s p fp z k x y, Forall constant_leaf (leaves p) -> gives h p x y z k ->
  profile_to_tensor_c h s (AProf p) fp = Ok (T0 z) /\ profile_to_tensor_r h s (AProf p) fp = Ok (T0 (fst z)).
Proof. exact to_tensor_constant. Qed.
Print Assumptions C55_constants_are_scalars.
Example C55_case : ~ Forall constant_leaf (leaves (PBin Oadd ex_r (PCirc 0%nat 0%nat 0%nat))) /\ Forall constant_leaf (leaves (PBin Oadd ex_r ex_c)).
Proof.
  split; [intros H; inversion H as [|? ? _ H2]; inversion H2 as [|? ? [c E]]; discriminate|].
  repeat constructor; eexists; reflexivity.
Qed.
(** So the documented shape is not always returned. *)
Theorem C55_refuted : exists h s p t, profile_to_tensor_c h s (AProf p) true = Ok t /\ (0 < s_Nx s)%nat /\ (0 < s_Ny s)%nat /\ tshape t <> S2 (s_Ny s) (s_Nx s).
Proof.
  exists ex_h, {| wavelength := 2; focal_length := 3; s_Nx := 5; s_Ny := 4; pixel_size := / 2 |}, ex_r, (T0 (RtoC 3)). split; [reflexivity|]. split; [cbn; lia|]. split; [cbn; lia|]. discriminate.
Qed.
Print Assumptions C55_refuted.
