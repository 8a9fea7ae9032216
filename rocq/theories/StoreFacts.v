(** Proofs about sharing of arrays (C101). *)
From Coq Require Import Reals ZArith Arith List Bool Lia.
From Verif Require Import PyBase ProfileModel SlmModel LibModel DmdModel DmdSpec StoreModel StoreSpec.
Import ListNotations.
Open Scope R_scope.

Lemma calculate_is h d i t m w kw u : calculate_dmd_state h d i t m w kw u =
  match computed_pattern h d i t m w kw u with
  | Err e => (d, Err e)
  | Ok (a, one) => if Req_EM_T (scaling_factor (d_slm d)) 0 then (with_state d a, Err ZeroDivisionError)
                   else (with_state d a, py_div (pixel_size (d_slm d) ^ 2 / scaling_factor (d_slm d) * INR (s_Nx (d_slm d)) * INR (s_Ny (d_slm d))) one)
  end.
Proof. reflexivity. Qed.
Lemma calculate_state h d i t m w kw u : fst (do_call d (CCalc h i t m w kw u)) = match computed_pattern h d i t m w kw u with Ok (a, _) => with_state d a | Err _ => d end.
Proof. cbn [do_call]. rewrite calculate_is. destruct (computed_pattern h d i t m w kw u) as [[a one]|e]; [|reflexivity]. destruct (Req_EM_T _ 0); reflexivity. Qed.
Lemma grating_state h d a b c m kw u : fst (do_call d (CGrating h a b c m kw u)) = match grating_of h d a b c m kw u with Ok s => with_state d s | Err _ => d end.
Proof. cbn [do_call]. unfold set_dmd_grating_state. destruct (grating_of h d a b c m kw u); reflexivity. Qed.

(** ** arrays *)
Lemma write_length l n a : length (write l n a) = length l.
Proof. revert n. induction l as [|b r IH]; intros [|n]; cbn [write length]; try reflexivity. now rewrite IH. Qed.
Lemma write_same l n a : (n < length l)%nat -> nth_error (write l n a) n = Some a.
Proof. revert n. induction l as [|b r IH]; intros [|n] H; cbn [write nth_error length] in *; try lia; [reflexivity|]. apply IH. lia. Qed.
Lemma write_other l n m a : m <> n -> nth_error (write l n a) m = nth_error l m.
Proof. revert n m. induction l as [|b r IH]; intros [|n] [|m] H; cbn [write nth_error]; try reflexivity; try congruence. apply IH. congruence. Qed.
Lemma nth_new {A} (l : list A) a : nth_error (l ++ [a]) (length l) = Some a.
Proof. rewrite nth_error_app2 by lia. now rewrite Nat.sub_diag. Qed.
Lemma set_same {A} (f : nat -> option A) k a : set_nat f k a k = Some a.
Proof. unfold set_nat. now rewrite Nat.eqb_refl. Qed.
Lemma set_other {A} (f : nat -> option A) k l a : l <> k -> set_nat f k a l = f l.
Proof. unfold set_nat. intros H. destruct (Nat.eqb_spec l k); congruence. Qed.

(** Every reference is valid. *)
Definition valid (st : store) : Prop := (forall k p, panels st k = Some p -> (n_ref p < length (arrays st))%nat) /\
  (forall v n, vars st v = Some n -> (n < length (arrays st))%nat).
Lemma rebind_valid st k p a : valid st -> valid (rebind st k p a).
Proof.
  intros (P & V). split; cbn [rebind arrays panels vars]; rewrite app_length; cbn [length].
  - intros l q. unfold set_nat. destruct (Nat.eqb_spec l k); intros H; [injection H as <-; cbn [n_ref]; lia|]. specialize (P _ _ H). lia.
  - intros v n H. specialize (V _ _ H). lia.
Qed.
Lemma overwrite_valid st n a : valid st -> valid (overwrite st n a).
Proof. intros (P & V). split; cbn [overwrite arrays panels vars]; rewrite write_length; assumption. Qed.
Lemma on_panel_cases st k f : (exists p d, panels st k = Some p /\ seen st p = Some d /\ on_panel st k f = f p d) \/ on_panel st k f = st.
Proof. unfold on_panel. destruct (panels st k) as [p|] eqn:E; [|now right]. destruct (seen st p) as [d|] eqn:F; [|now right]. left. now exists p, d. Qed.
Lemma act_valid st a : valid st -> valid (act st a).
Proof.
  intros H. destruct a; cbn [act].
  - now apply rebind_valid.
  - destruct (on_panel_cases st k (fun p d => rebind st k p (all_mirrors (d_slm d) true))) as [(p & d & _ & _ & ->)| ->]; [now apply rebind_valid|exact H].
  - destruct (on_panel_cases st k (fun p d => rebind st k p (all_mirrors (d_slm d) false))) as [(p & d & _ & _ & ->)| ->]; [now apply rebind_valid|exact H].
  - match goal with |- context [on_panel st k ?f] => destruct (on_panel_cases st k f) as [(p & d & _ & _ & ->)| ->] end; [|exact H]. destruct (grating_of _ _ _ _ _ _ _ _); [now apply rebind_valid|exact H].
  - match goal with |- context [on_panel st k ?f] => destruct (on_panel_cases st k f) as [(p & d & _ & _ & ->)| ->] end; [|exact H]. destruct (grating_of _ _ _ _ _ _ _ _); [|exact H].
    destruct (fourier_plane_pixel_grid (d_slm d)) as [ii jj]. cbv zeta. destruct (masked_assign _ _ _ _ _); [now apply overwrite_valid|exact H].
  - match goal with |- context [on_panel st k ?f] => destruct (on_panel_cases st k f) as [(p & d & _ & _ & ->)| ->] end; [|exact H]. destruct (computed_pattern _ _ _ _ _ _ _ _) as [[b one]|]; [now apply rebind_valid|exact H].
  - destruct (panels st k) as [p|] eqn:E; [|exact H]. destruct H as (P & V). split; cbn [arrays panels vars]; [exact P|]. intros w n. unfold set_nat. destruct (Nat.eqb_spec w v); [|apply V].
    intros Q. injection Q as <-. now apply (P k).
  - destruct (vars st w) as [n|] eqn:E; [|exact H]. destruct (nth_error (arrays st) n) as [b|]; [|exact H]. destruct H as (P & V). split; cbn [arrays panels vars]; rewrite app_length; cbn [length].
    + intros k p Q. specialize (P _ _ Q). lia.
    + intros x q. unfold set_nat. destruct (Nat.eqb_spec x v); intros Q; [injection Q as <-; lia|]. specialize (V _ _ Q). lia.
  - destruct (panels st k) as [p|] eqn:E; [|exact H]. destruct (vars st v) as [n|] eqn:F; [|exact H]. destruct H as (P & V). split; cbn [arrays panels vars]; [|exact V].
    intros l q. unfold set_nat. destruct (Nat.eqb_spec l k); [intros Q; injection Q as <-; cbn [n_ref]; now apply (V v)|apply P].
  - destruct (vars st v) as [n|] eqn:E; [|exact H]. destruct (nth_error (arrays st) n) as [c|]; [|exact H]. destruct (in_range c i j); [now apply overwrite_valid|exact H].
Qed.
Lemma acts_valid l st : valid st -> valid (acts st l).
Proof. revert st. induction l as [|a r IH]; intros st H; [exact H|]. cbn [acts fold_left]. apply IH, act_valid, H. Qed.
Lemma empty_valid : valid empty_store.
Proof. split; cbn; discriminate. Qed.
Lemma reached l : valid (acts empty_store l).
Proof. apply acts_valid, empty_valid. Qed.

(** ** what a single action does to the arrays that exist *)
Lemma act_vars st a v : assigns v a = false -> vars (act st a) v = vars st v.
Proof.
  intros H. destruct a; cbn [act assigns] in *; try reflexivity;
    try (match goal with |- context [on_panel st ?k ?f] => destruct (on_panel_cases st k f) as [(p & d & _ & _ & ->)| ->] end; [|reflexivity]); try reflexivity.
  - destruct (grating_of _ _ _ _ _ _ _ _); reflexivity.
  - destruct (grating_of _ _ _ _ _ _ _ _); [|reflexivity]. destruct (fourier_plane_pixel_grid (d_slm d)) as [ii jj]. cbv zeta. destruct (masked_assign _ _ _ _ _); reflexivity.
  - destruct (computed_pattern _ _ _ _ _ _ _ _) as [[b one]|]; reflexivity.
  - destruct (panels st k); [|reflexivity]. cbn [vars]. apply set_other. intros ->. now rewrite Nat.eqb_refl in H.
  - destruct (vars st w); [|reflexivity]. destruct (nth_error _ _); [|reflexivity]. cbn [vars]. apply set_other. intros ->. now rewrite Nat.eqb_refl in H.
  - destruct (panels st k); [|reflexivity]. destruct (vars st v0); reflexivity.
  - destruct (vars st v0); [|reflexivity]. destruct (nth_error _ _); [|reflexivity]. destruct (in_range _ _ _); reflexivity.
Qed.
(** Without patches and pokes no array changes. *)
Lemma act_arrays st a n : (n < length (arrays st))%nat -> patches a = false -> tampers a = false -> nth_error (arrays (act st a)) n = nth_error (arrays st) n.
Proof.
  intros H Hp Ht. assert (X : forall b, nth_error (arrays st ++ [b]) n = nth_error (arrays st) n) by (intros b; now apply nth_error_app1).
  destruct a; cbn [act patches tampers] in *; try discriminate; try apply X;
    try (match goal with |- context [on_panel st ?k ?f] => destruct (on_panel_cases st k f) as [(p & d & _ & _ & ->)| ->] end; [|reflexivity]); try apply X.
  - destruct (grating_of _ _ _ _ _ _ _ _); [apply X|reflexivity].
  - destruct (computed_pattern _ _ _ _ _ _ _ _) as [[b one]|]; [apply X|reflexivity].
  - destruct (panels st k); reflexivity.
  - destruct (vars st w) as [q|]; [|reflexivity]. destruct (nth_error (arrays st) q); [apply X|reflexivity].
Qed.
Lemma length_grows st a : (length (arrays st) <= length (arrays (act st a)))%nat.
Proof.
  assert (X : forall b, (length (arrays st) <= length (arrays st ++ [b]))%nat) by (intros b; rewrite app_length; lia).
  destruct a; cbn [act]; try apply X;
    try (match goal with |- context [on_panel st ?k ?f] => destruct (on_panel_cases st k f) as [(p & d & _ & _ & ->)| ->] end; [|lia]); try apply X.
  - destruct (grating_of _ _ _ _ _ _ _ _); [apply X|lia].
  - destruct (grating_of _ _ _ _ _ _ _ _); [|lia]. destruct (fourier_plane_pixel_grid (d_slm d)) as [ii jj]. cbv zeta. destruct (masked_assign _ _ _ _ _); [|lia]. cbn [overwrite arrays]. now rewrite write_length.
  - destruct (computed_pattern _ _ _ _ _ _ _ _) as [[b one]|]; [apply X|lia].
  - destruct (panels st k); cbn [arrays]; lia.
  - destruct (vars st w); [|lia]. destruct (nth_error _ _); [apply X|lia].
  - destruct (panels st k); [|lia]. destruct (vars st v); cbn [arrays]; lia.
  - destruct (vars st v); [|lia]. destruct (nth_error _ _); [|lia]. destruct (in_range _ _ _); [|lia]. cbn [overwrite arrays]. now rewrite write_length.
Qed.
Lemma held_kept l0 l v : Forall (fun a => patches a = false /\ tampers a = false /\ assigns v a = false) l ->
  held (acts (acts empty_store l0) l) v = held (acts empty_store l0) v.
Proof.
  assert (H := reached l0). revert H. generalize (acts empty_store l0) as st. induction l as [|a r IH]; intros st Hv F; [reflexivity|].
  inversion F as [|? ? (Hp & Ht & Ha) Fr]; subst. cbn [acts fold_left]. fold (acts (act st a) r). rewrite IH by (try assumption; now apply act_valid).
  unfold held. rewrite act_vars by exact Ha. destruct (vars st v) as [n|] eqn:E; [|reflexivity]. apply act_arrays; try assumption. now apply (proj2 Hv v).
Qed.

(** ** devices do not influence each other *)
Definition separate (st : store) : Prop := valid st /\ forall k k' p p', panels st k = Some p -> panels st k' = Some p' -> k <> k' -> n_ref p <> n_ref p'.
Lemma rebind_separate st k p a : separate st -> separate (rebind st k p a).
Proof.
  intros (V & S). split; [now apply rebind_valid|]. cbn [rebind panels]. intros x y p1 p2. unfold set_nat. destruct (Nat.eqb_spec x k), (Nat.eqb_spec y k); intros E1 E2 N; try congruence.
  - injection E1 as <-. cbn [n_ref]. apply V in E2. lia.
  - injection E2 as <-. cbn [n_ref]. apply V in E1. lia.
  - now apply (S x y).
Qed.
Lemma overwrite_separate st n a : separate st -> separate (overwrite st n a).
Proof. intros (V & S). split; [now apply overwrite_valid|exact S]. Qed.
Lemma rebind_device st k p a l : valid st -> device_of (rebind st k p a) l =
  if Nat.eqb l k then Some {| d_slm := n_slm p; d_p := n_p p; d_theta := n_theta p; d_neg := n_neg p; d_state := a |} else device_of st l.
Proof.
  intros (P & V). unfold device_of. cbn [rebind panels]. unfold set_nat. destruct (Nat.eqb_spec l k).
  - unfold seen. cbn [rebind arrays n_ref n_slm n_p n_theta n_neg]. now rewrite nth_new.
  - destruct (panels st l) as [q|] eqn:E; [|reflexivity]. unfold seen. cbn [rebind arrays]. now rewrite nth_error_app1 by (now apply (P l)).
Qed.
Lemma overwrite_device st k p a l : separate st -> panels st k = Some p -> device_of (overwrite st (n_ref p) a) l =
  if Nat.eqb l k then Some {| d_slm := n_slm p; d_p := n_p p; d_theta := n_theta p; d_neg := n_neg p; d_state := a |} else device_of st l.
Proof.
  intros ((P & V) & S) E. unfold device_of. cbn [overwrite panels]. destruct (Nat.eqb_spec l k) as [->|N].
  - rewrite E. unfold seen. cbn [overwrite arrays]. now rewrite write_same by (now apply (P k)).
  - destruct (panels st l) as [q|] eqn:F; [|reflexivity]. unfold seen. cbn [overwrite arrays]. now rewrite write_other by (now apply (S l k)).
Qed.
Lemma seen_with st p d a : seen st p = Some d -> {| d_slm := n_slm p; d_p := n_p p; d_theta := n_theta p; d_neg := n_neg p; d_state := a |} = with_state d a.
Proof. unfold seen. destruct (nth_error _ _); intros H; [injection H as <-; reflexivity|discriminate]. Qed.
Lemma device_seen st k p d : panels st k = Some p -> seen st p = Some d -> device_of st k = Some d.
Proof. unfold device_of. now intros ->. Qed.
Lemma act_device st a k : separate st -> tampers a = false -> separate (act st a) /\ device_of (act st a) k = alone k (device_of st k) a.
Proof.
  intros S Ht. assert (V := proj1 S).
  destruct a as [n wl fl per th Nx Ny ps neg|n|n|n h amp pin pout m kw u|n h ci cj amp pin pout diam m kw u|n h i t m w kw u|v n|v w|n v|v i j b];
    cbn [tampers] in Ht; try discriminate; clear Ht; cbn [act alone].
  - split; [now apply rebind_separate|]. rewrite rebind_device by exact V. rewrite (Nat.eqb_sym k n). destruct (Nat.eqb n k); reflexivity.
  - unfold on_panel. destruct (panels st n) as [p|] eqn:E; [destruct (seen st p) as [d|] eqn:F|].
    + split; [now apply rebind_separate|]. rewrite rebind_device by exact V. rewrite (Nat.eqb_sym k n). destruct (Nat.eqb_spec n k) as [<-|]; [|reflexivity].
      rewrite (device_seen st n p d E F), (seen_with _ _ _ _ F). reflexivity.
    + split; [exact S|]. destruct (Nat.eqb_spec n k) as [<-|]; [|reflexivity]. unfold device_of. now rewrite E, F.
    + split; [exact S|]. destruct (Nat.eqb_spec n k) as [<-|]; [|reflexivity]. unfold device_of. now rewrite E.
  - unfold on_panel. destruct (panels st n) as [p|] eqn:E; [destruct (seen st p) as [d|] eqn:F|].
    + split; [now apply rebind_separate|]. rewrite rebind_device by exact V. rewrite (Nat.eqb_sym k n). destruct (Nat.eqb_spec n k) as [<-|]; [|reflexivity].
      rewrite (device_seen st n p d E F), (seen_with _ _ _ _ F). reflexivity.
    + split; [exact S|]. destruct (Nat.eqb_spec n k) as [<-|]; [|reflexivity]. unfold device_of. now rewrite E, F.
    + split; [exact S|]. destruct (Nat.eqb_spec n k) as [<-|]; [|reflexivity]. unfold device_of. now rewrite E.
  - unfold on_panel. destruct (panels st n) as [p|] eqn:E; [destruct (seen st p) as [d|] eqn:F|].
    + destruct (Nat.eqb_spec n k) as [<-|N].
      * rewrite (device_seen st n p d E F). cbn [option_map]. rewrite grating_state. destruct (grating_of h d amp pin pout m kw u) as [a|e].
        -- split; [now apply rebind_separate|]. now rewrite rebind_device, Nat.eqb_refl, (seen_with _ _ _ _ F) by exact V.
        -- split; [exact S|]. now apply (device_seen st n p d).
      * destruct (grating_of h d amp pin pout m kw u) as [a|e]; [|split; [exact S|reflexivity]]. split; [now apply rebind_separate|]. rewrite rebind_device by exact V.
        destruct (Nat.eqb_spec k n); [congruence|reflexivity].
    + split; [exact S|]. destruct (Nat.eqb_spec n k) as [<-|]; [|reflexivity]. unfold device_of. now rewrite E, F.
    + split; [exact S|]. destruct (Nat.eqb_spec n k) as [<-|]; [|reflexivity]. unfold device_of. now rewrite E.
  - unfold on_panel. destruct (panels st n) as [p|] eqn:E; [destruct (seen st p) as [d|] eqn:F|].
    + destruct (Nat.eqb_spec n k) as [<-|N].
      * rewrite (device_seen st n p d E F). cbn [option_map do_call]. unfold circular_patch. destruct (grating_of h d amp pin pout m kw u) as [new|e]; [|split; [exact S|now apply (device_seen st n p d)]].
        destruct (fourier_plane_pixel_grid (d_slm d)) as [ii jj]. cbv zeta. destruct (masked_assign _ _ _ _ _) as [a|]; [|split; [exact S|now apply (device_seen st n p d)]].
        split; [now apply overwrite_separate|]. now rewrite (overwrite_device st n p a n S E), Nat.eqb_refl, (seen_with _ _ _ _ F).
      * destruct (grating_of h d amp pin pout m kw u) as [new|e]; [|split; [exact S|reflexivity]].
        destruct (fourier_plane_pixel_grid (d_slm d)) as [ii jj]. cbv zeta. destruct (masked_assign _ _ _ _ _) as [a|]; [|split; [exact S|reflexivity]].
        split; [now apply overwrite_separate|]. rewrite (overwrite_device st n p a k S E). destruct (Nat.eqb_spec k n); [congruence|reflexivity].
    + split; [exact S|]. destruct (Nat.eqb_spec n k) as [<-|]; [|reflexivity]. unfold device_of. now rewrite E, F.
    + split; [exact S|]. destruct (Nat.eqb_spec n k) as [<-|]; [|reflexivity]. unfold device_of. now rewrite E.
  - unfold on_panel. destruct (panels st n) as [p|] eqn:E; [destruct (seen st p) as [d|] eqn:F|].
    + destruct (Nat.eqb_spec n k) as [<-|N].
      * rewrite (device_seen st n p d E F). cbn [option_map]. rewrite calculate_state. destruct (computed_pattern h d i t m w kw u) as [[a one]|e].
        -- split; [now apply rebind_separate|]. now rewrite rebind_device, Nat.eqb_refl, (seen_with _ _ _ _ F) by exact V.
        -- split; [exact S|]. now apply (device_seen st n p d).
      * destruct (computed_pattern h d i t m w kw u) as [[a one]|e]; [|split; [exact S|reflexivity]]. split; [now apply rebind_separate|]. rewrite rebind_device by exact V.
        destruct (Nat.eqb_spec k n); [congruence|reflexivity].
    + split; [exact S|]. destruct (Nat.eqb_spec n k) as [<-|]; [|reflexivity]. unfold device_of. now rewrite E, F.
    + split; [exact S|]. destruct (Nat.eqb_spec n k) as [<-|]; [|reflexivity]. unfold device_of. now rewrite E.
  - assert (H := act_valid st (AGet v n) V). cbn [act] in H. destruct (panels st n) as [p|] eqn:E; [|split; [exact S|reflexivity]]. split; [split; [exact H|apply S]|reflexivity].
  - assert (H := act_valid st (ACopy v w) V). cbn [act] in H. destruct (vars st w) as [q|] eqn:E; [|split; [exact S|reflexivity]].
    destruct (nth_error (arrays st) q) as [a|] eqn:F; [|split; [exact S|reflexivity]]. split; [split; [exact H|apply S]|].
    unfold device_of. cbn [panels]. destruct (panels st k) as [p|] eqn:G; [|reflexivity]. unfold seen. cbn [arrays]. now rewrite nth_error_app1 by (now apply (proj1 V k)).
Qed.
Lemma independent l k : Forall (fun a => tampers a = false) l -> device_of (acts empty_store l) k = fold_left (alone k) l None.
Proof.
  intros F. assert (S : separate empty_store) by (split; [exact empty_valid|cbn; discriminate]).
  change (@None dmd) with (device_of empty_store k). revert S. generalize empty_store as st. induction l as [|a r IH]; intros st S; [reflexivity|].
  inversion F as [|? ? Ha Fr]; subst. cbn [acts fold_left]. fold (acts (act st a) r). destruct (act_device st a k S Ha) as (S' & E). rewrite IH by assumption. now rewrite E.
Qed.

(** ** the alias and the copy *)
Lemma patch_effect st k h ci cj amp pin pout diam m kw u p : valid st -> panels st k = Some p ->
  exists a, arrays (act st (APatch k h ci cj amp pin pout diam m kw u)) = write (arrays st) (n_ref p) a /\ shown (act st (APatch k h ci cj amp pin pout diam m kw u)) k = Some a /\
    panels (act st (APatch k h ci cj amp pin pout diam m kw u)) = panels st.
Proof.
  intros V E. assert (L : (n_ref p < length (arrays st))%nat) by (now apply (proj1 V k)).
  assert (W : forall l n a, nth_error l n = Some a -> write l n a = l).
  { induction l as [|b r IH]; intros [|n] a Q; cbn [write nth_error] in *; try discriminate; [now injection Q as ->|now rewrite IH]. }
  assert (Same : exists a, arrays st = write (arrays st) (n_ref p) a /\ shown st k = Some a /\ panels st = panels st).
  { destruct (nth_error (arrays st) (n_ref p)) as [a|] eqn:F; [|apply nth_error_None in F; lia]. exists a. split; [now rewrite W|]. split; [|reflexivity]. unfold shown, device_of, seen. now rewrite E, F. }
  cbn [act]. unfold on_panel. rewrite E. destruct (seen st p) as [d|] eqn:F; [|exact Same]. destruct (grating_of h d amp pin pout m kw u) as [new|e]; [|exact Same].
  destruct (fourier_plane_pixel_grid (d_slm d)) as [ii jj]. cbv zeta. destruct (masked_assign _ _ _ _ _) as [a|]; [|exact Same].
  exists a. split; [reflexivity|]. split; [|reflexivity]. unfold shown, device_of. cbn [overwrite panels]. rewrite E. unfold seen. cbn [overwrite arrays]. now rewrite write_same.
Qed.
(** Device k and variable v refer to one array, whatever happens, until one of them is bound to another. *)
Lemma act_panel st a k p : renews k a = false -> panels st k = Some p -> panels (act st a) k = Some p.
Proof.
  intros H E. assert (X : forall n q b, Nat.eqb n k = false -> panels (rebind st n q b) k = Some p).
  { intros n q b N. cbn [rebind panels]. rewrite set_other; [exact E|]. intros ->. now rewrite Nat.eqb_refl in N. }
  destruct a; cbn [act renews] in *; try (now apply X); try exact E;
    try (match goal with |- context [on_panel st ?k ?f] => destruct (on_panel_cases st k f) as [(q & d & _ & _ & ->)| ->] end; [|exact E]); try (now apply X).
  - destruct (grating_of _ _ _ _ _ _ _ _); [now apply X|exact E].
  - destruct (grating_of _ _ _ _ _ _ _ _); [|exact E]. destruct (fourier_plane_pixel_grid (d_slm d)) as [ii jj]. cbv zeta. destruct (masked_assign _ _ _ _ _); exact E.
  - destruct (computed_pattern _ _ _ _ _ _ _ _) as [[b one]|]; [now apply X|exact E].
  - destruct (panels st k0); exact E.
  - destruct (vars st w); [|exact E]. destruct (nth_error _ _); exact E.
  - destruct (panels st k0); [|exact E]. destruct (vars st v); [|exact E]. cbn [panels]. rewrite set_other; [exact E|]. intros ->. now rewrite Nat.eqb_refl in H.
  - destruct (vars st v); [|exact E]. destruct (nth_error _ _); [|exact E]. destruct (in_range _ _ _); exact E.
Qed.
Lemma alias_follows l0 l v k : Forall (fun a => renews k a = false /\ assigns v a = false) l -> device_of (acts empty_store l0) k <> None ->
  held (acts (acts empty_store l0) (AGet v k :: l)) v = shown (acts (acts empty_store l0) (AGet v k :: l)) k.
Proof.
  intros F D. assert (V := reached l0). revert V D. generalize (acts empty_store l0) as st. intros st V D. unfold device_of in D. destruct (panels st k) as [p|] eqn:E; [|congruence]. clear D.
  cbn [acts fold_left]. fold (acts (act st (AGet v k)) l).
  assert (P : panels (act st (AGet v k)) k = Some p /\ vars (act st (AGet v k)) v = Some (n_ref p)) by (cbn [act]; rewrite E; cbn [panels vars]; now rewrite set_same).
  revert P. generalize (act st (AGet v k)) as st'. clear st V E. induction l as [|a r IH]; intros st (P & Q).
  - cbn [acts fold_left]. unfold held, shown, device_of, seen. rewrite Q, P. destruct (nth_error (arrays st) (n_ref p)); reflexivity.
  - inversion F as [|? ? (Hr & Ha) Fr]; subst. cbn [acts fold_left]. fold (acts (act st a) r). apply (IH Fr). split; [now apply act_panel|]. now rewrite act_vars.
Qed.
(** The array with number n is referred to by no device. *)
Definition private (st : store) (n : nat) : Prop := (n < length (arrays st))%nat /\ forall k p, panels st k = Some p -> n_ref p <> n.
Lemma act_private st a n : valid st -> private st n -> tampers a = false -> private (act st a) n /\ nth_error (arrays (act st a)) n = nth_error (arrays st) n.
Proof.
  intros V (L & P) Ht. assert (L' := Nat.lt_le_trans _ _ _ L (length_grows st a)).
  assert (X : forall k q b, private (rebind st k q b) n /\ nth_error (arrays (rebind st k q b)) n = nth_error (arrays st) n).
  { intros k q b. split; [|cbn [rebind arrays]; now apply nth_error_app1]. split; [cbn [rebind arrays]; rewrite app_length; lia|]. cbn [rebind panels]. intros x y. unfold set_nat. destruct (Nat.eqb x k); [|apply P].
    intros Q; injection Q as <-. cbn [n_ref]. lia. }
  assert (Y : private st n /\ nth_error (arrays st) n = nth_error (arrays st) n) by (split; [split; assumption|reflexivity]).
  destruct a; cbn [act tampers] in *; try discriminate; try apply X;
    try (match goal with |- context [on_panel st ?k ?f] => destruct (on_panel_cases st k f) as [(q & d & Eq & _ & EE)|EE]; rewrite EE in *; clear EE end; [|exact Y]); try apply X.
  - destruct (grating_of _ _ _ _ _ _ _ _); [apply X|exact Y].
  - destruct (grating_of _ _ _ _ _ _ _ _); [|exact Y]. destruct (fourier_plane_pixel_grid (d_slm d)) as [ii jj]. cbv zeta in *. destruct (masked_assign _ _ _ _ _) as [b|]; [|exact Y].
    split; [split; [exact L'|exact P]|]. cbn [overwrite arrays]. apply write_other. intros ->. now apply (P k q Eq).
  - destruct (computed_pattern _ _ _ _ _ _ _ _) as [[b one]|]; [apply X|exact Y].
  - destruct (panels st k); [|exact Y]. split; [split; [exact L|exact P]|reflexivity].
  - destruct (vars st w); [|exact Y]. destruct (nth_error (arrays st) n0); [|exact Y]. split; [split; [exact L'|exact P]|]. cbn [arrays]. now apply nth_error_app1.
Qed.
Lemma copy_kept l0 l v w k : Forall (fun a => tampers a = false /\ assigns v a = false) l -> device_of (acts empty_store l0) k <> None ->
  held (acts (acts empty_store l0) (AGet w k :: ACopy v w :: l)) v = shown (acts empty_store l0) k.
Proof.
  intros F D. assert (V := reached l0). revert V D. generalize (acts empty_store l0) as st. intros st V D. unfold device_of in D. destruct (panels st k) as [p|] eqn:E; [|congruence]. clear D.
  assert (Lp := proj1 V _ _ E). destruct (nth_error (arrays st) (n_ref p)) as [a|] eqn:G; [|apply nth_error_None in G; lia].
  cbn [acts fold_left]. fold (acts (act (act st (AGet w k)) (ACopy v w)) l).
  assert (V2 : valid (act (act st (AGet w k)) (ACopy v w))) by (now apply act_valid, act_valid). revert V2.
  cbn [act]. rewrite E. cbn [vars arrays]. rewrite set_same, G. cbn [panels].
  replace (shown st k) with (Some a) by (unfold shown, device_of, seen; now rewrite E, G).
  match goal with |- valid ?s -> _ => assert (Q : private s (length (arrays st)) /\ nth_error (arrays s) (length (arrays st)) = Some a /\ vars s v = Some (length (arrays st))) end.
  { cbn [arrays vars]. split; [|split; [apply nth_new|apply set_same]]. split; [cbn [arrays]; rewrite app_length; cbn [length]; lia|]. cbn [panels]. intros x y Hx. apply V in Hx. lia. }
  revert Q. generalize (length (arrays st)) as n. intros n. match goal with |- context [acts ?s l] => generalize s as st' end. clear st V p E Lp G.
  induction l as [|b r IH]; intros st (Pn & Na & Vn) V.
  - cbn [acts fold_left]. unfold held. now rewrite Vn.
  - inversion F as [|? ? (Ht & Ha) Fr]; subst. cbn [acts fold_left]. fold (acts (act st b) r). destruct (act_private st b n V Pn Ht) as (Pn' & Nn). apply (IH Fr).
    + split; [exact Pn'|]. split; [now rewrite Nn|]. now rewrite act_vars.
    + now apply act_valid.
Qed.
