(** Reading back the attributes of profile objects. *)
From Coq Require Import Reals Lra ZArith Arith List Bool Lia.
From Coquelicot Require Import Complex.
From Verif Require Import Cx Sums PyBase ProfileModel ProfSpec ProfFacts ProfFacts2.
Import ListNotations.
Open Scope R_scope.

(** The attributes of each kind of object as built. *)
Lemma const_attrs h v h1 p : new_const h v = (h1, p) -> get_attr h1 p Fc = Ok (GotVar v) /\ NoDup (locs p).
Proof.
  unfold new_const, h_alloc. intros E. injection E as <- <-. cbn. rewrite Nat.eqb_refl. split; [reflexivity|]. repeat constructor. intros [].
Qed.
Ltac heap_reads := cbn [get_attr h_val h_alloc fold_left fst snd h_next];
  repeat match goal with |- context [Nat.eqb ?a ?b] => first [replace (Nat.eqb a b) with true by (symmetry; apply Nat.eqb_eq; lia) | replace (Nat.eqb a b) with false by (symmetry; apply Nat.eqb_neq; lia)] end; try reflexivity.
Ltac nodups := cbn [locs]; repeat constructor; cbn [In]; intuition lia.
Lemma hg_attrs h x0 y0 a w n m h1 p : hg_new h x0 y0 a w n m = Ok (h1, p) ->
  get_attr h1 p Fx0 = Ok (GotVar (VR x0)) /\ get_attr h1 p Fy0 = Ok (GotVar (VR y0)) /\ get_attr h1 p Fa = Ok (GotVar (VR a)) /\
  get_attr h1 p Fw = Ok (GotVar (VR w)) /\ get_attr h1 p Fn = Ok (GotInt n) /\ get_attr h1 p Fm = Ok (GotInt m) /\ NoDup (locs p).
Proof.
  unfold hg_new, alloc_reals. destruct ((n <? 0)%Z || (m <? 0)%Z)%bool eqn:B; [discriminate|]. intros E. injection E as <- <-.
  apply orb_false_iff in B. destruct B as [B1 B2]. apply Z.ltb_ge in B1, B2. repeat split; try solve [heap_reads|nodups].
  - cbn [get_attr]. rewrite Z2Nat.id by exact B1. reflexivity.
  - cbn [get_attr]. rewrite Z2Nat.id by exact B2. reflexivity.
Qed.
Lemma sg_attrs h x0 y0 a w q h1 p : sg_new h x0 y0 a w q = (h1, p) ->
  get_attr h1 p Fx0 = Ok (GotVar (VR x0)) /\ get_attr h1 p Fy0 = Ok (GotVar (VR y0)) /\ get_attr h1 p Fa = Ok (GotVar (VR a)) /\
  get_attr h1 p Fw = Ok (GotVar (VR w)) /\ get_attr h1 p Fp = Ok (GotVar (VR q)) /\ NoDup (locs p).
Proof. unfold sg_new, alloc_reals. intros E. injection E as <- <-. repeat split; solve [heap_reads|nodups]. Qed.
Lemma rect_attrs h x0 y0 wx wy h1 p : rect_new h x0 y0 wx wy = (h1, p) ->
  get_attr h1 p Fx0 = Ok (GotVar (VR x0)) /\ get_attr h1 p Fy0 = Ok (GotVar (VR y0)) /\ get_attr h1 p Fwx = Ok (GotVar (VR wx)) /\
  get_attr h1 p Fwy = Ok (GotVar (VR wy)) /\ NoDup (locs p).
Proof. unfold rect_new, alloc_reals. intros E. injection E as <- <-. repeat split; solve [heap_reads|nodups]. Qed.
Lemma circ_attrs h x0 y0 r h1 p : circ_new h x0 y0 r = (h1, p) ->
  get_attr h1 p Fx0 = Ok (GotVar (VR x0)) /\ get_attr h1 p Fy0 = Ok (GotVar (VR y0)) /\ get_attr h1 p Fr = Ok (GotVar (VR r)) /\ NoDup (locs p).
Proof. unfold circ_new, alloc_reals. intros E. injection E as <- <-. repeat split; solve [heap_reads|nodups]. Qed.
Lemma zern_inv h a r n m nz ex h1 p : zernike_new h a r n m nz ex = Ok (h1, p) ->
  exists nrm, zern_norm n m nz = Ok nrm /\ h1 = fst (h_alloc (VR a) h) /\ p = PZern (h_next h) r n m nrm ex (zern_coef n m).
Proof.
  unfold zernike_new. destruct (negb _); [discriminate|]. destruct (negb _); [discriminate|]. destruct (zern_norm n m nz) as [nrm|]; [|discriminate].
  unfold h_alloc. cbn. intros E. injection E as <- <-. exists nrm. repeat split.
Qed.
Lemma zern_attrs h a r n m nz ex h1 p : zernike_new h a r n m nz ex = Ok (h1, p) ->
  get_attr h1 p Fa = Ok (GotVar (VR a)) /\ get_attr h1 p Fradius = Ok (GotFloat r) /\
  get_attr h1 p Fnorm = Ok (if nz then GotFloat (sqrt (if (m =? 0)%Z then IZR (n + 1) else IZR (2 * n + 2))) else GotNone) /\
  is_normalized p = Ok nz /\ NoDup (locs p).
Proof.
  intros E. destruct (zern_inv _ _ _ _ _ _ _ _ _ E) as (nrm & N & -> & ->). cbn. rewrite Nat.eqb_refl. split; [reflexivity|]. split; [reflexivity|].
  unfold zern_norm in N. destruct nz.
  - assert (K : nrm = Some (sqrt (if (m =? 0)%Z then IZR (n + 1) else IZR (2 * n + 2)))).
    { destruct (m =? 0)%Z; [destruct (n + 1 <? 0)%Z|destruct (2 * n + 2 <? 0)%Z]; try discriminate; injection N as <-; reflexivity. }
    rewrite K. split; [reflexivity|]. split; [reflexivity|]. repeat constructor. intros [].
  - injection N as <-. split; [reflexivity|]. split; [reflexivity|]. repeat constructor. intros [].
Qed.
(** Zernike orders cannot be read; a Laguerre-Gauss object has nothing to read. *)
Lemma zern_orders_unreadable h a r n m nz ex h1 p : zernike_new h a r n m nz ex = Ok (h1, p) ->
  get_attr h1 p Fn = Err AttributeError /\ get_attr h1 p Fm = Err AttributeError.
Proof. intros E. destruct (zern_inv _ _ _ _ _ _ _ _ _ E) as (nrm & N & -> & ->). split; reflexivity. Qed.
Lemma lg_unreadable h x0 y0 a w l q h1 p f : lg_new h x0 y0 a w l q = Ok (h1, p) -> get_attr h1 p f = Err AttributeError.
Proof. unfold lg_new, alloc_reals. destruct (q <? 0)%Z; [discriminate|]. intros E. injection E as <- <-. destruct f; reflexivity. Qed.

(** Assignment followed by reading. *)
Lemma var_setter h p f old : get_attr h p f = Ok (GotVar old) -> exists l, attr_target p f = Setter l /\ h_val h l = old /\ (forall h', get_attr h' p f = Ok (GotVar (h_val h' l))).
Proof.
  destruct p, f; cbn; intros E; try discriminate E; try (injection E as <-; eexists; repeat split; reflexivity).
  destruct norm; discriminate E.
Qed.
Lemma read_back h p f v old h' : get_attr h p f = Ok (GotVar old) -> set_attr h p f v = (h', Ok tt) ->
  get_attr h' p f = Ok (GotVar (match old with VR _ => v | VC _ => VC (to_c v) end)).
Proof.
  intros G E. destruct (var_setter _ _ _ _ G) as (l & T & O & R). rewrite R. unfold set_attr in E. rewrite T in E. unfold assign in E. rewrite O in E.
  destruct old, v; try discriminate; injection E as <-; cbn; rewrite Nat.eqb_refl; reflexivity.
Qed.
Lemma rejected h p f v old : get_attr h p f = Ok (GotVar old) -> snd (set_attr h p f v) <> Ok tt -> exists r z, old = VR r /\ v = VC z /\ set_attr h p f v = (h, Err TypeError).
Proof.
  intros G E. destruct (var_setter _ _ _ _ G) as (l & T & O & R). unfold set_attr, assign in *. rewrite T in *. rewrite O in *. destruct old, v; try (exfalso; apply E; reflexivity).
  do 2 eexists. repeat split.
Qed.
Lemma read_other h p f g v : NoDup (locs p) -> f <> g -> get_attr (fst (set_attr h p f v)) p g = get_attr h p g.
Proof.
  intros N Hne. destruct (get_attr h p g) as [gv|e] eqn:G.
  - destruct gv as [old| | |]; try (destruct p, g; cbn in *; try discriminate G; exact G).
    destruct (var_setter _ _ _ _ G) as (l & T & O & R). rewrite R. do 2 f_equal. rewrite <- O. unfold set_attr.
    destruct (attr_target p f) as [l'| |] eqn:T'; try reflexivity. apply assign_other. intros ->.
    destruct p; destruct f; cbn in T'; try discriminate T'; destruct g; cbn in T; try discriminate T; try congruence;
      injection T' as T'; injection T as T; cbn [locs] in N;
      repeat match goal with H : NoDup (_ :: _) |- _ => inversion H; clear H; subst end; cbn [In] in *; intuition congruence.
  - destruct p, g; cbn in *; try discriminate G; exact G.
Qed.
(** Whatever can be read but is not a variable cannot be assigned. *)
Lemma read_only h p f v k : get_attr h p f = Ok k -> (forall z, k <> GotVar z) -> set_attr h p f v = (h, Err AttributeError).
Proof. intros G K. destruct p, f; cbn in G; try discriminate G; try (injection G as <-; exfalso; eapply K; reflexivity); reflexivity. Qed.
Lemma orders_refuted : exists h a r n m nz ex h1 p, zernike_new h a r n m nz ex = Ok (h1, p) /\
  get_attr h1 p Fn <> Ok (GotInt n) /\ get_attr h1 p Fm <> Ok (GotInt m).
Proof.
  exists heap0, 1, 1, 2%Z, 0%Z, true, false. do 2 eexists. split; [reflexivity|]. split; discriminate.
Qed.
