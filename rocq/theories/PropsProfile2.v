(** C78, C79: reading the attributes of profile objects. *)
From Coq Require Import Reals Lra ZArith Arith List Bool Lia.
From Coquelicot Require Import Complex.
From Verif Require Import Cx Sums PyBase ProfileModel AttrFacts.
Import ListNotations.
Open Scope R_scope.

(** ** C78 *)
Theorem C78_constant : forall h v h1 p, new_const h v = (h1, p) -> get_attr h1 p Fc = Ok (GotVar v) /\ NoDup (locs p).
Proof. exact const_attrs. Qed.
Print Assumptions C78_constant.
Theorem C78_hermite_gaussian : forall h x0 y0 a w n m h1 p, hg_new h x0 y0 a w n m = Ok (h1, p) ->
  get_attr h1 p Fx0 = Ok (GotVar (VR x0)) /\ get_attr h1 p Fy0 = Ok (GotVar (VR y0)) /\ get_attr h1 p Fa = Ok (GotVar (VR a)) /\
  get_attr h1 p Fw = Ok (GotVar (VR w)) /\ get_attr h1 p Fn = Ok (GotInt n) /\ get_attr h1 p Fm = Ok (GotInt m) /\ NoDup (locs p).
Proof. exact hg_attrs. Qed.
Print Assumptions C78_hermite_gaussian.
Theorem C78_super_gaussian : forall h x0 y0 a w q h1 p, sg_new h x0 y0 a w q = (h1, p) ->
  get_attr h1 p Fx0 = Ok (GotVar (VR x0)) /\ get_attr h1 p Fy0 = Ok (GotVar (VR y0)) /\ get_attr h1 p Fa = Ok (GotVar (VR a)) /\
  get_attr h1 p Fw = Ok (GotVar (VR w)) /\ get_attr h1 p Fp = Ok (GotVar (VR q)) /\ NoDup (locs p).
Proof. exact sg_attrs. Qed.
Print Assumptions C78_super_gaussian.
Theorem C78_rectangle : forall h x0 y0 wx wy h1 p, rect_new h x0 y0 wx wy = (h1, p) ->
  get_attr h1 p Fx0 = Ok (GotVar (VR x0)) /\ get_attr h1 p Fy0 = Ok (GotVar (VR y0)) /\ get_attr h1 p Fwx = Ok (GotVar (VR wx)) /\
  get_attr h1 p Fwy = Ok (GotVar (VR wy)) /\ NoDup (locs p).
Proof. exact rect_attrs. Qed.
Print Assumptions C78_rectangle.
Theorem C78_circle : forall h x0 y0 r h1 p, circ_new h x0 y0 r = (h1, p) ->
  get_attr h1 p Fx0 = Ok (GotVar (VR x0)) /\ get_attr h1 p Fy0 = Ok (GotVar (VR y0)) /\ get_attr h1 p Fr = Ok (GotVar (VR r)) /\ NoDup (locs p).
Proof. exact circ_attrs. Qed.
Print Assumptions C78_circle.
Theorem C78_zernike : forall h a r n m nz ex h1 p, zernike_new h a r n m nz ex = Ok (h1, p) ->
  get_attr h1 p Fa = Ok (GotVar (VR a)) /\ get_attr h1 p Fradius = Ok (GotFloat r) /\
  get_attr h1 p Fnorm = Ok (if nz then GotFloat (sqrt (if (m =? 0)%Z then IZR (n + 1) else IZR (2 * n + 2))) else GotNone) /\
  is_normalized p = Ok nz /\ NoDup (locs p).
Proof. exact zern_attrs. Qed.
Print Assumptions C78_zernike.
(** An accepted assignment is read back, as a complex number from a complex constant. *)
Theorem C78_read_back : forall h p f v old h', get_attr h p f = Ok (GotVar old) -> set_attr h p f v = (h', Ok tt) ->
  get_attr h' p f = Ok (GotVar (match old with VR _ => v | VC _ => VC (to_c v) end)).
Proof. exact read_back. Qed.
Print Assumptions C78_read_back.
(** The only assignment to a readable variable that is refused is a complex number to a real one; nothing changes. *)
Theorem C78_refused : forall h p f v old, get_attr h p f = Ok (GotVar old) -> snd (set_attr h p f v) <> Ok tt ->
  exists r z, old = VR r /\ v = VC z /\ set_attr h p f v = (h, Err TypeError).
Proof. exact rejected. Qed.
Print Assumptions C78_refused.
Theorem C78_others_unchanged : forall h p f g v, NoDup (locs p) -> f <> g -> get_attr (fst (set_attr h p f v)) p g = get_attr h p g.
Proof. exact read_other. Qed.
Print Assumptions C78_others_unchanged.
Theorem C78_read_only : forall h p f v k, get_attr h p f = Ok k -> (forall z, k <> GotVar z) -> set_attr h p f v = (h, Err AttributeError).
Proof. exact read_only. Qed.
Print Assumptions C78_read_only.
Example C78_case : exists h1 p h2, hg_new heap0 1 2 3 4 5 6 = Ok (h1, p) /\ set_attr h1 p Fw (VR 7) = (h2, Ok tt) /\
  get_attr h2 p Fw = Ok (GotVar (VR 7)) /\ get_attr h2 p Fa = Ok (GotVar (VR 3)) /\ set_attr h2 p Fn (VR 1) = (h2, Err AttributeError) /\
  snd (set_attr h2 p Fw (VC (1, 1))) = Err TypeError.
Proof. do 3 eexists. split; [reflexivity|]. split; [reflexivity|]. repeat split. Qed.

(** ** C79 *)
(** Property "the orders of a Zernike profile can be read": the getters raise for every Zernike object. *)
Theorem C79_orders_readable_refuted : exists h a r n m nz ex h1 p, zernike_new h a r n m nz ex = Ok (h1, p) /\
  get_attr h1 p Fn <> Ok (GotInt n) /\ get_attr h1 p Fm <> Ok (GotInt m).
Proof. exact orders_refuted. Qed.
Print Assumptions C79_orders_readable_refuted.
Theorem C79_getters_always_raise : forall h a r n m nz ex h1 p, zernike_new h a r n m nz ex = Ok (h1, p) ->
  get_attr h1 p Fn = Err AttributeError /\ get_attr h1 p Fm = Err AttributeError.
Proof. exact zern_orders_unreadable. Qed.
Print Assumptions C79_getters_always_raise.
Theorem C79_laguerre_has_no_getters : forall h x0 y0 a w l q h1 p f, lg_new h x0 y0 a w l q = Ok (h1, p) -> get_attr h1 p f = Err AttributeError.
Proof. exact lg_unreadable. Qed.
Print Assumptions C79_laguerre_has_no_getters.
Example C79_case : exists h1 p h2 q, zernike_new heap0 1 2 4 2 true false = Ok (h1, p) /\ lg_new heap0 0 0 1 1 1 0 = Ok (h2, q).
Proof. do 4 eexists. split; [reflexivity|reflexivity]. Qed.
