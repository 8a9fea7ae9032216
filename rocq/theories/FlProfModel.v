(** Operators and transformations of real profiles with rounding. *)
From Coq Require Import Reals ZArith List.
From Coquelicot Require Import Complex.
From Verif Require Import Cx ProfileModel FlZernModel.
Open Scope R_scope.

(** profile.py:28 on two real tensors; a quotient by 0 is an infinity or a NaN, None here. *)
Definition fl_bin (l : zlib) (o : binop) (a b : R) : option R :=
  match o with
  | Oadd => Some (z_rnd l (a + b)) | Oradd => Some (z_rnd l (b + a)) | Osub => Some (z_rnd l (a - b))
  | Omul => Some (z_rnd l (a * b)) | Ormul => Some (z_rnd l (b * a))
  | Odiv => if Req_EM_T b 0 then None else Some (z_rnd l (a / b))
  end.
(** `_func(x, y)` at one point. [basic] gives the computed values of the mode and window classes, [f_pow] is tf.pow.
    None: a complex profile or not a finite number. *)
Fixpoint fl_func (l : zlib) (f_pow : R -> R -> option R) (basic : prof -> R -> R -> R) (h : heap) (p : prof) (x y : R) : option R :=
  match p with
  | PConst c => match h_val h c with VR r => Some (z_rnd l r) | VC _ => None end                        (* profile.py:173-178, rounded on creation *)
  | PHG _ _ _ _ _ _ | PSG _ _ _ _ _ | PZern _ _ _ _ _ _ _ | PRect _ _ _ _ | PCirc _ _ _ => Some (basic p x y)
  | PBin o p q => match fl_func l f_pow basic h p x y, fl_func l f_pow basic h q x y with Some a, Some b => fl_bin l o a b | _, _ => None end   (* profile.py:19-28 *)
  | PRot th p =>                                                                                        (* profile.py:104-109 *)
      let c := z_cos l (z_rnd l th) in
      let s := z_sin l (z_rnd l th) in
      fl_func l f_pow basic h p (z_rnd l (z_rnd l (c * x) - z_rnd l (s * y))) (z_rnd l (z_rnd l (s * x) + z_rnd l (c * y)))
  | PShift dx dy p => fl_func l f_pow basic h p (z_rnd l (x - z_rnd l dx)) (z_rnd l (y - z_rnd l dy))         (* profile.py:128-135 *)
  | PScaleX m p => if Req_EM_T (z_rnd l m) 0 then None else fl_func l f_pow basic h p (z_rnd l (x / z_rnd l m)) y   (* profile.py:139-144 *)
  | PScaleY m p => if Req_EM_T (z_rnd l m) 0 then None else fl_func l f_pow basic h p x (z_rnd l (y / z_rnd l m))   (* profile.py:148-153 *)
  | PPow p q => match fl_func l f_pow basic h p x y, fl_func l f_pow basic h q x y with Some a, Some b => f_pow a b | _, _ => None end   (* profile.py:19-28, 80-83 *)
  | PPowR p k => match fl_func l f_pow basic h p x y with Some a => f_pow a (z_rnd l k) | None => None end     (* profile.py:29-30, 80-83 *)
  | PBase | PLG _ _ _ _ _ _ | PPowC _ _ | PAsC _ => None
  end.
(** profile.py:14-17 FunctionProfile.__call__ of a real profile. *)
Definition fl_call (l : zlib) (f_pow : R -> R -> option R) (basic : prof -> R -> R -> R) (h : heap) (p : prof) (x y : R) : option R := fl_func l f_pow basic h p (z_rnd l x) (z_rnd l y).
(** profile.py:14-17, 168-169 FunctionProfile.__call__ of p.as_complex_profile(), p real. The product with 1j only exchanges the parts; the complex exponential of
    i t is (z_cos t, z_sin t). *)
Definition fl_call_complex (l : zlib) (f_pow : R -> R -> option R) (basic : prof -> R -> R -> R) (h : heap) (p : prof) (x y : R) : option C :=
  match fl_call l f_pow basic h p x y with Some t => Some (z_cos l t, z_sin l t) | None => None end.
