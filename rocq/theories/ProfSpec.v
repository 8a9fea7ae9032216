(** Vocabulary for properties of profile objects. *)
From Coq Require Import Reals ZArith Arith List Bool Lia.
From Coquelicot Require Import Complex.
From Verif Require Import Cx PyBase ProfileModel.
Import ListNotations.
Open Scope R_scope.

Definition is_complex (v : val) : bool := match v with VR _ => false | VC _ => true end.
(** In heap h the profile p evaluates at (x, y) to the number z; k tells whether the element type is complex. *)
Definition gives (h : heap) (p : prof) (x y : R) (z : C) (k : bool) : Prop :=
  exists v, func h p x y = Ok v /\ to_c v = z /\ is_complex v = k.
(** All variables of p are allocated in h. *)
Definition lives (h : heap) (p : prof) : Prop := forall l, In l (locs p) -> (l < h_next h)%nat.
(** p in h and q in h' have the same value (or raise the same error) at every point. *)
Definition same_value (h : heap) (p : prof) (h' : heap) (q : prof) : Prop := forall x y, func h p x y = func h' q x y.
Definition same_heap (h h' : heap) : Prop := h_next h = h_next h' /\ forall l, h_val h l = h_val h' l.
(** Every object of h is still there in h' and has not changed. *)
Definition keeps (h h' : heap) : Prop := forall q, lives h q -> lives h' q /\ same_value h q h' q.
(** The mathematical operation behind an operator method. *)
Definition arith (o : binop) (a b : C) : C :=
  match o with Oadd => (a + b)%C | Oradd => (b + a)%C | Osub => (a - b)%C | Omul => (a * b)%C | Ormul => (b * a)%C | Odiv => (a / b)%C end.
(** A number operand and its kind. *)
Definition number (q : operand) : option (C * bool) :=
  match q with OReal r => Some (RtoC r, false) | OComplex z => Some (z, true) | _ => None end.
(** Principal logarithm of a nonzero number, and repeated multiplication. *)
Definition clog (z : C) : C := (ln (Cmod z), carg z).
Fixpoint cmul_n (z : C) (n : nat) : C := match n with O => RtoC 1 | S k => (z * cmul_n z k)%C end.
(** Some leaf of the expression is complex. *)
Fixpoint complex_leaf (h : heap) (p : prof) : bool :=
  match p with
  | PConst c => is_complex (h_val h c)
  | PLG _ _ _ _ _ _ | PPowC _ _ | PAsC _ => true
  | PBin _ p q | PPow p q => complex_leaf h p || complex_leaf h q
  | PPowR p _ | PRot _ p | PShift _ _ p | PScaleX _ p | PScaleY _ p => complex_leaf h p
  | _ => false
  end.
(** A bare FunctionProfile occurs in the expression. *)
Fixpoint has_base (p : prof) : bool :=
  match p with
  | PBase => true
  | PBin _ p q | PPow p q => has_base p || has_base q
  | PPowR p _ | PPowC p _ | PRot _ p | PShift _ _ p | PScaleX _ p | PScaleY _ p | PAsC p => has_base p
  | _ => false
  end.
(** The profiles with which the expression was built. *)
Fixpoint leaves (p : prof) : list prof :=
  match p with
  | PBin _ p q | PPow p q => leaves p ++ leaves q
  | PPowR p _ | PPowC p _ | PRot _ p | PShift _ _ p | PScaleX _ p | PScaleY _ p | PAsC p => leaves p
  | p => [p]
  end.
Definition constant_leaf (p : prof) : Prop := exists c, p = PConst c.
(** No division, no power, no zero width, radius or magnification. *)
Fixpoint regular (h : heap) (p : prof) : Prop :=
  match p with
  | PBase => False
  | PConst _ | PRect _ _ _ _ | PCirc _ _ _ => True
  | PHG _ _ _ w _ _ | PLG _ _ _ w _ _ => getR h w <> 0
  | PSG _ _ _ w q => getR h w <> 0 /\ 0 < getR h q
  | PZern _ radius _ _ _ _ _ => radius <> 0
  | PBin o p q => o <> Odiv /\ regular h p /\ regular h q
  | PPow _ _ | PPowR _ _ | PPowC _ _ => False
  | PScaleX m p | PScaleY m p => m <> 0 /\ regular h p
  | PRot _ p | PShift _ _ p | PAsC p => regular h p
  end.

(** ** Programs that build profiles: a list of existing objects, each step appends one. *)
Inductive dopnd := KProf (j : nat) | KReal (r : R) | KComplex (z : C) | KOther.
Inductive dop :=
| DConst (v : val) | DBin (o : binop) (i : nat) (q : dopnd) | DNeg (i : nat) | DPow (i : nat) (q : dopnd)
| DRot (i : nat) (t : R) | DShift (i : nat) (dx dy : R) | DScaleX (i : nat) (m : R) | DScaleY (i : nat) (m : R) | DAsC (i : nat).
Definition operand_of (env : list prof) (q : dopnd) : operand :=
  match q with
  | KProf j => match nth_error env j with Some p => OProf p | None => OOther end
  | KReal r => OReal r | KComplex z => OComplex z | KOther => OOther
  end.
Definition push (env : list prof) (r : heap * res prof) : heap * list prof :=
  match r with (h, Ok p) => (h, env ++ [p]) | (h, Err _) => (h, env) end.
Definition run_dop (s : heap * list prof) (o : dop) : heap * list prof :=
  let (h, env) := s in
  let on i f := match nth_error env i with Some p => push env (f p) | None => (h, env) end in
  match o with
  | DConst v => let (h1, p) := new_const h v in push env (h1, Ok p)
  | DBin b i q => on i (fun p => p_binop b h p (operand_of env q))
  | DNeg i => on i (fun p => p_neg h p)
  | DPow i q => on i (fun p => (h, p_pow p (operand_of env q)))
  | DRot i t => on i (fun p => (h, Ok (p_rotate p t)))
  | DShift i dx dy => on i (fun p => (h, Ok (p_shift p dx dy)))
  | DScaleX i m => on i (fun p => (h, Ok (p_rescale_x p m)))
  | DScaleY i m => on i (fun p => (h, Ok (p_rescale_y p m)))
  | DAsC i => on i (fun p => (h, Ok (p_as_complex p)))
  end.
Definition run_dops := fold_left run_dop.
(** Constructor calls with settable parameters. *)
Inductive creation :=
| NewConst (v : val) | NewHG (x0 y0 a w : R) (n m : Z) | NewSG (x0 y0 a w p : R)
| NewZernike (a radius : R) (n m : Z) (normalize extrap : bool) | NewRect (x0 y0 wx wy : R) | NewCirc (x0 y0 r : R).
Definition create (h : heap) (c : creation) : res (heap * prof) :=
  match c with
  | NewConst v => Ok (new_const h v)
  | NewHG x0 y0 a w n m => hg_new h x0 y0 a w n m
  | NewSG x0 y0 a w p => Ok (sg_new h x0 y0 a w p)
  | NewZernike a r n m b e => zernike_new h a r n m b e
  | NewRect x0 y0 wx wy => Ok (rect_new h x0 y0 wx wy)
  | NewCirc x0 y0 r => Ok (circ_new h x0 y0 r)
  end.
(** The same constructor call with one parameter replaced. *)
Definition with_field (c : creation) (f : field) (v : val) : option creation :=
  match c, f, v with
  | NewConst (VR _), Fc, VR r => Some (NewConst (VR r))
  | NewConst (VC _), Fc, v => Some (NewConst (VC (to_c v)))
  | NewHG x0 y0 a w n m, Fx0, VR r => Some (NewHG r y0 a w n m)
  | NewHG x0 y0 a w n m, Fy0, VR r => Some (NewHG x0 r a w n m)
  | NewHG x0 y0 a w n m, Fa, VR r => Some (NewHG x0 y0 r w n m)
  | NewHG x0 y0 a w n m, Fw, VR r => Some (NewHG x0 y0 a r n m)
  | NewSG x0 y0 a w p, Fx0, VR r => Some (NewSG r y0 a w p)
  | NewSG x0 y0 a w p, Fy0, VR r => Some (NewSG x0 r a w p)
  | NewSG x0 y0 a w p, Fa, VR r => Some (NewSG x0 y0 r w p)
  | NewSG x0 y0 a w p, Fw, VR r => Some (NewSG x0 y0 a r p)
  | NewSG x0 y0 a w p, Fp, VR r => Some (NewSG x0 y0 a w r)
  | NewZernike a rad n m b e, Fa, VR r => Some (NewZernike r rad n m b e)
  | NewRect x0 y0 wx wy, Fx0, VR r => Some (NewRect r y0 wx wy)
  | NewRect x0 y0 wx wy, Fy0, VR r => Some (NewRect x0 r wx wy)
  | NewRect x0 y0 wx wy, Fwx, VR r => Some (NewRect x0 y0 r wy)
  | NewRect x0 y0 wx wy, Fwy, VR r => Some (NewRect x0 y0 wx r)
  | NewCirc x0 y0 rr, Fx0, VR r => Some (NewCirc r y0 rr)
  | NewCirc x0 y0 rr, Fy0, VR r => Some (NewCirc x0 r rr)
  | NewCirc x0 y0 rr, Fr, VR r => Some (NewCirc x0 y0 r)
  | _, _, _ => None
  end.
(** Geometric transforms of a profile. *)
Inductive transform := TRot (theta : R) | TShift (dx dy : R) | TScaleX (m : R) | TScaleY (m : R).
Definition apply_t (t : transform) (p : prof) : prof :=
  match t with TRot th => p_rotate p th | TShift dx dy => p_shift p dx dy | TScaleX m => p_rescale_x p m | TScaleY m => p_rescale_y p m end.
Definition apply_operand (t : transform) (q : operand) : operand := match q with OProf q => OProf (apply_t t q) | q => q end.
(** v is a value of a^b: principal branch, 0^0 = 1, 0^b = 0 for positive real part. *)
Definition pow_result (a b v : C) : Prop :=
  (a <> RtoC 0 -> v = cexp (b * clog a)%C) /\ (a = RtoC 0 -> (b = RtoC 0 /\ v = RtoC 1) \/ (0 < fst b /\ v = RtoC 0)).
(** Histories of one object: build steps and assignments to it, in any order. *)
Inductive hstep := HBuild (o : dop) | HSet (f : field) (v : val).
Definition run_hstep (p : prof) (s : heap * list prof) (o : hstep) : heap * list prof :=
  match o with HBuild o => run_dop s o | HSet f v => (fst (set_attr (fst s) p f v), snd s) end.
Definition run_hist (p : prof) := fold_left (run_hstep p).
(** The build steps of a history, and the constructor call with all assigned values. *)
Definition builds (l : list hstep) : list dop := flat_map (fun o => match o with HBuild o => [o] | HSet _ _ => [] end) l.
Fixpoint final_call (c : creation) (l : list hstep) : option creation :=
  match l with
  | [] => Some c
  | HBuild _ :: r => final_call c r
  | HSet f v :: r => match with_field c f v with Some c' => final_call c' r | None => None end
  end.
