(** Model of pySLM2/profile.py and pySLM2/window.py.
    A profile object is a term [prof] naming the tf.Variables it reads (locations in a heap [store]); derived
    profiles contain the term of the profile object they close over, so sharing is sharing of locations.
    [func] is the method `_func`, evaluated at one sample point (all the code is element-wise).
    Arithmetic is exact real / complex arithmetic; a non-finite result is [Err EUnmodelled]. *)
From Coq Require Import Reals ZArith Arith List Bool Lia.
From Coquelicot Require Import Complex.
From Verif Require Import Cx Sums PyBase.
Import ListNotations.
Open Scope R_scope.

(** A tensor element: real (BACKEND.dtype) or complex (BACKEND.dtype_complex). *)
Inductive val := VR (r : R) | VC (z : C).
Definition loc := nat.
(** tf.Variable storage: contents and allocation pointer. *)
Record heap := { h_val : loc -> val; h_next : loc }.
Definition heap0 : heap := {| h_val := fun _ => VR 0; h_next := 0%nat |}.
Definition h_alloc (v : val) (h : heap) : heap * loc :=
  ({| h_val := fun k => if Nat.eqb k (h_next h) then v else h_val h k; h_next := S (h_next h) |}, h_next h).
Definition h_set (l : loc) (v : val) (h : heap) : heap :=
  {| h_val := fun k => if Nat.eqb k l then v else h_val h k; h_next := h_next h |}.

Inductive binop := Oadd | Oradd | Osub | Omul | Ormul | Odiv.
(** Exponents: a profile, a Python int/float, a Python complex. *)
Inductive prof :=
| PBase                                              (* a bare FunctionProfile() *)
| PConst (c : loc)                                   (* ConstantProfile *)
| PHG (x0 y0 a w : loc) (n m : nat)                  (* HermiteGaussian *)
| PLG (x0 y0 a w : loc) (l : Z) (p : nat)            (* LaguerreGaussian *)
| PSG (x0 y0 a w p : loc)                            (* SuperGaussian *)
| PZern (a : loc) (radius : R) (n m : Z) (norm : option R) (extrap : bool) (coef : list R)   (* Zernike *)
| PRect (x0 y0 wx wy : loc)                          (* RectangularWindowRectangle *)
| PCirc (x0 y0 r : loc)                              (* RectangularWindowCircular *)
| PBin (o : binop) (p q : prof)                      (* result of + - * / (profile operands) *)
| PPow (p q : prof)                                  (* p ** profile *)
| PPowR (p : prof) (k : R)                           (* p ** int or float *)
| PPowC (p : prof) (k : C)                           (* p ** complex *)
| PRot (theta : R) (p : prof)
| PShift (dx dy : R) (p : prof)
| PScaleX (m : R) (p : prof)
| PScaleY (m : R) (p : prof)
| PAsC (p : prof).

(** ** Scalar functions *)
(** tf.math.polyval (Horner, highest coefficient first); [] gives zeros. *)
Definition polyval (coeffs : list R) (x : R) : R :=
  match coeffs with [] => 0 | c :: cs => fold_left (fun p c => c + p * x) cs c end.
(** Integer power by repeated multiplication. *)
Fixpoint cpown (z : C) (n : nat) : C := match n with O => RtoC 1 | S k => (z * cpown z k)%C end.
(** IEEE pow on reals, finite results only. *)
Definition rpow (x y : R) : option R :=
  if Req_EM_T y 0 then Some 1
  else if Rlt_dec 0 x then Some (Rpower x y)
  else if Req_EM_T x 0 then (if Rlt_dec 0 y then Some 0 else None)
  else if Req_EM_T y (IZR (Int_part y)) then Some (powerRZ x (Int_part y)) else None.
(** std::pow on complex numbers (principal branch), finite results only. *)
Definition cpow (z w : C) : option C :=
  if C_dec0 z then (if C_dec0 w then Some (RtoC 1) else if Rlt_dec 0 (fst w) then Some (RtoC 0) else None)
  else Some (cexp (w * (ln (Cmod z), carg z))%C).

(** scipy.special.hermite(n).coef, highest first: coefficients of the physicists' Hermite polynomial,
    by H_0 = 1, H_{k+1} = 2 x H_k - 2 k H_{k-1} (scipy itself is not modelled). [hermite_low] is lowest first. *)
Fixpoint zadd (a b : list Z) : list Z :=
  match a, b with [], _ => b | _, [] => a | x :: a', y :: b' => (x + y)%Z :: zadd a' b' end.
Fixpoint hermite_pair (n : nat) : list Z * list Z :=   (* (H_n, H_{n+1}) lowest first *)
  match n with
  | O => ([1%Z], [0%Z; 2%Z])
  | S k => let (a, b) := hermite_pair k in
           (b, zadd (0%Z :: map (fun c => 2 * c)%Z b) (map (fun c => - 2 * Z.of_nat (S k) * c)%Z a))
  end.
Definition hermite_low (n : nat) : list Z := fst (hermite_pair n).
Definition hermite_coef (n : nat) : list R := map IZR (rev (hermite_low n)).

(** scipy.special.genlaguerre(p, alpha).coef, highest first:
    coefficient of x^i is (-1)^i binom(p+alpha, p-i) / i!. *)
Definition laguerre_c (p al i : nat) : R :=
  (-1) ^ i * (INR (fact (p + al)) / (INR (fact (p - i)) * INR (fact (al + i)))) / INR (fact i).
Definition laguerre_coef (p al : nat) : list R := map (laguerre_c p al) (rev (seq 0 (S p))).

(** profile.py:394-405: the list `_coef` built in ascending order of the power, zeros except at n-2k. *)
Definition zern_entry (n mabs k : Z) : R :=
  (-1) ^ (Z.to_nat k) * INR (fact (Z.to_nat (n - k))) /
  (INR (fact (Z.to_nat k)) * INR (fact (Z.to_nat ((n + mabs) / 2 - k))) * INR (fact (Z.to_nat ((n - mabs) / 2 - k)))).
Fixpoint upd (l : list R) (i : nat) (v : R) : list R :=
  match l, i with
  | [], _ => []
  | _ :: r, O => v :: r
  | x :: r, S k => x :: upd r k v
  end.
Fixpoint zern_fill (n mabs : Z) (ks : list nat) (l : list R) : list R :=
  match ks with
  | [] => l
  | k :: r => zern_fill n mabs r (upd l (Z.to_nat (n - 2 * Z.of_nat k)) (zern_entry n mabs (Z.of_nat k)))
  end.
(** int((n - m_abs) / 2) + 1 iterations; (n-|m|) is even here, so truncation does not matter; a negative count
    means no iteration.  [0.0 for _ in range(n+1)] is empty for n < 0. *)
Definition zern_coef (n m : Z) : list R :=
  let mabs := Z.abs m in
  rev (zern_fill n mabs (seq 0 (Z.to_nat ((n - mabs) / 2 + 1))) (repeat 0 (Z.to_nat (n + 1)))).

(** profile.py:381-405 Zernike.__init__: the checks, in order; [math.sqrt] of a negative number raises ValueError. *)
Definition zern_norm (n m : Z) (normalize : bool) : res (option R) :=
  if normalize then
    (if (m =? 0)%Z then (if (n + 1 <? 0)%Z then Err ValueError else Ok (Some (sqrt (IZR (n + 1)))))
     else if (2 * n + 2 <? 0)%Z then Err ValueError else Ok (Some (sqrt (IZR (2 * n + 2)))))
  else Ok None.
Definition zernike_new (h : heap) (a radius : R) (n m : Z) (normalize extrap : bool) : res (heap * prof) :=
  if negb (m <=? n)%Z then Err ValueError
  else if negb ((n - m) mod 2 =? 0)%Z then Err ValueError
  else
    let! nrm := zern_norm n m normalize in
    let (h1, la) := h_alloc (VR a) h in
    Ok (h1, PZern la radius n m nrm extrap (zern_coef n m)).

(** profile.py:408-430 Zernike._func, at one point. *)
Definition zern_value (a radius : R) (n m : Z) (norm : option R) (extrap : bool) (coef : list R) (x y : R) : R :=
  let r := sqrt (x ^ 2 + y ^ 2) in
  let rho := r / radius in
  let zu :=
    if (n =? 0)%Z && (m =? 0)%Z then a
    else
      let phi := atan2 y x in
      let Rr := polyval coef rho in
      if (m =? 0)%Z then a * Rr
      else if (0 <? m)%Z then a * Rr * cos (IZR m * phi)
      else a * Rr * sin (- IZR m * phi) in
  let z := match norm with Some c => c * zu | None => zu end in
  if extrap then z else if Rlt_dec 1 rho then 0 else z.

(** ** Reading variables *)
Definition getR (h : heap) (l : loc) : R := match h_val h l with VR r => r | VC z => fst z end.
Definition to_c (v : val) : C := match v with VR r => RtoC r | VC z => z end.

(** Element-wise operators on tensors of equal dtype (profile.py:28); dtypes are equalised first (:24-27). *)
Definition bin_r (o : binop) (a b : R) : res val :=
  match o with
  | Oadd => Ok (VR (a + b)) | Oradd => Ok (VR (b + a)) | Osub => Ok (VR (a - b))
  | Omul => Ok (VR (a * b)) | Ormul => Ok (VR (b * a))
  | Odiv => if Req_EM_T b 0 then Err EUnmodelled else Ok (VR (a / b))
  end.
Definition bin_c (o : binop) (a b : C) : res val :=
  match o with
  | Oadd => Ok (VC (a + b)%C) | Oradd => Ok (VC (b + a)%C) | Osub => Ok (VC (a - b)%C)
  | Omul => Ok (VC (a * b)%C) | Ormul => Ok (VC (b * a)%C)
  | Odiv => if C_dec0 b then Err EUnmodelled else Ok (VC (a / b)%C)
  end.
(** profile.py:21-28. *)
Definition bin_val (o : binop) (a b : val) : res val :=
  match a, b with
  | VR x, VR y => bin_r o x y
  | VC x, VR y => bin_c o x (RtoC y)
  | VR x, VC y => bin_c o (RtoC x) y
  | VC x, VC y => bin_c o x y
  end.
Definition lift_or (o : option R) : res val := match o with Some r => Ok (VR r) | None => Err EUnmodelled end.
Definition lift_oc (o : option C) : res val := match o with Some z => Ok (VC z) | None => Err EUnmodelled end.
Definition pow_val (a b : val) : res val :=
  match a, b with
  | VR x, VR y => lift_or (rpow x y)
  | VC x, VR y => lift_oc (cpow x (RtoC y))
  | VR x, VC y => lift_oc (cpow (RtoC x) y)
  | VC x, VC y => lift_oc (cpow x y)
  end.
Definition ind (b : bool) : R := if b then 1 else 0.
Definition Rltb (a b : R) : bool := if Rlt_dec a b then true else false.
Definition Rleb (a b : R) : bool := if Rle_dec a b then true else false.

(** profile.py:226-232. *)
Definition hg_value (x0 y0 a w : R) (n m : nat) (x y : R) : R :=
  let xn := (x - x0) / w in
  let yn := (y - y0) / w in
  a * polyval (hermite_coef n) (sqrt 2 * xn) * polyval (hermite_coef m) (sqrt 2 * yn) * exp (- (xn ^ 2 + yn ^ 2)).
(** profile.py:287-299; exp(-1j*l*phi) with real l, phi. *)
Definition lg_value (x0 y0 a w : R) (l : Z) (p : nat) (x y : R) : C :=
  let r2 := (x - x0) ^ 2 + (y - y0) ^ 2 in
  let r := sqrt r2 in
  let phi := atan2 (y - y0) (x - x0) in
  let Lpl := polyval (laguerre_coef p (Z.abs_nat l)) (2 * r2 / w ^ 2) in
  let amplitude := a * (sqrt 2 * r / w) ^ (Z.abs_nat l) * exp (- r2 / w ^ 2) * Lpl in
  (RtoC amplitude * cis (- IZR l * phi))%C.
(** profile.py:330-337; the base of the power is a sum of squares. *)
Definition sg_value (x0 y0 a w p : R) (x y : R) : option R :=
  let xn := (x - x0) / w in
  let yn := (y - y0) / w in
  match rpow (xn ^ 2 + yn ^ 2) p with Some q => Some (a * exp (- q)) | None => None end.
(** window.py:15-18. *)
Definition rect_value (x0 y0 wx wy : R) (x y : R) : R :=
  ind (Rltb (Rabs (x - x0)) (wx / 2)) * ind (Rltb (Rabs (y - y0)) (wy / 2)).
(** window.py:58-60. *)
Definition circ_value (x0 y0 r : R) (x y : R) : R :=
  ind (Rleb ((x - x0) ^ 2 + (y - y0) ^ 2) (r ^ 2)).

(** ** `_func(x, y)` at one point. *)
Fixpoint func (h : heap) (p : prof) (x y : R) : res val :=
  match p with
  | PBase => Err NotImplementedError                                               (* profile.py:10-12 *)
  | PConst c => Ok (h_val h c)                                                     (* profile.py:176-178 *)
  | PHG x0 y0 a w n m =>
      if Req_EM_T (getR h w) 0 then Err EUnmodelled
      else Ok (VR (hg_value (getR h x0) (getR h y0) (getR h a) (getR h w) n m x y))
  | PLG x0 y0 a w l p =>
      if Req_EM_T (getR h w) 0 then Err EUnmodelled
      else Ok (VC (lg_value (getR h x0) (getR h y0) (getR h a) (getR h w) l p x y))
  | PSG x0 y0 a w p =>
      if Req_EM_T (getR h w) 0 then Err EUnmodelled
      else lift_or (sg_value (getR h x0) (getR h y0) (getR h a) (getR h w) (getR h p) x y)
  | PZern a radius n m norm extrap coef =>
      if Req_EM_T radius 0 then Err EUnmodelled
      else Ok (VR (zern_value (getR h a) radius n m norm extrap coef x y))
  | PRect x0 y0 wx wy => Ok (VR (rect_value (getR h x0) (getR h y0) (getR h wx) (getR h wy) x y))
  | PCirc x0 y0 r => Ok (VR (circ_value (getR h x0) (getR h y0) (getR h r) x y))
  | PBin o p q =>                                                                  (* profile.py:19-28 *)
      let! a := func h p x y in let! b := func h q x y in bin_val o a b
  | PPow p q => let! a := func h p x y in let! b := func h q x y in pow_val a b
  | PPowR p k =>                                                                   (* profile.py:29-30 *)
      let! a := func h p x y in pow_val a (VR k)
  | PPowC p k =>                                                                   (* profile.py:31-33 *)
      let! a := func h p x y in lift_oc (cpow (to_c a) k)
  | PRot th p => func h p (cos th * x - sin th * y) (sin th * x + cos th * y)      (* profile.py:106-109 *)
  | PShift dx dy p => func h p (x - dx) (y - dy)                                   (* profile.py:132-135 *)
  | PScaleX m p => if Req_EM_T m 0 then Err EUnmodelled else func h p (x / m) y    (* profile.py:141-144 *)
  | PScaleY m p => if Req_EM_T m 0 then Err EUnmodelled else func h p x (y / m)    (* profile.py:150-153 *)
  | PAsC p => let! a := func h p x y in Ok (VC (cexp (Ci * to_c a)%C))             (* profile.py:168-169 *)
  end.

(** Does `_func` return a rank-0 tensor whatever the sample grid?  ConstantProfile ignores x and y. *)
Fixpoint scalar_valued (p : prof) : bool :=
  match p with
  | PConst _ => true
  | PBin _ p q | PPow p q => scalar_valued p && scalar_valued q
  | PPowR p _ | PPowC p _ | PRot _ p | PShift _ _ p | PScaleX _ p | PScaleY _ p | PAsC p => scalar_valued p
  | _ => false
  end.

(** ** Constructors and operators (object creation). *)
(** Python operands of an operator. *)
Inductive operand := OProf (p : prof) | OReal (r : R) | OComplex (z : C) | OOther.   (* int and float are OReal *)
(** profile.py:173-174. *)
Definition new_const (h : heap) (v : val) : heap * prof := let (h1, l) := h_alloc v h in (h1, PConst l).
(** profile.py:38-78: a number becomes a ConstantProfile, anything that is neither raises NotImplementedError. *)
Definition p_binop (o : binop) (h : heap) (p : prof) (q : operand) : heap * res prof :=
  match q with
  | OProf q => (h, Ok (PBin o p q))
  | OReal r => let (h1, c) := new_const h (VR r) in (h1, Ok (PBin o p c))
  | OComplex z => let (h1, c) := new_const h (VC z) in (h1, Ok (PBin o p c))
  | OOther => (h, Err NotImplementedError)
  end.
(** profile.py:80-83. *)
Definition p_pow (p : prof) (q : operand) : res prof :=
  match q with
  | OProf q => Ok (PPow p q) | OReal r => Ok (PPowR p r) | OComplex z => Ok (PPowC p z)
  | OOther => Err NotImplementedError
  end.
(** profile.py:85-86. *)
Definition p_neg (h : heap) (p : prof) : heap * res prof := p_binop Omul h p (OReal (-1)).
(** profile.py:88-170. *)
Definition p_rotate (p : prof) (theta : R) : prof := PRot theta p.
Definition p_shift (p : prof) (dx dy : R) : prof := PShift dx dy p.
Definition p_rescale_x (p : prof) (m : R) : prof := PScaleX m p.
Definition p_rescale_y (p : prof) (m : R) : prof := PScaleY m p.
Definition p_as_complex (p : prof) : prof := PAsC p.

Definition alloc_reals (h : heap) (l : list R) : heap * loc :=
  (fold_left (fun h r => fst (h_alloc (VR r) h)) l h, h_next h).
(** profile.py:215-224; scipy.special.hermite rejects negative orders. *)
Definition hg_new (h : heap) (x0 y0 a w : R) (n m : Z) : res (heap * prof) :=
  if (n <? 0)%Z || (m <? 0)%Z then Err ValueError
  else let (h1, l) := alloc_reals h [x0; y0; a; w] in
       Ok (h1, PHG l (l + 1)%nat (l + 2)%nat (l + 3)%nat (Z.to_nat n) (Z.to_nat m)).
(** profile.py:276-284; scipy.special.genlaguerre rejects negative p. *)
Definition lg_new (h : heap) (x0 y0 a w : R) (l p : Z) : res (heap * prof) :=
  if (p <? 0)%Z then Err ValueError
  else let (h1, k) := alloc_reals h [x0; y0; a; w] in
       Ok (h1, PLG k (k + 1)%nat (k + 2)%nat (k + 3)%nat l (Z.to_nat p)).
(** profile.py:323-328. *)
Definition sg_new (h : heap) (x0 y0 a w p : R) : heap * prof :=
  let (h1, l) := alloc_reals h [x0; y0; a; w; p] in (h1, PSG l (l + 1)%nat (l + 2)%nat (l + 3)%nat (l + 4)%nat).
(** window.py:9-13. *)
Definition rect_new (h : heap) (x0 y0 wx wy : R) : heap * prof :=
  let (h1, l) := alloc_reals h [x0; y0; wx; wy] in (h1, PRect l (l + 1)%nat (l + 2)%nat (l + 3)%nat).
(** window.py:53-56. *)
Definition circ_new (h : heap) (x0 y0 r : R) : heap * prof :=
  let (h1, l) := alloc_reals h [x0; y0; r] in (h1, PCirc l (l + 1)%nat (l + 2)%nat).

(** ** Attribute assignment. *)
Inductive field := Fx0 | Fy0 | Fa | Fw | Fp | Fc | Fwx | Fwy | Fr | Fn | Fm | Fradius | Fnorm.
(** What `obj.field = value` reaches: a property with a setter on a Variable, a read-only property, or nothing
    (Python then just creates an ordinary attribute that no method reads). *)
Inductive target := Setter (l : loc) | ReadOnly | PlainAttr.
Definition attr_target (p : prof) (f : field) : target :=
  match p, f with
  | PConst c, Fc => Setter c                                                       (* profile.py:184-186 *)
  | PHG x0 _ _ _ _ _, Fx0 | PSG x0 _ _ _ _, Fx0 | PRect x0 _ _ _, Fx0 | PCirc x0 _ _, Fx0 => Setter x0
  | PHG _ y0 _ _ _ _, Fy0 | PSG _ y0 _ _ _, Fy0 | PRect _ y0 _ _, Fy0 | PCirc _ y0 _, Fy0 => Setter y0
  | PHG _ _ a _ _ _, Fa | PSG _ _ a _ _, Fa | PZern a _ _ _ _ _ _, Fa => Setter a
  | PHG _ _ _ w _ _, Fw | PSG _ _ _ w _, Fw => Setter w
  | PSG _ _ _ _ q, Fp => Setter q                                                  (* profile.py:375-377 *)
  | PRect _ _ wx _, Fwx => Setter wx                                               (* window.py:40-42 *)
  | PRect _ _ _ wy, Fwy => Setter wy                                               (* window.py:48-50 *)
  | PCirc _ _ r, Fr => Setter r                                                    (* window.py:82-84 *)
  | PHG _ _ _ _ _ _, Fn | PHG _ _ _ _ _ _, Fm => ReadOnly                          (* profile.py:266-272 *)
  | PZern _ _ _ _ _ _ _, Fn | PZern _ _ _ _ _ _ _, Fm | PZern _ _ _ _ _ _ _, Fradius
  | PZern _ _ _ _ _ _ _, Fnorm => ReadOnly                                          (* profile.py:441-458 *)
  | _, _ => PlainAttr                                                              (* e.g. LaguerreGaussian *)
  end.
(** tf.Variable.assign: a real variable takes a real value only, a complex one takes both. *)
Definition assign (h : heap) (l : loc) (v : val) : heap * res unit :=
  match h_val h l, v with
  | VR _, VR r => (h_set l (VR r) h, Ok tt)
  | VC _, v => (h_set l (VC (to_c v)) h, Ok tt)
  | VR _, VC _ => (h, Err TypeError)
  end.
Definition set_attr (h : heap) (p : prof) (f : field) (v : val) : heap * res unit :=
  match attr_target p f with
  | Setter l => assign h l v
  | ReadOnly => (h, Err AttributeError)
  | PlainAttr => (h, Ok tt)
  end.
(** ** Reading an attribute `obj.field`.
    A plain attribute created by an earlier assignment (PlainAttr above) is not recorded: this is the object as built. *)
Inductive got := GotVar (v : val)     (* Variable.value() *)
  | GotInt (z : Z) | GotFloat (r : R) | GotNone.
Definition get_attr (h : heap) (p : prof) (f : field) : res got :=
  match p, f with
  | PConst c, Fc => Ok (GotVar (h_val h c))                                        (* profile.py:180-182 *)
  | PHG x0 _ _ _ _ _, Fx0 | PSG x0 _ _ _ _, Fx0 | PRect x0 _ _ _, Fx0 | PCirc x0 _ _, Fx0 => Ok (GotVar (h_val h x0))
  | PHG _ y0 _ _ _ _, Fy0 | PSG _ y0 _ _ _, Fy0 | PRect _ y0 _ _, Fy0 | PCirc _ y0 _, Fy0 => Ok (GotVar (h_val h y0))
  | PHG _ _ a _ _ _, Fa | PSG _ _ a _ _, Fa | PZern a _ _ _ _ _ _, Fa => Ok (GotVar (h_val h a))
  | PHG _ _ _ w _ _, Fw | PSG _ _ _ w _, Fw => Ok (GotVar (h_val h w))              (* profile.py:258-260, 363-365 *)
  | PSG _ _ _ _ q, Fp => Ok (GotVar (h_val h q))                                   (* profile.py:371-373 *)
  | PRect _ _ wx _, Fwx => Ok (GotVar (h_val h wx))                                (* window.py:36-38 *)
  | PRect _ _ _ wy, Fwy => Ok (GotVar (h_val h wy))                                (* window.py:44-46 *)
  | PCirc _ _ r, Fr => Ok (GotVar (h_val h r))                                     (* window.py:78-80 *)
  | PHG _ _ _ _ n _, Fn => Ok (GotInt (Z.of_nat n))                                (* profile.py:266-268 *)
  | PHG _ _ _ _ _ m, Fm => Ok (GotInt (Z.of_nat m))                                (* profile.py:270-272 *)
  | PZern _ radius _ _ _ _ _, Fradius => Ok (GotFloat radius)                      (* profile.py:441-443 *)
  | PZern _ _ _ _ norm _ _, Fnorm => Ok (match norm with Some c => GotFloat c | None => GotNone end)   (* :448-450 *)
  | PZern _ _ _ _ _ _ _, Fn | PZern _ _ _ _ _ _ _, Fm => Err AttributeError         (* :452-458, `.value()` of a tf.constant *)
  | _, _ => Err AttributeError                                                     (* LaguerreGaussian has no property *)
  end.
(** profile.py:445-446 Zernike.is_normalized. *)
Definition is_normalized (p : prof) : res bool :=
  match p with
  | PZern _ _ _ _ norm _ _ => Ok (match norm with Some _ => true | None => false end)
  | _ => Err AttributeError
  end.
(** Variables read by a profile. *)
Fixpoint locs (p : prof) : list loc :=
  match p with
  | PBase => []
  | PConst c => [c]
  | PHG a b c d _ _ | PLG a b c d _ _ | PRect a b c d => [a; b; c; d]
  | PSG a b c d e => [a; b; c; d; e]
  | PZern a _ _ _ _ _ _ => [a]
  | PCirc a b c => [a; b; c]
  | PBin _ p q | PPow p q => locs p ++ locs q
  | PPowR p _ | PPowC p _ | PRot _ p | PShift _ _ p | PScaleX _ p | PScaleY _ p | PAsC p => locs p
  end.
