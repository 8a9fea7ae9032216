(** Common vocabulary of the model: Python exceptions as values, tensors with broadcasting,
    extended reals. *)
From Coq Require Import Reals Lra Lia ZArith Arith List Bool.
From Coquelicot Require Import Complex.
From Verif Require Import Cx Sums.
Import ListNotations.
Open Scope R_scope.

(** Python exceptions raised by the modelled code.  [EHardware] stands for any exception raised by a vendor
    library call, [ETensorFlow] for shape / rank errors raised by TensorFlow or numpy.
    [EUnmodelled] is not a Python exception: it marks executions that leave the modelled domain because a
    non-finite float (inf / NaN) is produced by user-supplied profile arithmetic; no theorem concludes
    anything about the values of such executions. *)
Inductive exn :=
| TypeError | ValueError | KeyError | AssertionError | AttributeError | NotImplementedError
| ZeroDivisionError | ModuleNotFoundError | PlainException | ETensorFlow | EHardware | EUnmodelled.

Inductive res (A : Type) := Ok (a : A) | Err (e : exn).
Arguments Ok {A}. Arguments Err {A}.
Definition rbind {A B} (r : res A) (k : A -> res B) : res B :=
  match r with Ok a => k a | Err e => Err e end.
Definition rmap {A B} (f : A -> B) (r : res A) : res B :=
  match r with Ok a => Ok (f a) | Err e => Err e end.
Notation "'let!' x := e 'in' k" := (rbind e (fun x => k)) (at level 200, x pattern, right associativity).

(** ** Tensors: rank 0 and rank 2 only (rank-1 and rank >= 3 arrays are not modelled). *)
Inductive tensor (A : Type) := T0 (a : A) | T2 (ny nx : nat) (f : nat -> nat -> A).
Arguments T0 {A}. Arguments T2 {A}.
Inductive shape := S0 | S2 (ny nx : nat).
Definition tshape {A} (t : tensor A) : shape := match t with T0 _ => S0 | T2 ny nx _ => S2 ny nx end.

(** numpy / TensorFlow broadcasting of one dimension: equal sizes, or one of them 1. *)
Definition bdim (a b : nat) : option nat :=
  if Nat.eqb a b then Some a else if Nat.eqb a 1 then Some b else if Nat.eqb b 1 then Some a else None.
Definition bshape (s t : shape) : option shape :=
  match s, t with
  | S0, _ => Some t
  | _, S0 => Some s
  | S2 a b, S2 c d => match bdim a c, bdim b d with Some y, Some x => Some (S2 y x) | _, _ => None end
  end.
(** Element read with broadcasting: dimensions of size 1 are repeated. *)
Definition tget {A} (t : tensor A) (i j : nat) : A :=
  match t with
  | T0 a => a
  | T2 ny nx f => f (if Nat.eqb ny 1 then 0%nat else i) (if Nat.eqb nx 1 then 0%nat else j)
  end.
Definition mk {A} (s : shape) (f : nat -> nat -> A) : tensor A :=
  match s with S0 => T0 (f 0%nat 0%nat) | S2 ny nx => T2 ny nx f end.
Definition tmap {A B} (g : A -> B) (t : tensor A) : tensor B :=
  match t with T0 a => T0 (g a) | T2 ny nx f => T2 ny nx (fun i j => g (f i j)) end.
Definition bc2 {A B} (a : tensor A) (b : tensor B) : res shape :=
  match bshape (tshape a) (tshape b) with Some s => Ok s | None => Err ETensorFlow end.
(** Element-wise binary operation with broadcasting. *)
Definition tmap2 {A B D} (g : A -> B -> D) (a : tensor A) (b : tensor B) : res (tensor D) :=
  let! s := bc2 a b in Ok (mk s (fun i j => g (tget a i j) (tget b i j))).
Definition bshape_r (r : res shape) (t : shape) : res shape :=
  let! s := r in match bshape s t with Some s' => Ok s' | None => Err ETensorFlow end.

Lemma tget_T2 {A} ny nx (f : nat -> nat -> A) i j : (i < ny)%nat -> (j < nx)%nat -> tget (T2 ny nx f) i j = f i j.
Proof.
  intros Hi Hj. unfold tget.
  destruct (Nat.eqb_spec ny 1) as [->|_]; destruct (Nat.eqb_spec nx 1) as [->|_]; f_equal; lia.
Qed.
Lemma bdim_refl n : bdim n n = Some n.
Proof. unfold bdim. rewrite Nat.eqb_refl. reflexivity. Qed.

(** Tensors of the same shape with the same entries inside the bounds. *)
Definition teq {A} (a b : tensor A) : Prop :=
  match a, b with
  | T0 x, T0 y => x = y
  | T2 ny nx f, T2 ny' nx' g => ny = ny' /\ nx = nx' /\ forall i j, (i < ny)%nat -> (j < nx)%nat -> f i j = g i j
  | _, _ => False
  end.
Lemma teq_refl {A} (a : tensor A) : teq a a.
Proof. destruct a; simpl; auto. Qed.

(** ** Extended reals: IEEE special values without rounding and without signed zeros. *)
Inductive xr := Fin (r : R) | PInf | MInf | NaN.
(** [a > b] for an IEEE value against a finite number; comparisons with NaN are false. *)
Definition xgtb (a : xr) (b : R) : bool :=
  match a with Fin r => if Rlt_dec b r then true else false | PInf => true | MInf => false | NaN => false end.
Definition xneg (a : xr) : xr := match a with Fin r => Fin (- r) | PInf => MInf | MInf => PInf | NaN => NaN end.
(** IEEE multiplication by a finite number (0 * inf = NaN). *)
Definition xscale (a : xr) (r : R) : xr :=
  match a with
  | Fin b => Fin (b * r)
  | NaN => NaN
  | PInf => if Rlt_dec 0 r then PInf else if Rlt_dec r 0 then MInf else NaN
  | MInf => if Rlt_dec 0 r then MInf else if Rlt_dec r 0 then PInf else NaN
  end.
(** IEEE division (denominator zero taken as +0). *)
Definition xdiv (a b : xr) : xr :=
  match a, b with
  | NaN, _ => NaN | _, NaN => NaN
  | Fin x, Fin y => if Req_EM_T y 0 then (if Rlt_dec 0 x then PInf else if Rlt_dec x 0 then MInf else NaN) else Fin (x / y)
  | Fin _, _ => Fin 0
  | PInf, Fin y => if Rlt_dec y 0 then MInf else PInf
  | MInf, Fin y => if Rlt_dec y 0 then PInf else MInf
  | _, _ => NaN
  end.
(** Maximum; NaN is absorbing. *)
Definition xmax (a b : xr) : xr :=
  match a, b with
  | NaN, _ => NaN | _, NaN => NaN
  | PInf, _ => PInf | _, PInf => PInf
  | MInf, y => y | x, MInf => x
  | Fin x, Fin y => Fin (Rmax x y)
  end.
(** tf.math.asin: NaN outside [-1, 1]. *)
Definition xasin (a : xr) : xr :=
  match a with
  | Fin x => if Rle_dec (-1) x then (if Rle_dec x 1 then Fin (asin x) else NaN) else NaN
  | _ => NaN
  end.
